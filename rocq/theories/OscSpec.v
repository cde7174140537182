(** Spherical Bessel functions, by the textbook formulas j_n = (-x)^n (1/x d/dx)^n (sin x / x)
    and y_n = - (-x)^n (1/x d/dx)^n (cos x / x), unrolled.  Nothing here refers to the code. *)
From Coq Require Import Reals.
From Coquelicot Require Import Coquelicot.
Open Scope R_scope.

Fixpoint sph_j (n : nat) (x : R) : R :=
  match n with O => sin x / x | S m => INR m / x * sph_j m x - Derive (sph_j m) x end.
Fixpoint sph_y (n : nat) (x : R) : R :=
  match n with O => - cos x / x | S m => INR m / x * sph_y m x - Derive (sph_y m) x end.
