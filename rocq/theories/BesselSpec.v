(** Modified spherical Bessel functions, by the textbook formulas
    i_n = x^n (1/x d/dx)^n (sinh x / x) and k_n = (-x)^n (1/x d/dx)^n (exp (-x) / x), unrolled.
    Nothing here refers to the code. *)
From Coq Require Import Reals.
From Coquelicot Require Import Coquelicot.
Open Scope R_scope.

Fixpoint sph_i (n : nat) (x : R) : R :=
  match n with O => sinh x / x | S m => Derive (sph_i m) x - INR m / x * sph_i m x end.
Fixpoint sph_k (n : nat) (x : R) : R :=
  match n with O => exp (- x) / x | S m => INR m / x * sph_k m x - Derive (sph_k m) x end.
