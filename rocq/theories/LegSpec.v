(** Textbook definitions of the Legendre functions and of the potential of point charges.
    Nothing here refers to the code. *)
From Coq Require Import Reals List.
From Coquelicot Require Import Coquelicot.
Import ListNotations.
Open Scope R_scope.

(** Legendre polynomial, by Rodrigues' formula. *)
Definition legendre (n : nat) (x : R) : R := Derive_n (fun y => (y * y - 1) ^ n) n x / (2 ^ n * INR (fact n)).

(** Associated Legendre function with the Condon-Shortley phase (-1)^m. *)
Definition assoc_legendre (n m : nat) (x : R) : R := (-1) ^ m * sqrt (1 - x * x) ^ m * Derive_n (legendre n) m x.
