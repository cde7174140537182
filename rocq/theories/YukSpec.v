(** What the Yukawa expansions have to compute.  Of the code only the records for points and
    charges appear here. *)
From Coq Require Import Reals List.
From Verif Require Import Base LapModel LapSpec BesselSpec.
Import ListNotations.
Open Scope R_scope.

(** The potential at [t] of point charges with the screening parameter [lambda], in the
    units of the code: the direct sum S_to_T carries the factor PI / 2 and divides by lambda. *)
Definition screened (lambda : R) (l : list charge) (t : pt) : R :=
  fold_right (fun s v => cq s * (PI / 2) * (exp (- (lambda * dist t (cpos s))) / (lambda * dist t (cpos s))) + v) 0 l.

(** [bIn nb x] approximates the Bessel functions I_(n + 1/2), n < nb, to the relative
    accuracy [eta]; sqrt (PI / (2 x)) I_(n + 1/2) is the spherical function i_n.  What the
    expansions need: up to 20 of them, for x between 1e-4 and 100. *)
Definition computes_I (bIn : nat -> R -> res (list R)) (eta : R) : Prop :=
  forall nb x, (1 <= nb <= 20)%nat -> / 10 ^ 4 < x <= 10 ^ 2 -> exists vals, bIn nb x = Ok vals /\
    forall n, (n < nb)%nat -> exists v, nth_error vals n = Some v /\ Rabs (sqrt (PI / 2 / x) * v - sph_i n x) <= eta * sph_i n x.

(** Bound on the error of an expansion of degree [p] about a point from which the nearer of
    the two particles is at the distance [a] and the farther at [r], in units of 1 / lambda:
    truncation, the inaccuracy [eta] of the Bessel functions, numbers below 1e-300. *)
Definition truncation (p : nat) (a r : R) : R :=
  2 * r / ((r - a) * (r - a)) * (exp (a * a / (2 * (2 * INR p + 3))) * (1 + a * a / ((2 * INR p + 1) * (2 * INR p + 3)))) * (a / r) ^ (p + 1).
Definition yuk_error (p : nat) (eta a r : R) : R :=
  PI / 2 * (truncation p a r + eta * (exp (- (r - a)) / (r - a)) + / 10 ^ 260 / r).
