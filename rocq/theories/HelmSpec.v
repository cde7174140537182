(** What the Helmholtz expansions have to compute.  Of the code only the records for points
    and charges appear here. *)
From Coq Require Import Reals List.
From Verif Require Import Base LapModel LapSpec BesselSpec OscSpec YukSpec.
Import ListNotations.
Open Scope R_scope.

(** The field at [t] of point sources with the wave number [omega], in the units of the code:
    exp (i x) / (i x) at x = omega R, that is sin x / x - i cos x / x, for a source at the
    distance R. *)
Definition wave_re (omega : R) (l : list charge) (t : pt) : R :=
  fold_right (fun s v => cq s * (sin (omega * dist t (cpos s)) / (omega * dist t (cpos s))) + v) 0 l.
Definition wave_im (omega : R) (l : list charge) (t : pt) : R :=
  fold_right (fun s v => cq s * (- cos (omega * dist t (cpos s)) / (omega * dist t (cpos s))) + v) 0 l.

(** [bJn nb x] approximates the Bessel functions J_(n + 1/2), n < nb; sqrt (PI / (2 x)) times
    these are the spherical functions j_n.  The accuracy is [eta] in units of the bounds
    i_n(x) and exp x k_n(x) of |j_n(x)|, and the result is never closer to zero than 1e-200:
    the code takes the first value below 1e-300 for the beginning of an underflow and sets all
    that follow to zero.  What the expansions need: up to 19 functions, x from 1e-4 to 100. *)
Definition computes_J (bJn : nat -> R -> res (list R)) (eta : R) : Prop :=
  forall nb x, (nb <= 19)%nat -> / 10 ^ 4 <= x <= 10 ^ 2 -> exists vals, bJn nb x = Ok vals /\
    forall n, (n < nb)%nat -> exists v, nth_error vals n = Some v /\ / 10 ^ 200 <= Rabs (sqrt (PI / 2 / x) * v) /\
      Rabs (sqrt (PI / 2 / x) * v - sph_j n x) <= eta * sph_i n x /\ Rabs (sqrt (PI / 2 / x) * v - sph_j n x) <= eta * (exp x * sph_k n x).

(** The same for Y_(n + 1/2) and y_n, |y_n(x)| <= exp x k_n(x). *)
Definition computes_Y (bYn : nat -> R -> res (list R)) (eta : R) : Prop :=
  forall nb x, (nb <= 19)%nat -> / 10 ^ 4 <= x <= 10 ^ 2 -> exists vals, bYn nb x = Ok vals /\
    forall n, (n < nb)%nat -> exists v, nth_error vals n = Some v /\ Rabs (sqrt (PI / 2 / x) * v - sph_y n x) <= eta * (exp x * sph_k n x).

(** Bound on the error (of the real and of the imaginary part) of an expansion of degree [p]
    about a point from which the nearer of the two particles is at most at the distance [a] and
    the farther at least at [r], in units of 1 / omega: truncation, the inaccuracy [eta] of the
    Bessel functions, numbers below 1e-300. *)
Definition helm_error (p : nat) (eta a r : R) : R :=
  exp r * (truncation p a r + 3 * eta * (exp (- (r - a)) / (r - a)) + / 10 ^ 260 / r).
