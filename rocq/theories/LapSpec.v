(** What the Laplace expansions have to compute.  Of the code only the records for points
    and charges appear here. *)
From Coq Require Import Reals List.
From Verif Require Import LapModel.
Import ListNotations.
Open Scope R_scope.

Definition dist (a b : pt) : R := sqrt ((px a - px b) ^ 2 + (py a - py b) ^ 2 + (pz a - pz b) ^ 2).

(** The potential at [t] of point charges. *)
Definition coulomb (l : list charge) (t : pt) : R := fold_right (fun s v => cq s / dist t (cpos s) + v) 0 l.
Definition total_charge (l : list charge) : R := fold_right (fun s v => Rabs (cq s) + v) 0 l.

(** The code treats points that lie within 1e-14 of the centre or within the ratio 1e-14 of
    the vertical line through it as if they lay in a standard direction.  [seen c x x']: the
    position [x] is taken for [x'], at the same distance from the centre [c]. *)
Definition off_axis (c x : pt) : R := sqrt ((px x - px c) ^ 2 + (py x - py c) ^ 2).
Definition regular (c x : pt) : Prop := / 10 ^ 14 < dist c x /\ (off_axis c x = 0 \/ / 10 ^ 14 * dist c x < off_axis c x).
Definition seen (c x x' : pt) : Prop :=
  dist c x' = dist c x /\ dist x x' <= 2 * / 10 ^ 14 * Rmax 1 (dist c x) /\ (regular c x -> x' = x).

(** The same charges at other positions. *)
Definition seen_charges (c : pt) (l l' : list charge) : Prop :=
  Forall2 (fun s s' => cq s' = cq s /\ seen c (cpos s) (cpos s')) l l'.
