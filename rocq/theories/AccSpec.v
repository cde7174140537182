(** Fields of charges, without reference to the code. *)
From Coq Require Import Reals List.
From Verif Require Import Base ComModel ComSpec AccModel.
Import ListNotations.
Open Scope R_scope.

(** A group that is empty or has a total other than zero has a centre of charge. *)
Definition charged (l : list source) : Prop := l = [] \/ total l <> 0.
Fixpoint all_charged (p : plan) : Prop :=
  match p with Group l => charged l | Merge a b => charged (members p) /\ all_charged a /\ all_charged b end.
(** Carrying out a plan with the operations of the code. *)
Fixpoint acc_combine (p : plan) : com :=
  match p with
  | Group l => acc_S_to_M l
  | Merge a b => acc_add (acc_combine a) (acc_M_to_M (acc_combine b))
  end.

(** A component of the field at (x, y, z) of the sources when their distances to the centre of charge are scaled with
    [e]: the component along [c] of the distance over its cube.  At e = 1 it is the field of the sources themselves. *)
Definition scaled_field (c : source -> R) (w : R) (l : list source) (x y z e : R) : R :=
  moment (fun s => (w - (centre c l + e * dev c l s)) / (scaled_dist2 l x y z e s * sqrt (scaled_dist2 l x y z e s))) l.
(** [a] is the expansion of [f] at 0 up to the second order, taken at 1. *)
Definition second_order (f : R -> R) (a : R) : Prop :=
  exists f1 f2, (exists d, 0 < d /\ forall e, Rabs e < d -> derivable_pt_lim f e (f1 e)) /\ derivable_pt_lim f1 0 f2 /\
    a = f 0 + f1 0 + f2 / 2.
(** [g] is the gradient of [f] at (x, y, z). *)
Definition gradient (f : R -> R -> R -> R) (x y z : R) (g : R * R * R) : Prop :=
  let '(a, b, c) := g in
  derivable_pt_lim (fun v => f v y z) x a /\ derivable_pt_lim (fun v => f x v z) y b /\ derivable_pt_lim (fun v => f x y v) z c.
Definition opp3 (g : R * R * R) : R * R * R := let '(a, b, c) := g in (- a, - b, - c).
(** The potential of charges at (x, y, z). *)
Definition potential (l : list source) (x y z : R) : R := moment (fun s => / sqrt ((x - sx s) ^ 2 + (y - sy s) ^ 2 + (z - sz s) ^ 2)) l.
(** The sources that are not at (x, y, z). *)
Definition elsewhere (x y z : R) (l : list source) : list source :=
  filter (fun s => if Rlt_dec 0 ((x - sx s) ^ 2 + (y - sy s) ^ 2 + (z - sz s) ^ 2) then true else false) l.
(** An expansion with the sign of the quadrupole turned. *)
Definition turned (t : com) : com := mkCom (mtot t) (cx t) (cy t) (cz t) (- qxx t) (- qxy t) (- qxz t) (- qyy t) (- qyz t) (- qzz t).
