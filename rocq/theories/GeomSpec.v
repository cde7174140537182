(** Boxes, without reference to the code. *)
From Coq Require Import ZArith QArith List.
From Verif Require Import IndexModel RefineModel GeomModel.
Open Scope Q_scope.

(** Cell [k] of the 2^L equal parts of [low, low + size]: half-open, except that the last
    one contains its upper end. *)
Definition in_part (low size : Q) (L : Z) (k : Z) (x : Q) : Prop :=
  let h := size / inject_Z (2 ^ L) in
  low + inject_Z k * h <= x /\
  (x < low + inject_Z (k + 1) * h \/ ((k + 1 = 2 ^ L)%Z /\ x <= low + inject_Z (k + 1) * h)).

Definition in_box (d : domain) (i : index) (p : point) : Prop :=
  forall a, in_part (coord a (dlow d)) (dsize d) (ilevel i) (icoord a i) (coord a p).
(** The closed box. *)
Definition in_closed (d : domain) (i : index) (p : point) : Prop :=
  forall a, let h := dsize d / inject_Z (2 ^ ilevel i) in
    coord a (dlow d) + inject_Z (icoord a i) * h <= coord a p <= coord a (dlow d) + inject_Z (icoord a i + 1) * h.
(** The domain. *)
Definition in_domain (d : domain) (p : point) : Prop :=
  forall a, coord a (dlow d) <= coord a p <= coord a (dlow d) + dsize d.

(** [v] is the tightest box around the points. *)
Definition hull (v : bounds) (ps : list point) : Prop :=
  forall a, (forall p, In p ps -> coord a (bmin v) <= coord a p <= coord a (bmax v)) /\
            (exists p, In p ps /\ coord a p == coord a (bmin v)) /\ (exists p, In p ps /\ coord a p == coord a (bmax v)).
