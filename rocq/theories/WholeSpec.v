(** Which boxes the trees have and which records these hold. *)
From Coq Require Import ZArith QArith List Bool Arith Permutation.
From Verif Require Import IndexModel TreeModel RefineModel GeomModel GeomSpec DagModel.
Import ListNotations.
Open Scope nat_scope.

(** [in_box] decided. *)
Definition in_partb (low size : Q) (L : Z) (k : Z) (x : Q) : bool :=
  let h := (size / inject_Z (2 ^ L))%Q in
  Qle_bool (low + inject_Z k * h) x &&
  (Qltb x (low + inject_Z (k + 1) * h) || ((k + 1 =? 2 ^ L)%Z && Qle_bool x (low + inject_Z (k + 1) * h))).
Definition in_boxb (d : domain) (i : index) (p : point) : bool :=
  forallb (fun a => in_partb (coord a (dlow d)) (dsize d) (ilevel i) (icoord a i) (coord a p)) [AX; AY; AZ].

(** The records in a box. *)
Definition of_box {X} (pos : X -> point) (d : domain) (i : index) (recs : list X) : list X := filter (fun x => in_boxb d i (pos x)) recs.

(** The tree of the records [recs]: there is a box for each non-empty one of the levels up to
    [L], and below these for each non-empty one whose parent has more than [thr] records.
    Each has its records. *)
Definition tree_of {X} (pos : X -> point) (d : domain) (L thr : nat) (recs : list X) (t : tree (list X)) : Prop :=
  (forall p n, sub t p = Some n -> Permutation (info n) (of_box pos d (idx_of p) recs) /\ length (kids n) = 8) /\
  (forall p, (exists n, sub t p = Some n) <->
     Forall (fun w => w < 8) p /\ of_box pos d (idx_of p) recs <> [] /\
     forall q q', p = q ++ q' -> q' <> [] -> L <= length q -> thr < length (of_box pos d (idx_of q) recs)).

(** Two records at one place. *)
Definition same_place {X} (pos : X -> point) (x y : X) : bool := forallb (fun a => Qeq_bool (coord a (pos x)) (coord a (pos y))) [AX; AY; AZ].
