(** What refinement should do. *)
From Coq Require Import ZArith List Bool Arith Permutation.
From Verif Require Import Base IndexModel TreeModel RefineModel.
Import ListNotations.
Open Scope nat_scope.

Section Spec.
Context {R : Type}.

(** The promise of std::partition: the same records, those passing the test
    first. *)
Definition partition_contract (part : index -> nat -> (R -> bool) -> list R -> list R * list R) : Prop :=
  forall i c f l, let '(a, b) := part i c f l in
    Permutation l (a ++ b) /\ (forall r, In r a -> f r = true) /\ (forall r, In r b -> f r = false).

(** The promise of std::partition_point: on a range that has all records passing
    the test first, the number of them. *)
Definition partition_point_contract (pp : (R -> bool) -> list R -> nat) : Prop :=
  forall f a b, (forall r, In r a -> f r = true) -> (forall r, In r b -> f r = false) -> pp f (a ++ b) = length a.

(** Octant of node [i] a record is in: bit 0 for the upper half in x, bit 1 for y,
    bit 2 for z. *)
Definition octant (low : axis -> index -> R -> bool) (i : index) (r : R) : nat :=
  (if low AX i r then 0 else 1) + (if low AY i r then 0 else 2) + (if low AZ i r then 0 else 4).

(** The record is in octant [w] at each step of the path. *)
Fixpoint in_cell (low : axis -> index -> R -> bool) (i : index) (p : list nat) (r : R) : bool :=
  match p with
  | [] => true
  | w :: p' => (octant low i r =? w) && in_cell low (child (Z.of_nat w) i) p' r
  end.

(** Records of [l] that belong to the node at path [p] below node [i]. *)
Definition members low (i : index) (p : list nat) (l : list R) : list R := filter (in_cell low i p) l.
End Spec.

(** The segments (offset, length) follow each other from [a] to [b]. *)
Fixpoint consecutive (a : nat) (segs : list (nat * nat)) (b : nat) : Prop :=
  match segs with
  | [] => a = b
  | (o, c) :: s => o = a /\ consecutive (a + c) s b
  end.

(** Segments of the leaves, in order of position in the tree. *)
Definition leaf_segments (t : tree rnode) : list (nat * nat) :=
  map (fun n => (r_off (info n), r_cnt (info n))) (filter is_leaf (nodes t)).

(** Segments of the children of a node. *)
Definition child_segments (t : tree rnode) : list (nat * nat) :=
  flat_map (fun o => match o with Some c => [(r_off (info c), r_cnt (info c))] | None => [] end) (kids t).

(** Half-open box of the cell with index [i], in exact arithmetic. *)
Definition in_box {R} (pos : axis -> R -> Z) (lo : axis -> Z) (size : Z) (i : index) (r : R) : Prop :=
  let inside k ax := (k * size <= (pos ax r - lo ax) * 2 ^ ilevel i < (k + 1) * size)%Z in
  inside (ix i) AX /\ inside (iy i) AY /\ inside (iz i) AZ.
