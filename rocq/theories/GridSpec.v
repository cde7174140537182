(** What the grid properties talk about. *)
From Coq Require Import ZArith List.
From Verif Require Import Base IndexModel IndexSpec.
Import ListNotations.
Local Open Scope Z_scope.

(** The uniform cells of level L in row order, x fastest: documented layout of
    the uniform grid (dualtree.h:751-757). *)
Definition slot_of (i : index) (L : Z) : Z := ix i + 2 ^ L * iy i + 2 ^ L * 2 ^ L * iz i.

(** The child numbers met when going down from the root to [i]. *)
Definition path_to (i : index) : list Z :=
  map (fun k => which_child (parent (ilevel i - Z.of_nat k) i)) (seq 1 (Z.to_nat (ilevel i))).
