(** What a reduction should compute. *)
From Coq Require Import ZArith List.
From Verif Require Import ReduceModel.
Import ListNotations.
Open Scope Z_scope.

(** Contributions of a reduction tree. *)
Fixpoint contribs (t : rtree) : list (list Z) :=
  match t with RLeaf v => [v] | RIdent => [] | RNode l r => contribs l ++ contribs r end.

(** Column [i] of the contributions, and its sum and maximum. *)
Definition column (i : nat) (vs : list (list Z)) : list Z := map (fun v => nth i v 0) vs.
Definition col_sum (i : nat) (vs : list (list Z)) : Z := fold_right Z.add 0 (column i vs).
Definition col_max (low : Z) (i : nat) (vs : list (list Z)) : Z := fold_right Z.max low (column i vs).
