(** Stable grouping of records by cell, stated without arrays. *)
From Coq Require Import ZArith List.
Import ListNotations.
Local Open Scope Z_scope.

(** The records of cell c, in original order. *)
Definition cell_records {R} (p : list R) (gid : list Z) (c : Z) : list R :=
  map fst (filter (fun rg => snd rg =? c) (combine p gid)).

(** Cells in order, each with its records in original order. *)
Fixpoint grouped {R} (p : list R) (gid : list Z) (dim3 : nat) : list R :=
  match dim3 with
  | O => []
  | S d => grouped p gid d ++ cell_records p gid (Z.of_nat d)
  end.
