(** Edges handled where, independently of how runs are found. *)
From Coq Require Import ZArith List Sorted Permutation.
From Verif Require Import EdgeGroupModel.
Import ListNotations.
Open Scope Z_scope.

(** What [std::sort] with [compare_edge_locality] (dag.h:147) may return: any
    rearrangement with non-decreasing target locality. *)
Definition sort_outcome {A} (loc : A -> Z) (l l' : list A) : Prop :=
  Permutation l l' /\ StronglySorted (fun a b => loc a <= loc b) l'.

Definition act_rank {A} (my_rank : Z) (a : action A) : Z := match a with Work _ => my_rank | Send r _ => r end.
Definition act_edges {A} (a : action A) : list A := match a with Work l => l | Send _ l => l end.
