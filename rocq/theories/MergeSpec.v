(** What arriving points should do. *)
From Coq Require Import ZArith List Arith.
From Verif Require Import Base MergeModel.
Import ListNotations.
Open Scope nat_scope.

(** The points for cell [i] among the batches [evs], in order. *)
Definition arrived {A} (evs : list (nat * list A)) (i : nat) : list A :=
  concat (map snd (filter (fun e => fst e =? i) evs)).
(** The batch of local points of cell [i]. *)
Definition local_batch {A} (local_count local_offset : nat -> nat) (temp : list A) (i : nat) : list A :=
  firstn (local_count i) (skipn (local_offset i) temp).
