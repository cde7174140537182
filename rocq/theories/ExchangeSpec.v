(** What a point message must deliver. *)
From Coq Require Import ZArith List Arith.
From Verif Require Import Base MessageModel MessageSpec ExchangeModel.
Import ListNotations.
Open Scope nat_scope.

(** The cells of a rank, in order. *)
Definition cells_of (dim3 : nat) (rank_map : nat -> nat) (r : nat) : list nat := filter (fun i => rank_map i =? r) (seq 0 dim3).
(** The records of cell [i] in an array grouped by cell. *)
Definition cell_batch {X} (count offset : nat -> nat) (recs : list X) (i : nat) : list X := firstn (count i) (skipn (offset i) recs).
(** The non-empty batches for the given cells. *)
Definition shipment {X} (count offset : nat -> nat) (recs : list X) (cells : list nat) : list (nat * list X) :=
  flat_map (fun i => if count i =? 0 then [] else [(i, cell_batch count offset recs i)]) cells.

(** What a log does to the two trees, and how often [done] is set. *)
Definition to_sources {A B} (log : list (event A B)) : list (nat * list A) := flat_map (fun e => match e with MergeS i r => [(i, r)] | _ => [] end) log.
Definition to_targets {A B} (log : list (event A B)) : list (nat * list B) := flat_map (fun e => match e with MergeT i r => [(i, r)] | _ => [] end) log.
Definition to_same {A B} (log : list (event A B)) : list (nat * nat) := flat_map (fun e => match e with MergeSame i n => [(i, n)] | _ => [] end) log.
Definition signals {A B} (log : list (event A B)) : nat := list_sum (map (fun e => match e with Signal n => n | _ => 1 end) log).

(** The cells' records lie inside the array and satisfy the serializer's
    contract; the counts fit an [int] together. *)
Definition sendable {X} (z : serializer X) (count offset : nat -> nat) (recs : list X) (cells : list nat) : Prop :=
  (forall i, In i cells -> offset i + count i <= length recs) /\ Forall (codec_ok z) recs /\
  (Z.of_nat (list_sum (map count cells)) < 2 ^ 31)%Z.
