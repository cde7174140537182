(** Work splitting over the local part of the DAG node lists.
    Counts are [nat]: sizes fit in [size_t] by construction of the vectors. *)
From Coq Require Import ZArith List Arith.
From Verif Require Import Base PartitionModel.
Import ListNotations.

(** dualtree.h:350-358 and evaluator.h:476-483: number of leading nodes whose
    locality is [rank].  A node is represented by its locality and a tag. *)
Definition local_count {A} (locality : A -> Z) (rank : Z) (nodes : list A) : nat :=
  partition_point (fun a => Z.eqb (locality a) rank) nodes.

(** dualtree.h:372-384: [for (start = 0; start < count; start += delta)]; each
    iteration spawns one task for the nodes [start, end). *)
Fixpoint spawn_loop (fuel : nat) (start count delta : nat) : res (list (nat * nat)) :=
  if start <? count then
    match fuel with
    | O => Fail OutOfFuel
    | S fuel' =>
        let fin := start + delta in
        let fin := if count <? fin then count else fin in
        do rest <- spawn_loop fuel' (start + delta) count delta;
        Ok ((start, fin) :: rest)
    end
  else Ok [].

(** dualtree.h:347-385 [start_DAG_evaluation], after the partition point. *)
Definition start_chunks (count n_workers : nat) : res (list (nat * nat)) :=
  if n_workers =? 0 then Fail DivZero else
  let delta := count / n_workers in
  let delta := if delta =? 0 then count else delta in
  spawn_loop count 0 count delta.

(** evaluator.h:485-513 [reset_something_LCOs], after the partition point: the
    spawned ranges and how often the gate [done] is set directly.  Each spawned
    call sets [done] once when it completes. *)
Definition reset_chunks (count n_workers : nat) : res (list (nat * nat) * nat) :=
  if n_workers =? 0 then Fail DivZero else
  let delta := count / n_workers in
  let remainder := count mod n_workers in
  let big := map (fun i => (i * (delta + 1), i * (delta + 1) + delta + 1)) (seq 0 remainder) in
  if negb (delta =? 0) then
    let offset := (delta + 1) * remainder in
    let small := map (fun i => (offset + (i - remainder) * delta,
                                offset + (i - remainder) * delta + delta))
                     (seq remainder (n_workers - remainder)) in
    Ok (big ++ small, 0)
  else Ok (big, n_workers - remainder).
