(** C32: work chunking covers every local DAG node exactly once. *)
From Coq Require Import ZArith List Arith Lia Permutation.
From Verif Require Import Base ListFacts PartitionModel PartitionProofs ChunkModel ChunkSpec ChunkProofs.
Import ListNotations.

(** The ranges spawned to start an evaluation are non-empty, in bounds, and
    list every position below the local count exactly once. *)
Theorem C32_start_chunks_tile : forall count n_workers, 0 < n_workers ->
  exists chunks, start_chunks count n_workers = Ok chunks /\ tiles chunks count.
Proof. exact start_chunks_ok. Qed.
Print Assumptions C32_start_chunks_tile.

(** The same for a reset, and the gate of [n_workers] inputs is set exactly
    [n_workers] times: once per spawned range and [extra] times directly. *)
Theorem C32_reset_chunks_tile : forall count n_workers, 0 < n_workers ->
  exists chunks extra, reset_chunks count n_workers = Ok (chunks, extra) /\
    tiles chunks count /\ length chunks + extra = n_workers.
Proof. exact reset_chunks_ok. Qed.
Print Assumptions C32_reset_chunks_tile.

(** Together with [partitionLocal] (any rearrangement [std::partition] may
    produce), the processed nodes are exactly the local nodes, once each. *)
Theorem C32_local_nodes_processed_once : forall A (loc : A -> Z) rank (nodes nodes' : list A) k n_workers,
  0 < n_workers -> Permutation nodes nodes' ->
  (forall a, In a (firstn k nodes') -> loc a = rank) ->
  (forall a, In a (skipn k nodes') -> loc a <> rank) ->
  exists chunks extra chunks',
    start_chunks (local_count loc rank nodes') n_workers = Ok chunks /\
    reset_chunks (local_count loc rank nodes') n_workers = Ok (chunks', extra) /\
    map (nth_error nodes') (concat (map positions chunks)) = map Some (filter (fun a => Z.eqb (loc a) rank) nodes') /\
    map (nth_error nodes') (concat (map positions chunks')) = map Some (filter (fun a => Z.eqb (loc a) rank) nodes') /\
    Permutation (filter (fun a => Z.eqb (loc a) rank) nodes') (filter (fun a => Z.eqb (loc a) rank) nodes).
Proof.
  intros A loc rank nodes nodes' k n_workers Hn HP Hl Hr.
  destruct (start_chunks_ok (local_count loc rank nodes') n_workers Hn) as (c & E & T & _).
  destruct (reset_chunks_ok (local_count loc rank nodes') n_workers Hn) as (c' & ex & E' & [T' _] & _).
  exists c, ex, c'. rewrite T, T', E, E', <- (local_count_filter A loc rank k nodes' Hl Hr).
  assert (L : local_count loc rank nodes' <= length nodes') by apply pp_le.
  rewrite nth_firstn_seq by exact L. repeat split.
  rewrite (local_count_filter A loc rank k nodes' Hl Hr).
  clear - HP. apply Permutation_sym in HP. induction HP; cbn; try reflexivity.
  - destruct (Z.eqb (loc x) rank); [apply perm_skip|]; assumption.
  - destruct (Z.eqb (loc x) rank), (Z.eqb (loc y) rank); try reflexivity. apply perm_swap.
  - etransitivity; eassumption.
Qed.
Print Assumptions C32_local_nodes_processed_once.

Example C32_nonvacuous : start_chunks 11 4 = Ok [(0,2); (2,4); (4,6); (6,8); (8,10); (10,11)] /\
  reset_chunks 11 4 = Ok ([(0,3); (3,6); (6,9); (9,11)], 0) /\
  reset_chunks 3 5 = Ok ([(0,1); (1,2); (2,3)], 2).
Proof. repeat split; vm_compute; reflexivity. Qed.
