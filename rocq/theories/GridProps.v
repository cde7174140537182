(** C02 and C03: uniform grid numbering and the preallocated top of the tree. *)
From Coq Require Import ZArith List Lia Bool.
From Verif Require Import Base IndexModel IndexSpec IndexProofs GridModel GridSpec GridProofs.
Import ListNotations.
Local Open Scope Z_scope.

(** C02. For a uniform level of at most 10 the 32-bit key computed by the code
    is the row-order slot, which numbers the 8^L cells exactly. *)
Theorem C02_key_is_slot : forall i L, 0 <= L <= 10 -> in_grid i -> ilevel i = L ->
  simple_key (ix i) (iy i) (iz i) (2 ^ L) = slot_of i L /\ 0 <= slot_of i L < 8 ^ L.
Proof.
  intros i L HL Hg El. rewrite pow8 by lia. split; [|exact (slot_bounds i L ltac:(lia) El Hg)].
  rewrite <- (Z.mul_1_l (2 ^ L)), <- Z.shiftl_mul_pow2 by lia.
  exact (proj1 (simple_key_slot i L HL El Hg)).
Qed.
Print Assumptions C02_key_is_slot.

Theorem C02_bijection : forall L, 0 <= L <= 10 ->
  (forall i j, in_grid i -> in_grid j -> ilevel i = L -> ilevel j = L ->
     simple_key (ix i) (iy i) (iz i) (2 ^ L) = simple_key (ix j) (iy j) (iz j) (2 ^ L) -> i = j) /\
  (forall k, 0 <= k < 8 ^ L -> exists i, in_grid i /\ ilevel i = L /\
     simple_key (ix i) (iy i) (iz i) (2 ^ L) = k).
Proof.
  intros L HL. split.
  - intros i j Hi Hj Ei Ej E.
    rewrite (proj1 (C02_key_is_slot i L HL Hi Ei)), (proj1 (C02_key_is_slot j L HL Hj Ej)) in E.
    exact (slot_inj i j L Ei Ej Hi Hj E).
  - intros k Hk. destruct (slot_surj k L (proj1 HL) Hk) as (i & Hg & El & Es).
    exists i. repeat split; try apply Hg; try assumption.
    rewrite (proj1 (C02_key_is_slot i L HL Hg El)). exact Es.
Qed.
Print Assumptions C02_bijection.

(** The reported slot of an index is the one of its ancestor at level L, and
    -1 exactly above level L. *)
Theorem C02_ancestor_slot : forall i L, 0 <= L <= 10 -> in_grid i ->
  (L <= ilevel i -> get_unif_grid_index i L = slot_of (parent (ilevel i - L) i) L) /\
  (get_unif_grid_index i L = -1 <-> ilevel i < L).
Proof.
  intros i L HL Hg. destruct (unif_index_correct i L HL Hg) as [A B].
  split; [exact B|]. split; [|exact A].
  intros E. destruct (Z_lt_le_dec (ilevel i) L) as [C|C]; [exact C|exfalso].
  rewrite (B C) in E.
  assert (in_grid (parent (ilevel i - L) i)) by (apply parent_in_grid; [lia|assumption]).
  assert (ilevel (parent (ilevel i - L) i) = L) by (rewrite level_of_parent; lia).
  pose proof (slot_bounds _ L ltac:(lia) H0 H). lia.
Qed.
Print Assumptions C02_ancestor_slot.

(** At level 11 the 32-bit arithmetic does wrap: two cells share a key.  The
    bound in C02 is the largest possible. *)
Theorem C02_wrap_at_11_refuted : exists i j,
  in_grid i /\ in_grid j /\ ilevel i = 11 /\ ilevel j = 11 /\ i <> j /\
  simple_key (ix i) (iy i) (iz i) (2 ^ 11) = simple_key (ix j) (iy j) (iz j) (2 ^ 11).
Proof.
  exists (mkIndex 0 0 0 11), (mkIndex 0 0 1024 11).
  repeat split; try (vm_compute; congruence).
Qed.
Print Assumptions C02_wrap_at_11_refuted.

Example C02_nonvacuous : in_grid (mkIndex 13 9 22 5) /\
  get_unif_grid_index (mkIndex 13 9 22 5) 3 = 3 + 8 * 2 + 64 * 5.
Proof. repeat split; vm_compute; congruence. Qed.

(** C03. The top of the tree is the complete octree down to level L. *)
Theorem C03_top_tree_complete : forall L : nat, (1 <= L <= 10)%nat ->
  exists b ubase, setup_basics L = Ok (b, ubase) /\
  (* each index has one node, reached by its path, and carrying it *)
  (forall i, in_grid i -> ilevel i <= Z.of_nat L ->
     exists p n, walk b 0 (path_to i) = Ok p /\ b_load b p = Ok n /\ t_idx n = i /\
       (ilevel i = Z.of_nat L -> p = ubase + slot_of i (Z.of_nat L)) /\
       (t_gate n = true <-> ilevel i = Z.of_nat L) /\
       (ilevel i = Z.of_nat L -> forall w, t_child n w = None) /\
       (1 <= ilevel i -> exists q, t_parent n = Some q /\
                                   walk b 0 (path_to (parent 1 i)) = Ok q)) /\
  (* different indices have different nodes *)
  (forall i j p, in_grid i -> in_grid j -> ilevel i <= Z.of_nat L -> ilevel j <= Z.of_nat L ->
     walk b 0 (path_to i) = Ok p -> walk b 0 (path_to j) = Ok p -> i = j) /\
  (* every allocated node is reached *)
  (forall p, 0 <= p < b_size b -> exists i, in_grid i /\ ilevel i <= Z.of_nat L /\
     walk b 0 (path_to i) = Ok p).
Proof. exact top_tree_complete. Qed.
Print Assumptions C03_top_tree_complete.

(** A run: two uniform levels, 1 + 8 + 64 nodes. *)
Example C03_nonvacuous :
  match setup_basics 2 with
  | Ok (b, u) => b_size b = 73 /\ u = 9 /\
      walk b 0 (path_to (mkIndex 3 1 2 2)) = Ok (9 + (3 + 4 * 1 + 16 * 2))
  | Fail _ => False
  end.
Proof. vm_compute. repeat split. Qed.
