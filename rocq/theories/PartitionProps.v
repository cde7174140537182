(** C08 and C09: cutting the curve into rank segments. *)
From Coq Require Import ZArith List Bool Lia.
From Verif Require Import Base ListFacts HilbertModel HilbertSpec HilbertProofs PartitionModel PartitionSpec PartitionProofs DistributeProofs.
Import ListNotations.
Local Open Scope Z_scope.

(** C08. Exactly when the partition runs without undefined behaviour or
    assertion failure: a single rank, or at least one point per rank and a
    first cell lighter than two shares. *)
Theorem C08_partition_succeeds_iff : forall counts np,
  Forall (fun c => 0 <= c) counts -> 1 <= np ->
  ((exists ranks, partition counts np = Ok ranks) <->
   np = 1 \/ (np <= total counts /\ hd 0 counts < 2 * (total counts / np))).
Proof.
  intros counts np Hn Hnp. rewrite <- (Z2Nat.id np) by lia. set (k := Z.to_nat np).
  assert (Hk : (1 <= k)%nat) by (unfold k; lia). clearbody k.
  split.
  - intros [r E]. destruct (succeeds_dec counts k) as [S|S]; [unfold succeeds in S; lia|].
    destruct (partition_fails counts k Hn Hk S) as [e F]. congruence.
  - intros S. eexists. apply partition_ok; [assumption|assumption|unfold succeeds; lia].
Qed.
Print Assumptions C08_partition_succeeds_iff.

(** C08. When it runs, every cell gets a rank in range and ranks never
    decrease along the curve. *)
Theorem C08_partition_contiguous : forall counts np ranks,
  Forall (fun c => 0 <= c) counts -> 1 <= np -> partition counts np = Ok ranks ->
  length ranks = length counts /\ contiguous_ranks np ranks.
Proof.
  intros counts np ranks Hn Hnp E. rewrite <- (Z2Nat.id np) in * by lia. set (k := Z.to_nat np) in *.
  assert (Hk : (1 <= k)%nat) by (unfold k; lia). clearbody k.
  destruct (succeeds_dec counts k) as [S|S];
    [|destruct (partition_fails counts k Hn Hk S) as [e F]; congruence].
  rewrite (partition_ok counts k Hn Hk S) in E. injection E as <-.
  split; [rewrite map_length, zseq_len; reflexivity|].
  assert (N : forall j r, nth_error (map (rank_at (the_cuts counts k)) (zseq 0 (length counts))) j = Some r ->
     r = rank_at (the_cuts counts k) (Z.of_nat j) /\ (j < length counts)%nat).
  { intros j r Hj. pose proof (nth_error_bound _ _ _ _ Hj) as B. rewrite map_length, zseq_len in B.
    rewrite (map_nth_error _ _ _ (zseq_nth_error 0 _ j B)) in Hj. split; [|assumption].
    apply some_inj in Hj. rewrite <- Hj. reflexivity. }
  split.
  - intros j r Hj. destruct (N _ _ Hj) as [-> B]. apply rank_at_range; [assumption|lia].
  - intros i j r s Hij Hi Hj. destruct (N _ _ Hi) as [-> _]. destruct (N _ _ Hj) as [-> _].
    apply rank_at_mono. lia.
Qed.
Print Assumptions C08_partition_contiguous.

(** C08 as first stated is false: fewer points than ranks reads
    [cumulative[-1]]. *)
Theorem C08_few_points_refuted : forall counts np,
  Forall (fun c => 0 <= c) counts -> 2 <= np -> total counts < np ->
  partition counts np = Fail Oob.
Proof.
  intros counts np Hn Hnp Ht. unfold partition. destruct (np <=? 0) eqn:E; [lia|].
  assert (N : nth_resZ (prefix_sums 0 counts) (Z.of_nat (length counts)) = Ok (total counts)).
  { apply nth_resZ_ok. split; [lia|]. rewrite Nat2Z.id, prefix_sums_nth by lia. f_equal. apply C_full. }
  rewrite N. cbn [bind]. pose proof (zsum_nonneg counts Hn) as T0. change zsum with total in T0.
  rewrite Z.quot_small by lia. replace (Z.to_nat (np - 1)) with (S (Z.to_nat (np - 2))) by lia.
  rewrite zseq_S, (mapM_fail _ _ _ _ _ Oob) by (apply cut_zero; assumption). reflexivity.
Qed.
Print Assumptions C08_few_points_refuted.

(** C08 as first stated is false: three points, two of them in the first cell,
    on two ranks trips the assertion. *)
Theorem C08_heavy_first_cell_refuted : partition [2; 1] 2 = Fail AssertFail.
Proof. vm_compute. reflexivity. Qed.
Print Assumptions C08_heavy_first_cell_refuted.

(** C08 for the cells of the uniform grid: the rank map covers every cell, and
    ranks follow the Hilbert order.  [curve] lists the cell loads in Hilbert
    order. *)
Theorem C08_distribution : forall (l : nat) (global : list Z) (np : Z),
  Forall (fun c => 0 <= c) global -> 1 <= np ->
  Z.of_nat (length global) = 2 * 8 ^ Z.of_nat l ->
  let n := 2 ^ Z.of_nat l in
  exists curve,
    total curve = total global /\ Z.of_nat (length curve) = 8 ^ Z.of_nat l /\
    (forall x y z k i, in_cube n x y z -> hilbert_key x y z n = Ok k -> i = x + n * y + n * n * z ->
       nth_error curve (Z.to_nat k) = Some (nth (Z.to_nat i) global 0 + nth (Z.to_nat (8 ^ Z.of_nat l + i)) global 0)) /\
    ((exists r, distribute_points_hilbert np global (8 ^ Z.of_nat l) (Z.of_nat l) = Ok r) <->
     np = 1 \/ (np <= total global /\ hd 0 curve < 2 * (total global / np))) /\
    (forall r, distribute_points_hilbert np global (8 ^ Z.of_nat l) (Z.of_nat l) = Ok r ->
       exists ranks, partition curve np = Ok ranks /\ contiguous_ranks np ranks /\
         Z.of_nat (length r) = 8 ^ Z.of_nat l /\
         forall x y z k i, in_cube n x y z -> hilbert_key x y z n = Ok k -> i = x + n * y + n * n * z ->
           exists rk, nth_error ranks (Z.to_nat k) = Some rk /\ nth_error r (Z.to_nat i) = Some (Some rk)).
Proof.
  intros l global np Hn Hnp HL n.
  assert (Hnat : (1 <= Z.to_nat np)%nat) by lia.
  destruct (distribute_spec l global HL (Z.to_nat np) Hnat Hn) as (curve & Lc & Nc & Tc & Cc & Fc & Oc).
  rewrite Z2Nat.id in Fc, Oc by lia.
  exists curve. split; [exact Tc|]. split; [exact Lc|]. split; [|split].
  - intros x y z k i Hc Hk Hi. unfold n in Hk; rewrite (hilbert_key_H l x y z Hc) in Hk; injection Hk as <-.
    rewrite (Cc x y z Hc). unfold cell_count, slot. fold n. subst i.
    replace (x + (z * n * n + y * n)) with (x + n * y + n * n * z) by ring. reflexivity.
  - rewrite <- Tc, <- C08_partition_succeeds_iff by assumption. split; intros [r E].
    + destruct (partition curve np) as [rm|e] eqn:P; [eauto|]. rewrite (Fc e eq_refl) in E. discriminate.
    + pose proof (C08_partition_contiguous curve np r Nc Hnp E) as [Lr _].
      destruct (Oc r E Lr) as (r' & E' & _). eauto.
  - intros r E. destruct (partition curve np) as [rm|e] eqn:P;
      [|rewrite (Fc e eq_refl) in E; discriminate].
    pose proof (C08_partition_contiguous curve np rm Nc Hnp P) as [Lr Ct].
    destruct (Oc rm eq_refl Lr) as (r' & E' & Lr' & N'). assert (r' = r) by congruence. subst r'.
    exists rm. split; [reflexivity|]. split; [exact Ct|]. split; [exact Lr'|].
    intros x y z k i Hc Hk Hi. unfold n in Hk; rewrite (hilbert_key_H l x y z Hc) in Hk; injection Hk as <-.
    specialize (N' x y z Hc). unfold slot in N'. fold n in N'.
    replace (x + (z * n * n + y * n)) with i in N' by (subst i; ring).
    pose proof (H_bounds l _ x y z init_state Hc) as B.
    destruct (nth_error_lt _ rm (Z.to_nat (H l (zseq 0 8) x y z)) ltac:(lia)) as [rk Hrk].
    exists rk. split; [exact Hrk|]. rewrite N', Hrk. reflexivity.
Qed.
Print Assumptions C08_distribution.

Example C08_nonvacuous : partition [1; 0; 3; 2; 2; 0; 1] 3 = Ok [0; 0; 0; 1; 2; 2; 2]
  /\ distribute_points_hilbert 2 ([1;1;1;1;1;1;1;1] ++ [0;0;0;0;0;0;0;2]) 8 1
     = Ok (map Some [0; 0; 0; 0; 1; 1; 0; 1]).
Proof. split; vm_compute; reflexivity. Qed.

(** C09. The points below the cut before rank r are as close to r shares as any
    cell boundary allows. *)
Theorem C09_cuts_nearest : forall counts np ranks r b,
  Forall (fun c => 0 <= c) counts -> 1 <= np -> partition counts np = Ok ranks ->
  1 <= r < np -> (b <= length counts)%nat ->
  Z.abs (load (fun q => q <? r) ranks counts - r * (total counts / np))
  <= Z.abs (total (firstn b counts) - r * (total counts / np)).
Proof.
  intros counts np ranks r b Hn Hnp E Hr Hb. rewrite <- (Z2Nat.id np) in * by lia. set (k := Z.to_nat np) in *.
  assert (Hk : (1 <= k)%nat) by (unfold k; lia). clearbody k.
  destruct (succeeds_dec counts k) as [S|S];
    [|destruct (partition_fails counts k Hn Hk S) as [e F]; congruence].
  rewrite (partition_ok counts k Hn Hk S) in E. injection E as <-.
  rewrite (load_below counts k r Hn Hk S Hr).
  pose proof (zsum_nonneg counts Hn) as T0. change zsum with total in T0.
  rewrite quot_div by lia. rewrite (Z.mul_comm (total counts / _) r).
  apply bnd_nearest; [assumption| |assumption].
  destruct S as [->|[H1 H2]]; [lia|].
  pose proof (share_bounds (total counts) (Z.of_nat k) r ltac:(lia) H1 ltac:(lia)) as B.
  rewrite quot_div in B by lia. lia.
Qed.
Print Assumptions C09_cuts_nearest.

(** C09. Hence no rank but the last holds more than its share plus the heaviest
    cell, and the last at most that plus the rounding remainder. *)
Theorem C09_load_bound : forall counts np ranks r m,
  Forall (fun c => 0 <= c <= m) counts -> 0 <= m -> 1 <= np -> partition counts np = Ok ranks -> 0 <= r < np ->
  load (fun q => q =? r) ranks counts
  <= total counts / np + m + (if r =? np - 1 then total counts mod np else 0).
Proof.
  intros counts np ranks r m Hn' Hm0 Hnp E Hr.
  assert (Hn : Forall (fun c => 0 <= c) counts) by (eapply Forall_impl; [|exact Hn']; cbn; intros; lia).
  assert (Hm : forall c, In c counts -> c <= m) by (intros c Hc; rewrite Forall_forall in Hn'; apply Hn'; assumption).
  destruct (C08_partition_contiguous counts np ranks Hn Hnp E) as [Lr [Rg _]].
  rewrite <- (Z2Nat.id np) in * by lia. set (k := Z.to_nat np) in *.
  assert (Hk : (1 <= k)%nat) by (unfold k; lia). clearbody k.
  destruct (succeeds_dec counts k) as [S|S];
    [|destruct (partition_fails counts k Hn Hk S) as [e F]; congruence].
  rewrite (partition_ok counts k Hn Hk S) in E. injection E as <-.
  set (ranks := map (rank_at (the_cuts counts k)) (zseq 0 (length counts))) in *.
  pose proof (zsum_nonneg counts Hn) as T0. change zsum with total in T0.
  assert (X : load (fun q => q =? r) ranks counts =
     load (fun q => q <? r + 1) ranks counts - load (fun q => q <? r) ranks counts).
  { apply load_split; intros q.
    - destruct (q =? r) eqn:A, (q <? r) eqn:B, (q <? r + 1) eqn:D; cbn; try reflexivity; lia.
    - intros. lia. }
  rewrite X.
  assert (Lo : 2 * load (fun q => q <? r) ranks counts >= 2 * (total counts / Z.of_nat k * r) - m).
  { destruct (Z.eq_dec r 0) as [->|R0].
    - rewrite load_none; [lia|]. intros q Hq. apply In_nth_error in Hq. destruct Hq as [j Hj]. pose proof (Rg _ _ Hj). lia.
    - destruct S as [->|[H1 H2]]; [lia|].
      unfold ranks. rewrite (load_below counts k r Hn Hk (or_intror (conj H1 H2)) ltac:(lia)).
      pose proof (share_bounds (total counts) (Z.of_nat k) r ltac:(lia) H1 ltac:(lia)) as B.
      pose proof (bnd_half counts _ m Hn B Hm) as BH. rewrite quot_div in * by lia. lia. }
  assert (Hi : 2 * load (fun q => q <? r + 1) ranks counts <= 2 * (total counts / Z.of_nat k * (r + 1)) + m
     + 2 * (if r =? Z.of_nat k - 1 then total counts mod Z.of_nat k else 0)).
  { destruct (r =? Z.of_nat k - 1) eqn:L.
    - rewrite load_all; [|assumption|].
      + apply Z.eqb_eq in L. replace (r + 1) with (Z.of_nat k) by lia.
        pose proof (Z.div_mod (total counts) (Z.of_nat k) ltac:(lia)). lia.
      + intros q Hq. apply In_nth_error in Hq. destruct Hq as [j Hj]. pose proof (Rg _ _ Hj). lia.
    - apply Z.eqb_neq in L. destruct S as [->|[H1 H2]]; [lia|].
      unfold ranks. rewrite (load_below counts k (r + 1) Hn Hk (or_intror (conj H1 H2)) ltac:(lia)).
      pose proof (share_bounds (total counts) (Z.of_nat k) (r + 1) ltac:(lia) H1 ltac:(lia)) as B.
      pose proof (bnd_half counts _ m Hn B Hm) as BH. rewrite quot_div in * by lia. lia. }
  destruct (r =? Z.of_nat k - 1); lia.
Qed.
Print Assumptions C09_load_bound.

Example C09_nonvacuous : partition [1; 0; 3; 2; 2; 0; 1] 3 = Ok [0; 0; 0; 1; 2; 2; 2]
  /\ load (fun q => q <? 1) [0; 0; 0; 1; 2; 2; 2] [1; 0; 3; 2; 2; 0; 1] = 4
  /\ load (fun q => q =? 1) [0; 0; 0; 1; 2; 2; 2] [1; 0; 3; 2; 2; 0; 1] = 2.
Proof. repeat split; vm_compute; reflexivity. Qed.
