(** C14: merging arriving points. *)
From Coq Require Import ZArith List Bool Arith Lia Permutation.
From Verif Require Import Base ListFacts ArrayRefModel ArrayModel MergeModel MergeSpec MergeProofs.
Import ListNotations.
Open Scope nat_scope.

(** At any moment of any order of arrival: what has arrived for a cell is in its segment
    in order of arrival, its counter says how much, every slot was written at most once,
    and its refinement has been started (once) exactly if everything has arrived. *)
Theorem C14_merge_any_moment : forall A dim3 rank_map me gc lc lo (temp fresh : list A) evs,
  (Z.of_nat (num_points dim3 rank_map me gc) < 2 ^ 31)%Z -> length fresh = num_points dim3 rank_map me gc ->
  (forall i, i < dim3 -> rank_map i = me -> lo i + lc i <= length temp) ->
  (forall i b, In (i, b) evs -> i < dim3 /\ rank_map i = me /\ b <> []) ->
  (forall i, i < dim3 -> rank_map i = me -> lc i + length (arrived evs i) <= gc i) ->
  exists st0 st, init_exchange A dim3 rank_map me gc lc lo temp fresh = Ok st0 /\ foldM (merge_batch A dim3 rank_map me gc) evs st0 = Ok st /\
    NoDup (st_written st) /\ length (st_mem st) = length fresh /\
    (forall i, i < dim3 -> rank_map i = me ->
       let seen := local_batch lc lo temp i ++ arrived evs i in
       firstn (length seen) (skipn (global_offset rank_map me gc i) (st_mem st)) = seen /\ st_first st i = length seen /\
       count_occ Nat.eq_dec (st_started st) i = if (0 <? gc i) && (length seen =? gc i) then 1 else 0) /\
    (forall i, In i (st_started st) -> i < dim3 /\ rank_map i = me).
Proof.
  intros A dim3 rank_map me gc lc lo temp fresh evs HN Hf Hl Hg Hc.
  assert (Ow : forall i, owned rank_map me i = true <-> rank_map i = me) by (intros i; unfold owned; apply Nat.eqb_eq).
  assert (Hl' : forall i, i < dim3 -> owned rank_map me i = true -> lo i + lc i <= length temp) by (intros i Hi Ho; apply Hl; [assumption|apply Ow; assumption]).
  destruct (exchange_ok A dim3 rank_map me gc HN lc lo temp Hl' fresh evs Hf) as (st0 & st & E0 & E & [M1 M2 M3 M4 M5 M6 M7]).
  - apply Forall_forall. intros [i b] Hi. destruct (Hg i b Hi) as (X & Y & W). split; [assumption|]. split; [apply Ow; assumption|assumption].
  - intros i Hi Ho. apply Hc; [assumption|apply Ow; assumption].
  - exists st0, st. split; [assumption|]. split; [assumption|]. split; [assumption|]. split; [congruence|]. split.
    + intros i Hi Hm seen. apply Ow in Hm as Ho. assert (Es : arrived (local_events A dim3 rank_map me lc lo temp ++ evs) i = seen) by (rewrite arrived_app, local_arrived by assumption; reflexivity).
      rewrite <- Es. assert (Le : length seen <= gc i) by (unfold seen; rewrite app_length, (local_len A dim3 rank_map me gc lc lo temp Hl' i Hi Ho); apply Hc; assumption).
      pose proof (cell_fits dim3 rank_map me gc i Hi Ho) as Cf. split; [|split].
      * rewrite Es. assert (L : length (firstn (length seen) (skipn (global_offset rank_map me gc i) (st_mem st))) = length seen) by (rewrite firstn_length, skipn_length; lia).
        apply nth_error_ext. intros k. destruct (Nat.lt_ge_cases k (length seen)) as [Hk|Hk]; [|rewrite !(proj2 (nth_error_None _ _)) by lia; reflexivity].
        rewrite nth_error_firstn_lt, nth_error_skipn by assumption. rewrite M3 by (try assumption; rewrite Es; assumption). rewrite Es. reflexivity.
      * apply M2.
      * rewrite Es. assert (D : In i (st_started st) <-> 0 < gc i /\ length seen = gc i) by (rewrite M5, Es; tauto).
        destruct (Nat.ltb_spec 0 (gc i)) as [P|P]; cbn [andb]; [destruct (Nat.eqb_spec (length seen) (gc i)) as [Q|Q]|].
        -- pose proof (proj1 (NoDup_count_occ' Nat.eq_dec (st_started st)) M4 i) as X. apply X. apply D. auto.
        -- apply count_occ_not_In. rewrite D. tauto.
        -- apply count_occ_not_In. rewrite D. lia.
    + intros i Hi. apply M5 in Hi. destruct Hi as (X & Y & _). split; [assumption|apply Ow; assumption].
Qed.
Print Assumptions C14_merge_any_moment.

(** When everything has arrived: every slot of the segment was written exactly once, every
    cell holds its points and every non-empty cell was started exactly once. *)
Theorem C14_merge_complete : forall A dim3 rank_map me gc lc lo (temp fresh : list A) evs,
  (Z.of_nat (num_points dim3 rank_map me gc) < 2 ^ 31)%Z -> length fresh = num_points dim3 rank_map me gc ->
  (forall i, i < dim3 -> rank_map i = me -> lo i + lc i <= length temp) ->
  (forall i b, In (i, b) evs -> i < dim3 /\ rank_map i = me /\ b <> []) ->
  (forall i, i < dim3 -> rank_map i = me -> lc i + length (arrived evs i) = gc i) ->
  exists st0 st, init_exchange A dim3 rank_map me gc lc lo temp fresh = Ok st0 /\ foldM (merge_batch A dim3 rank_map me gc) evs st0 = Ok st /\
    Permutation (st_written st) (seq 0 (length fresh)) /\
    (forall i, i < dim3 -> rank_map i = me ->
       firstn (gc i) (skipn (global_offset rank_map me gc i) (st_mem st)) = local_batch lc lo temp i ++ arrived evs i /\
       count_occ Nat.eq_dec (st_started st) i = if 0 <? gc i then 1 else 0).
Proof.
  intros A dim3 rank_map me gc lc lo temp fresh evs HN Hf Hl Hg Hc.
  assert (Ow : forall i, owned rank_map me i = true <-> rank_map i = me) by (intros i; unfold owned; apply Nat.eqb_eq).
  destruct (C14_merge_any_moment A dim3 rank_map me gc lc lo temp fresh evs HN Hf Hl Hg) as (st0 & st & E0 & E & Nd & Lm & H & _).
  { intros i Hi Hm. rewrite Hc by assumption. lia. }
  assert (Hl' : forall i, i < dim3 -> owned rank_map me i = true -> lo i + lc i <= length temp) by (intros i Hi Ho; apply Hl; [assumption|apply Ow; assumption]).
  destruct (exchange_ok A dim3 rank_map me gc HN lc lo temp Hl' fresh evs Hf) as (st0' & st' & E0' & E' & M).
  - apply Forall_forall. intros [i b] Hi. destruct (Hg i b Hi) as (X & Y & W). split; [assumption|]. split; [apply Ow; assumption|assumption].
  - intros i Hi Ho. rewrite Hc; [lia|assumption|apply Ow; assumption].
  - rewrite E0 in E0'. injection E0' as <-. rewrite E in E'. injection E' as <-. exists st0, st. split; [assumption|]. split; [assumption|].
    assert (Ls : forall i, i < dim3 -> owned rank_map me i = true -> length (local_batch lc lo temp i ++ arrived evs i) = gc i).
    { intros i Hi Ho. rewrite app_length, (local_len A dim3 rank_map me gc lc lo temp Hl' i Hi Ho). apply Hc; [assumption|apply Ow; assumption]. }
    split.
    + apply NoDup_Permutation; [assumption|apply seq_NoDup|]. intros p. rewrite in_seq, (mi_written _ _ _ _ _ _ _ M p). rewrite Hf. split.
      * intros (i & k & Hi & Ho & Hk & ->). rewrite arrived_app, local_arrived, Ls in Hk by assumption. pose proof (cell_fits dim3 rank_map me gc i Hi Ho). lia.
      * intros Hp. destruct (slot_exists dim3 rank_map me gc dim3 p) as (i & k & Hi & Ho & Hk & ->).
        { pose proof (off_sum rank_map me gc dim3) as X. rewrite X. apply Hp. }
        exists i, k. repeat split; try assumption. rewrite arrived_app, local_arrived, Ls by assumption. assumption.
    + intros i Hi Hm. destruct (H i Hi Hm) as (X & _ & Y). apply Ow in Hm as Ho. rewrite (Ls i Hi Ho) in X, Y. rewrite Nat.eqb_refl, andb_true_r in Y. split; assumption.
Qed.
Print Assumptions C14_merge_complete.

(** S == T: the target cells only count, and are started exactly once, when full. *)
Theorem C14_same_s_and_t : forall dim3 rank_map me gc lc evs,
  (Z.of_nat (num_points dim3 rank_map me gc) < 2 ^ 31)%Z ->
  (forall i n, In (i, n) evs -> i < dim3 /\ rank_map i = me /\ 0 < n) ->
  (forall i, i < dim3 -> rank_map i = me -> lc i + list_sum (map snd (filter (fun e => fst e =? i) evs)) <= gc i) ->
  let st := fold_left (count_batch dim3 rank_map me gc) evs (init_same dim3 rank_map me gc lc) in
  forall i, i < dim3 -> rank_map i = me ->
    let seen := lc i + list_sum (map snd (filter (fun e => fst e =? i) evs)) in
    fst st i = seen /\ count_occ Nat.eq_dec (snd st) i = if (0 <? gc i) && (seen =? gc i) then 1 else 0.
Proof.
  intros dim3 rank_map me gc lc evs HN Hg Hc st i Hi Hm seen.
  set (bevs := map (fun e : nat * nat => (fst e, repeat tt (snd e))) evs).
  assert (Ea : forall k, length (arrived bevs k) = list_sum (map snd (filter (fun e => fst e =? k) evs))).
  { intros k. unfold arrived, bevs. clear. induction evs as [|[j n] l IH]; [reflexivity|]. cbn [map filter fst]. destruct (j =? k); [|exact IH]. cbn [map concat snd]. rewrite app_length, repeat_length, IH. reflexivity. }
  set (temp := repeat tt (list_max (map lc (seq 0 dim3)))).
  assert (Hl : forall k, k < dim3 -> 0 + lc k <= length temp).
  { intros k Hk. unfold temp. rewrite repeat_length. pose proof (proj1 (list_max_le (map lc (seq 0 dim3)) _) (le_n _)) as X. rewrite Forall_forall in X. apply (X (lc k)). apply in_map. apply in_seq. lia. }
  destruct (C14_merge_any_moment unit dim3 rank_map me gc lc (fun _ => 0) temp (repeat tt (num_points dim3 rank_map me gc)) bevs HN) as (st0 & st1 & E0 & E1 & _ & _ & H & _).
  - apply repeat_length.
  - intros k Hk _. apply Hl. assumption.
  - intros k b Hb. unfold bevs in Hb. apply in_map_iff in Hb. destruct Hb as ([j n] & E & Hj). injection E as <- <-. destruct (Hg j n Hj) as (X & Y & W). repeat split; try assumption. destruct n; [lia|discriminate].
  - intros k Hk Hmk. rewrite Ea. apply Hc; assumption.
  - assert (Es : st = proj st1).
    { unfold st. rewrite (init_same_is_init dim3 rank_map me gc lc (fun _ => 0) temp _ st0 (fun k Hk _ => Hl k Hk) E0). rewrite <- (counts_are_merges dim3 rank_map me gc unit bevs st0 st1 E1). f_equal.
      unfold bevs. rewrite map_map. cbn [fst snd]. clear. induction evs as [|[j n] l IH]; [reflexivity|]. cbn [map fst snd]. rewrite repeat_length, <- IH. reflexivity. }
    destruct (H i Hi Hm) as (_ & F & C). assert (Ln : length (local_batch lc (fun _ => 0) temp i ++ arrived bevs i) = seen).
    { rewrite app_length, Ea. unfold local_batch. rewrite firstn_length, skipn_length. specialize (Hl i Hi). unfold seen. lia. }
    rewrite Ln in F, C. rewrite Es. split; assumption.
Qed.
Print Assumptions C14_same_s_and_t.

(** Rank 0 owns cells 0 and 2 of three; the batches for cell 0 arrive around one for cell 2. *)
Example C14_nonvacuous :
  let rm := fun i => if i =? 1 then 1 else 0 in
  let gc := fun i => nth i [4; 9; 2] 0 in
  let lc := fun i => nth i [1; 1; 0] 0 in
  let lo := fun i => nth i [0; 1; 2] 0 in
  let evs := [(0, [20]); (2, [30; 31]); (0, [21; 22])] in
  num_points 3 rm 0 gc = 6 /\ (forall i, i < 3 -> rm i = 0 -> lc i + length (arrived evs i) = gc i) /\
  match init_exchange nat 3 rm 0 gc lc lo [10; 11] (repeat 0 6) with
  | Ok st0 => st_started st0 = [] /\
      match foldM (merge_batch nat 3 rm 0 gc) evs st0 with
      | Ok st => st_mem st = [10; 20; 21; 22; 30; 31] /\ st_started st = [2; 0] /\ st_written st = [0; 1; 4; 5; 2; 3]
      | Fail _ => False
      end
  | Fail _ => False
  end.
Proof.
  cbn zeta. split; [reflexivity|]. split; [intros [|[|[|i]]] Hi Hr; try reflexivity; try discriminate; lia|]. vm_compute. repeat split.
Qed.
