From Coq Require Import ZArith List Bool Arith Lia Permutation.
From Verif Require Import Base ListFacts ArrayRefModel ArrayModel ArraySpec ArrayProofs MergeModel MergeSpec.
Import ListNotations.
Open Scope nat_scope.

Lemma filter_eqb_seq : forall B (f : nat -> list B) n i, concat (map snd (filter (fun e => fst e =? i) (map (fun k => (k, f k)) (seq 0 n)))) = if i <? n then f i else [].
Proof.
  intros B f n i. induction n as [|n IH]; [reflexivity|]. rewrite seq_S, map_app, filter_app, map_app, concat_app, IH. cbn [map filter fst Nat.add].
  destruct (Nat.eqb_spec n i) as [->|N]; cbn [map concat snd].
  - rewrite app_nil_r. destruct (Nat.ltb_spec i i); [lia|]. destruct (Nat.ltb_spec i (S i)); [reflexivity|lia].
  - rewrite app_nil_r. destruct (Nat.ltb_spec i n), (Nat.ltb_spec i (S n)); try lia; reflexivity.
Qed.

Section Merge.
Variable A : Type.
Variable dim3 : nat.
Variable rank_map : nat -> nat.
Variable my_rank : nat.
Variable global_count : nat -> nat.
Notation owned := (owned rank_map my_rank).
Notation share := (share rank_map my_rank global_count).
Notation off := (global_offset rank_map my_rank global_count).
Notation N := (num_points dim3 rank_map my_rank global_count).
Notation parts := (parts dim3 rank_map my_rank global_count).
Hypothesis HN : (Z.of_nat N < 2 ^ 31)%Z.

Lemma off_sum : forall n, off n = sum_shares rank_map my_rank global_count n.
Proof. induction n; cbn; congruence. Qed.

Lemma off_mono : forall i j, i <= j -> off i <= off j.
Proof. intros i j H. induction H; [lia|]. cbn [global_offset]. lia. Qed.

Lemma off_next : forall i j, i < j -> off i + share i <= off j.
Proof. intros i j H. change (off i + share i) with (off (S i)). apply off_mono. lia. Qed.

Lemma cell_fits : forall i, i < dim3 -> owned i = true -> off i + global_count i <= N.
Proof.
  intros i Hi Ho. assert (E : share i = global_count i) by (unfold MergeModel.share; rewrite Ho; reflexivity). pose proof (off_sum dim3) as X. pose proof (off_next i dim3 Hi) as Y. rewrite X, E in Y. exact Y.
Qed.

Lemma parts_ok : forall i, i < dim3 -> owned i = true -> parts i = {| r_data := Some (Z.of_nat (off i)); r_n := Z.of_nat (global_count i) |}.
Proof.
  intros i Hi Ho. pose proof (cell_fits i Hi Ho) as B. unfold MergeModel.parts, slice, sorted_ref, u64. cbn [r_n r_data].
  rewrite Z.mod_small by lia. destruct (Z.ltb_spec (Z.of_nat N) (Z.of_nat (off i))); [lia|]. destruct (Z.ltb_spec (Z.of_nat N) (Z.of_nat (off i) + Z.of_nat (global_count i))); [lia|]. reflexivity.
Qed.

Lemma slot_unique : forall i j a b, owned i = true -> owned j = true -> a < global_count i -> b < global_count j -> off i + a = off j + b -> i = j /\ a = b.
Proof.
  intros i j a b Oi Oj Ha Hb E. assert (Si : share i = global_count i) by (unfold MergeModel.share; rewrite Oi; reflexivity). assert (Sj : share j = global_count j) by (unfold MergeModel.share; rewrite Oj; reflexivity).
  destruct (Nat.lt_trichotomy i j) as [H|[->|H]]; [pose proof (off_next i j H); lia|split; [reflexivity|lia]|pose proof (off_next j i H); lia].
Qed.

Lemma slot_exists : forall n p, p < off n -> exists i a, i < n /\ owned i = true /\ a < global_count i /\ p = off i + a.
Proof.
  induction n as [|n IH]; intros p Hp; cbn [global_offset] in Hp; [lia|]. destruct (Nat.lt_ge_cases p (off n)) as [H|H].
  - destruct (IH p H) as (i & a & A1 & A2 & A3 & A4). exists i, a. repeat split; auto; lia.
  - unfold MergeModel.share in Hp. destruct (owned n) eqn:O; [|lia]. exists n, (p - off n). repeat split; auto; lia.
Qed.

(** The batches seen so far. *)
Record minv (h : list (nat * list A)) (st : mstate A) : Prop := {
  mi_len : length (st_mem st) = N;
  mi_first : forall i, st_first st i = length (arrived h i);
  mi_mem : forall i k, i < dim3 -> owned i = true -> k < length (arrived h i) -> nth_error (st_mem st) (off i + k) = nth_error (arrived h i) k;
  mi_nodup : NoDup (st_started st);
  mi_start : forall i, In i (st_started st) <-> i < dim3 /\ owned i = true /\ 0 < global_count i /\ length (arrived h i) = global_count i;
  mi_wnodup : NoDup (st_written st);
  mi_written : forall p, In p (st_written st) <-> exists i k, i < dim3 /\ owned i = true /\ k < length (arrived h i) /\ p = off i + k }.

Lemma arrived_app : forall (h1 h2 : list (nat * list A)) i, arrived (h1 ++ h2) i = arrived h1 i ++ arrived h2 i.
Proof. intros. unfold arrived. rewrite filter_app, map_app, concat_app. reflexivity. Qed.

Lemma arrived_one : forall (b : list A) j i, arrived [(j, b)] i = if j =? i then b else [].
Proof. intros. unfold arrived. cbn [filter fst]. destruct (j =? i); cbn; [apply app_nil_r|reflexivity]. Qed.

Definition fits (h : list (nat * list A)) : Prop := forall i, i < dim3 -> owned i = true -> length (arrived h i) <= global_count i.

Lemma merge_step : forall h st i b, minv h st -> i < dim3 -> owned i = true -> b <> [] -> fits (h ++ [(i, b)]) ->
  exists st', merge_batch A dim3 rank_map my_rank global_count st (i, b) = Ok st' /\ minv (h ++ [(i, b)]) st'.
Proof.
  intros h st i b [M1 M2 M3 M4 M5 M6 M7] Hi Ho Hb HF. assert (Lb : 0 < length b) by (destruct b; [congruence|cbn; lia]).
  pose proof (HF i Hi Ho) as Fi. rewrite arrived_app, arrived_one, Nat.eqb_refl, app_length in Fi. pose proof (cell_fits i Hi Ho) as Bi.
  unfold merge_batch. rewrite parts_ok by assumption. cbn [r_data r_n]. rewrite Nat2Z.id, M2. rewrite write_range_ok by lia. cbn [bind]. eexists. split; [reflexivity|].
  destruct (write_replaced A (st_mem st) b (off i + length (arrived h i)) ltac:(lia)) as [R1 R2].
  assert (Ar : forall j, arrived (h ++ [(i, b)]) j = if j =? i then arrived h j ++ b else arrived h j).
  { intros j. rewrite arrived_app, arrived_one, Nat.eqb_sym. destruct (j =? i); [reflexivity|apply app_nil_r]. }
  split; cbn [st_mem st_first st_started st_written].
  - congruence.
  - intros j. rewrite Ar. destruct (Nat.eqb_spec j i) as [->|]; [rewrite app_length; reflexivity|apply M2].
  - intros j k Hj Hoj Hk. rewrite Ar in Hk |- *. rewrite R2. destruct (Nat.eqb_spec j i) as [->|Nj].
    + rewrite app_length in Hk. destruct (Nat.leb_spec (off i + length (arrived h i)) (off i + k)) as [Hle|Hlt]; cbn [andb].
      * replace (off i + k <? off i + length (arrived h i) + length b) with true by (symmetry; apply Nat.ltb_lt; lia). rewrite nth_error_app2 by lia. f_equal. lia.
      * rewrite nth_error_app1 by lia. apply M3; try assumption. lia.
    + assert (Kj : k < global_count j) by (pose proof (HF j Hj Hoj) as F; rewrite Ar in F; destruct (Nat.eqb_spec j i); [congruence|lia]).
      destruct (Nat.leb_spec (off i + length (arrived h i)) (off j + k)) as [Hle|Hlt]; cbn [andb]; [|apply M3; assumption].
      destruct (Nat.ltb_spec (off j + k) (off i + length (arrived h i) + length b)) as [Hl2|]; [|apply M3; assumption].
      exfalso. apply Nj. apply (slot_unique j i k (off j + k - off i)); try assumption; lia.
  - destruct (Z.leb_spec (Z.of_nat (global_count i)) (Z.of_nat (length (arrived h i) + length b))); [|assumption].
    apply (Permutation_NoDup (l := i :: st_started st)); [apply Permutation_cons_append|]. constructor; [|assumption]. rewrite M5. intros (_ & _ & _ & X). lia.
  - intros j. assert (D : In j (if (Z.of_nat (global_count i) <=? Z.of_nat (length (arrived h i) + length b))%Z then st_started st ++ [i] else st_started st) <-> In j (st_started st) \/ (j = i /\ length (arrived h i) + length b = global_count i)).
    { destruct (Z.leb_spec (Z.of_nat (global_count i)) (Z.of_nat (length (arrived h i) + length b))); [rewrite in_app_iff; cbn|]; intuition (try lia; auto). }
    rewrite D, Ar, M5. destruct (Nat.eqb_spec j i) as [->|Nj].
    + rewrite app_length. split; [intros [(_ & _ & _ & X)|[_ X]]; [lia|repeat split; auto; lia]|]. intros (_ & _ & _ & X). right. auto.
    + split; [intros [X|[X _]]; [assumption|congruence]|auto].
  - assert (Dj : forall p, In p (st_written st) -> ~ In p (seq (off i + length (arrived h i)) (length b))).
    { intros p Hp Hq. apply M7 in Hp. destruct Hp as (j & k & Hj & Hoj & Hk & ->). apply in_seq in Hq.
      assert (Kj : k < global_count j) by (pose proof (HF j Hj Hoj) as F; rewrite Ar in F; destruct (Nat.eqb_spec j i); [rewrite app_length in F|]; lia).
      destruct (slot_unique j i k (off j + k - off i)) as [-> X]; try assumption; lia. }
    clear -M6 Dj. induction (st_written st) as [|p l IH]; cbn [app]; [apply seq_NoDup|]. apply NoDup_cons_iff in M6. destruct M6 as [M6 M6']. constructor.
    + rewrite in_app_iff. intros [X|X]; [contradiction|]. exact (Dj p (or_introl eq_refl) X).
    + apply IH; [assumption|]. intros q Hq. apply Dj. right. assumption.
  - intros p. rewrite in_app_iff, M7, in_seq. split.
    + intros [(j & k & Hj & Hoj & Hk & ->)|Hp].
      * exists j, k. repeat split; try assumption. rewrite Ar. destruct (j =? i); [rewrite app_length; lia|assumption].
      * exists i, (p - off i). repeat split; try assumption; try lia. rewrite Ar, Nat.eqb_refl, app_length. lia.
    + intros (j & k & Hj & Hoj & Hk & ->). rewrite Ar in Hk. destruct (Nat.eqb_spec j i) as [->|Nj]; [|left; exists j, k; auto].
      rewrite app_length in Hk. destruct (Nat.lt_ge_cases k (length (arrived h i))); [left; exists i, k; auto|right; lia].
Qed.

Definition good (e : nat * list A) : Prop := fst e < dim3 /\ owned (fst e) = true /\ snd e <> [].

Lemma merge_all : forall evs h st, minv h st -> Forall good evs -> fits (h ++ evs) ->
  exists st', foldM (merge_batch A dim3 rank_map my_rank global_count) evs st = Ok st' /\ minv (h ++ evs) st'.
Proof.
  induction evs as [|[i b] evs IH]; intros h st I G F; cbn [foldM]; [exists st; rewrite app_nil_r; auto|]. apply Forall_cons_iff in G. destruct G as [(G1 & G2 & G3) G].
  destruct (merge_step h st i b I G1 G2 G3) as (st1 & E1 & I1).
  - intros j Hj Hoj. specialize (F j Hj Hoj). replace (h ++ (i, b) :: evs) with ((h ++ [(i, b)]) ++ evs) in F by (rewrite <- app_assoc; reflexivity). rewrite arrived_app, app_length in F. lia.
  - rewrite E1. cbn [bind]. replace (h ++ (i, b) :: evs) with ((h ++ [(i, b)]) ++ evs) in * by (rewrite <- app_assoc; reflexivity). apply IH; assumption.
Qed.

(** The local points as batches. *)
Variables (lc lo : nat -> nat) (temp : list A).
Definition local_events : list (nat * list A) :=
  filter (fun e => owned (fst e) && negb (lc (fst e) =? 0)) (map (fun i => (i, local_batch lc lo temp i)) (seq 0 dim3)).

Hypothesis Hloc : forall i, i < dim3 -> owned i = true -> lo i + lc i <= length temp.

Lemma local_len : forall i, i < dim3 -> owned i = true -> length (local_batch lc lo temp i) = lc i.
Proof. intros i Hi Ho. unfold local_batch. rewrite firstn_length, skipn_length. specialize (Hloc i Hi Ho). lia. Qed.

Lemma local_good : Forall good local_events.
Proof.
  apply Forall_forall. intros [i b] H. apply filter_In in H. destruct H as [H1 H2]. apply in_map_iff in H1. destruct H1 as (k & E & Hk). injection E as -> <-. cbn [fst snd] in *. apply in_seq in Hk. apply andb_true_iff in H2. destruct H2 as [Ho Hz]. apply negb_true_iff, Nat.eqb_neq in Hz.
  split; [cbn; lia|]. split; [assumption|]. cbn [snd]. intros X. pose proof (local_len i ltac:(lia) Ho) as L. rewrite X in L. cbn in L. lia.
Qed.

Lemma local_arrived : forall i, i < dim3 -> owned i = true -> arrived local_events i = local_batch lc lo temp i.
Proof.
  intros i Hi Ho. unfold arrived, local_events.
  assert (E : forall l, concat (map snd (filter (fun e => fst e =? i) (filter (fun e : nat * list A => owned (fst e) && negb (lc (fst e) =? 0)) (map (fun i => (i, local_batch lc lo temp i)) l)))) =
              concat (map snd (filter (fun e => fst e =? i) (map (fun i => (i, local_batch lc lo temp i)) l)))).
  { induction l as [|k l IH]; [reflexivity|]. cbn [map filter fst]. destruct (owned k && negb (lc k =? 0)) eqn:C; cbn [filter fst].
    - destruct (k =? i); cbn [map concat snd]; rewrite IH; reflexivity.
    - destruct (Nat.eqb_spec k i) as [->|]; [|assumption]. cbn [map concat snd]. rewrite Ho in C. cbn [andb] in C. apply negb_false_iff, Nat.eqb_eq in C. assert (X : local_batch lc lo temp i = []) by (unfold local_batch; rewrite C; reflexivity). rewrite X. cbn [app]. assumption. }
  rewrite E, filter_eqb_seq. replace (i <? dim3) with true by (symmetry; apply Nat.ltb_lt; assumption). reflexivity.
Qed.

Lemma init_is_merge : forall fresh, N <> 0 -> init_exchange A dim3 rank_map my_rank global_count lc lo temp fresh =
  foldM (merge_batch A dim3 rank_map my_rank global_count) local_events {| st_mem := fresh; st_first := fun _ => 0; st_started := []; st_written := [] |}.
Proof.
  intros fresh HN0. unfold init_exchange, local_events. destruct (Nat.eqb_spec N 0); [contradiction|].
  assert (G : forall l st, (forall i, In i l -> i < dim3) -> foldM (fun st i => if negb (owned i) then Ok st else if lc i =? 0 then Ok st
       else do batch <- read_range A temp (lo i) (lo i + lc i); merge_batch A dim3 rank_map my_rank global_count st (i, batch)) l st =
     foldM (merge_batch A dim3 rank_map my_rank global_count) (filter (fun e => owned (fst e) && negb (lc (fst e) =? 0)) (map (fun i => (i, local_batch lc lo temp i)) l)) st).
  { induction l as [|i l IH]; intros st Hl; cbn [foldM map filter fst]; [reflexivity|]. destruct (owned i) eqn:Ho; cbn [negb andb bind].
    - destruct (Nat.eqb_spec (lc i) 0) as [E|E]; cbn [negb bind].
      + apply IH. intros k Hk. apply Hl. right. assumption.
      + cbn [foldM]. pose proof (Hloc i (Hl i (or_introl eq_refl)) Ho). rewrite read_range_ok by lia. cbn [bind]. replace (lo i + lc i - lo i) with (lc i) by lia. fold (local_batch lc lo temp i).
        destruct (merge_batch A dim3 rank_map my_rank global_count st (i, local_batch lc lo temp i)) as [st'|e]; [|reflexivity]. cbn [bind]. apply IH. intros k Hk. apply Hl. right. assumption.
    - apply IH. intros k Hk. apply Hl. right. assumption. }
  apply G. intros i Hi. apply in_seq in Hi. lia.
Qed.

Lemma minv_init : forall fresh, length fresh = N -> minv [] {| st_mem := fresh; st_first := fun _ => 0; st_started := []; st_written := [] |}.
Proof.
  intros fresh Hf. split; cbn [st_mem st_first st_started st_written]; auto.
  - intros i k _ _ Hk. cbn in Hk. lia.
  - constructor.
  - intros i. cbn. split; [contradiction|]. intros (_ & _ & X & Y). lia.
  - constructor.
  - intros p. cbn. split; [contradiction|]. intros (i & k & _ & _ & X & _). lia.
Qed.

Theorem exchange_ok : forall fresh evs, length fresh = N -> Forall good evs ->
  (forall i, i < dim3 -> owned i = true -> lc i + length (arrived evs i) <= global_count i) ->
  exists st0 st, init_exchange A dim3 rank_map my_rank global_count lc lo temp fresh = Ok st0 /\
    foldM (merge_batch A dim3 rank_map my_rank global_count) evs st0 = Ok st /\ minv (local_events ++ evs) st.
Proof.
  intros fresh evs Hf G F.
  assert (FF : fits (local_events ++ evs)). { intros i Hi Ho. rewrite arrived_app, local_arrived, app_length, local_len by assumption. apply F; assumption. }
  destruct (Nat.eq_dec N 0) as [E0|N0].
  - assert (Z0 : forall i, i < dim3 -> owned i = true -> global_count i = 0) by (intros i Hi Ho; pose proof (cell_fits i Hi Ho); lia).
    assert (El : local_events = []).
    { destruct local_events as [|[i b] l] eqn:E; [reflexivity|]. exfalso. pose proof local_good as LG. rewrite E in LG. apply Forall_cons_iff in LG. destruct LG as [(A1 & A2 & A3) _]. cbn [fst snd] in *. pose proof (FF i A1 A2) as X. rewrite (Z0 i A1 A2), arrived_app in X. try rewrite E in X.
      change ((i, b) :: l) with ([(i, b)] ++ l) in X. rewrite arrived_app, arrived_one, Nat.eqb_refl in X. destruct b; [congruence|]. rewrite !app_length in X. cbn in X. lia. }
    assert (Ee : evs = []).
    { destruct evs as [|[i b] l]; [reflexivity|]. exfalso. apply Forall_cons_iff in G. destruct G as [(A1 & A2 & A3) _]. cbn [fst snd] in *. specialize (F i A1 A2). rewrite (Z0 i A1 A2) in F. change ((i, b) :: l) with ([(i, b)] ++ l) in F. rewrite arrived_app, arrived_one, Nat.eqb_refl in F. destruct b; [congruence|]. cbn in F. lia. }
    rewrite El, Ee. unfold init_exchange. rewrite E0. cbn [Nat.eqb]. eexists. eexists. split; [reflexivity|]. split; [reflexivity|]. apply minv_init. assumption.
  - rewrite init_is_merge by assumption.
    destruct (merge_all local_events [] _ (minv_init fresh Hf) local_good) as (st0 & E0 & I0).
    { intros i Hi Ho. specialize (FF i Hi Ho). rewrite arrived_app, app_length in FF. cbn [app]. lia. }
    destruct (merge_all evs _ st0 I0 G) as (st & E & I); [assumption|]. exists st0, st. split; [exact E0|]. split; [exact E|]. assumption.
Qed.
End Merge.

(** ** S == T: counting only *)
Section Same.
Variable dim3 : nat.
Variable rank_map : nat -> nat.
Variable my_rank : nat.
Variable gc : nat -> nat.
Notation owned := (owned rank_map my_rank).

Definition proj {A} (st : mstate A) : (nat -> nat) * list nat := (st_first st, st_started st).

Lemma count_is_merge : forall A (st st' : mstate A) i b, merge_batch A dim3 rank_map my_rank gc st (i, b) = Ok st' ->
  count_batch dim3 rank_map my_rank gc (proj st) (i, length b) = proj st'.
Proof.
  intros A st st' i b H. unfold merge_batch in H. destruct (r_data (parts dim3 rank_map my_rank gc i)); [|discriminate]. destruct (write_range A _ _ _); [|discriminate]. cbn [bind] in H. injection H as <-. reflexivity.
Qed.

Lemma counts_are_merges : forall A evs (st st' : mstate A), foldM (merge_batch A dim3 rank_map my_rank gc) evs st = Ok st' ->
  fold_left (count_batch dim3 rank_map my_rank gc) (map (fun e => (fst e, length (snd e))) evs) (proj st) = proj st'.
Proof.
  induction evs as [|[i b] evs IH]; intros st st' H; cbn [foldM map fold_left fst snd] in *; [injection H as <-; reflexivity|].
  destruct (merge_batch A dim3 rank_map my_rank gc st (i, b)) as [s1|] eqn:E; [|discriminate]. cbn [bind] in H. rewrite (count_is_merge A st s1 i b E). apply IH. assumption.
Qed.

Lemma init_same_is_init : forall lc lo (temp fresh : list unit) st0, (forall i, i < dim3 -> owned i = true -> lo i + lc i <= length temp) ->
  init_exchange unit dim3 rank_map my_rank gc lc lo temp fresh = Ok st0 -> init_same dim3 rank_map my_rank gc lc = proj st0.
Proof.
  intros lc lo temp fresh st0 Hl. unfold init_exchange, init_same. destruct (num_points dim3 rank_map my_rank gc =? 0); [intros H; injection H as <-; reflexivity|].
  change (fun _ : nat => 0, @nil nat) with (proj {| st_mem := fresh; st_first := fun _ => 0; st_started := []; st_written := [] |}).
  generalize {| st_mem := fresh; st_first := fun _ => 0; st_started := []; st_written := [] |}.
  assert (Hs : forall i, In i (seq 0 dim3) -> i < dim3) by (intros i Hi; apply in_seq in Hi; lia). revert Hs. generalize (seq 0 dim3) as l.
  induction l as [|i l IH]; intros Hs st H; cbn [foldM fold_left] in *; [injection H as <-; reflexivity|].
  destruct (owned i) eqn:Ho; cbn [negb] in *; [|apply IH; [intros; apply Hs; right; assumption|assumption]].
  destruct (Nat.eqb_spec (lc i) 0) as [E|E]; [apply IH; [intros; apply Hs; right; assumption|assumption]|].
  pose proof (Hl i (Hs i (or_introl eq_refl)) Ho) as Hi. rewrite read_range_ok in H by lia. cbn [bind] in H.
  destruct (merge_batch unit dim3 rank_map my_rank gc st _) as [s1|] eqn:Em; [|discriminate]. cbn [bind] in H. apply count_is_merge in Em.
  rewrite firstn_length, skipn_length in Em. replace (min (lo i + lc i - lo i) (length temp - lo i)) with (lc i) in Em by lia. rewrite Em. apply IH; [intros; apply Hs; right; assumption|assumption].
Qed.
End Same.
