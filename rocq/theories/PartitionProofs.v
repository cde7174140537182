From Coq Require Import ZArith List Bool Lia.
From Verif Require Import Base ListFacts HilbertModel PartitionModel PartitionSpec.
Import ListNotations.
Local Open Scope Z_scope.
Ltac Zify.zify_post_hook ::= Z.div_mod_to_equations.

Notation nonneg := (Forall (fun x => 0 <= x)).

(** Cumulative counts as a function. *)
Definition C (counts : list Z) (k : nat) : Z := zsum (firstn k counts).

Lemma prefix_sums_nth : forall counts acc k, (k <= length counts)%nat ->
  nth_error (prefix_sums acc counts) k = Some (acc + C counts k).
Proof.
  induction counts as [|c counts IH]; intros acc k Hk; cbn in Hk.
  - assert (k = 0)%nat by lia. subst. cbn. f_equal. unfold C. cbn. lia.
  - destruct k; cbn [prefix_sums nth_error].
    + f_equal. unfold C. cbn. lia.
    + rewrite IH by lia. f_equal. unfold C. cbn. unfold zsum. lia.
Qed.

Lemma prefix_sums_length : forall counts acc, length (prefix_sums acc counts) = S (length counts).
Proof. induction counts; intros; cbn; auto. Qed.

Lemma C_0 : forall counts, C counts 0 = 0. Proof. reflexivity. Qed.
Lemma C_full : forall counts, C counts (length counts) = total counts.
Proof. intros. unfold C. rewrite firstn_all. reflexivity. Qed.
Lemma C_mono : forall counts a b, nonneg counts -> (a <= b)%nat -> C counts a <= C counts b.
Proof. intros. apply zsum_firstn_mono; assumption. Qed.

Lemma pp_le : forall A (f : A -> bool) l, (partition_point f l <= length l)%nat.
Proof. induction l as [|a l IH]; cbn; [lia|]. destruct (f a); lia. Qed.

Lemma pp_before : forall A (f : A -> bool) l i a, (i < partition_point f l)%nat -> nth_error l i = Some a -> f a = true.
Proof.
  induction l as [|b l IH]; intros i a Hi Ha; cbn in *; [lia|].
  destruct (f b) eqn:E; [|lia]. destruct i; cbn in Ha; [congruence|]. apply (IH i); [lia|assumption].
Qed.

Lemma pp_at : forall A (f : A -> bool) l a, nth_error l (partition_point f l) = Some a -> f a = false.
Proof.
  induction l as [|b l IH]; intros a Ha; cbn in *; [discriminate|].
  destruct (f b) eqn:E; cbn in Ha; [auto|congruence].
Qed.

(** Position found for a target. *)
Definition pos (counts : list Z) (t : Z) : nat := partition_point (fun a => a <? t) (prefix_sums 0 counts).

Lemma pos_spec : forall counts t, 0 < t <= total counts ->
  (1 <= pos counts t <= length counts)%nat /\
  C counts (pos counts t - 1) < t <= C counts (pos counts t).
Proof.
  intros counts t Ht. unfold pos.
  set (f := fun a => a <? t). set (l := prefix_sums 0 counts).
  assert (L : length l = S (length counts)) by apply prefix_sums_length.
  assert (N : forall k, (k <= length counts)%nat -> nth_error l k = Some (C counts k)).
  { intros k Hk. unfold l. rewrite prefix_sums_nth by assumption. f_equal. }
  assert (P1 : (1 <= partition_point f l)%nat).
  { destruct (partition_point f l) eqn:E; [|lia]. exfalso.
    pose proof (pp_at _ f l (C counts 0)) as H. rewrite E in H. specialize (H (N 0%nat ltac:(lia))).
    unfold f in H. rewrite C_0 in H. lia. }
  assert (P2 : (partition_point f l <= length counts)%nat).
  { destruct (Nat.le_gt_cases (partition_point f l) (length counts)) as [X|X]; [assumption|]. exfalso.
    pose proof (pp_before _ f l (length counts) (C counts (length counts)) X (N (length counts) ltac:(lia))) as H.
    unfold f in H. rewrite C_full in H. lia. }
  split; [lia|]. split.
  - pose proof (pp_before _ f l (partition_point f l - 1)%nat _ ltac:(lia) (N (partition_point f l - 1)%nat ltac:(lia))) as H.
    unfold f at 1 in H. apply Z.ltb_lt in H. exact H.
  - pose proof (pp_at _ f l _ (N _ P2)) as H. unfold f at 1 in H. apply Z.ltb_ge in H. exact H.
Qed.

(** The chosen boundary: number of cells before the cut. *)
Definition bnd (counts : list Z) (t : Z) : nat :=
  let p := pos counts t in
  if C counts p - t <? t - C counts (p - 1) then p else (p - 1)%nat.

Lemma cut_bnd : forall counts share split,
  0 < share * split <= total counts ->
  cut (prefix_sums 0 counts) share split =
    if (0 <? bnd counts (share * split))%nat then Ok (Z.of_nat (bnd counts (share * split)) - 1) else Fail AssertFail.
Proof.
  intros counts share split Ht. unfold cut. set (t := share * split) in *.
  fold (pos counts t). destruct (pos_spec counts t Ht) as [Hp [Hlo Hhi]].
  set (p := pos counts t) in *.
  assert (N : forall k, (k <= length counts)%nat -> nth_resZ (prefix_sums 0 counts) (Z.of_nat k) = Ok (C counts k)).
  { intros k Hk. apply nth_resZ_ok. split; [lia|]. rewrite Nat2Z.id.
    rewrite prefix_sums_nth by assumption. f_equal. }
  rewrite (N p) by lia. cbn [bind].
  replace (Z.of_nat p - 1) with (Z.of_nat (p - 1)) by lia. rewrite (N (p - 1)%nat) by lia. cbn [bind].
  unfold assert_. destruct (C counts p - t >=? 0) eqn:E1; [|lia].
  destruct (t - C counts (p - 1) >=? 0) eqn:E2; [|lia]. cbn [bind].
  unfold bnd. fold p. destruct (C counts p - t <? t - C counts (p - 1)) eqn:E3.
  - destruct (Nat.ltb_spec 0 p); [|lia]. destruct (Z.of_nat p - 1 >=? 0) eqn:E4; [reflexivity|lia].
  - destruct (Nat.ltb_spec 0 (p - 1)).
    + destruct (Z.of_nat (p - 1) - 1 >=? 0) eqn:E4; [reflexivity|blia].
    + destruct (Z.of_nat (p - 1) - 1 >=? 0) eqn:E4; [blia|reflexivity].
Qed.

Lemma cut_zero : forall counts split, nonneg counts -> cut (prefix_sums 0 counts) 0 split = Fail Oob.
Proof.
  intros counts split Hn. unfold cut. cbn [Z.mul].
  assert (E : partition_point (fun a => a <? 0) (prefix_sums 0 counts) = 0%nat).
  { destruct counts; reflexivity. }
  rewrite E. assert (N : nth_resZ (prefix_sums 0 counts) (Z.of_nat 0) = Ok 0).
  { apply nth_resZ_ok. split; [lia|]. rewrite prefix_sums_nth by lia. reflexivity. }
  rewrite N. reflexivity.
Qed.

Lemma bnd_range : forall counts t, 0 < t <= total counts -> (bnd counts t <= length counts)%nat.
Proof.
  intros counts t Ht. destruct (pos_spec counts t Ht). unfold bnd. destruct (_ <? _); lia.
Qed.

Lemma pos_mono : forall counts t t', nonneg counts -> 0 < t -> t <= t' -> t' <= total counts ->
  (pos counts t <= pos counts t')%nat.
Proof.
  intros counts t t' Hn H0 H1 H2.
  destruct (pos_spec counts t ltac:(lia)) as [A [A1 A2]].
  destruct (pos_spec counts t' ltac:(lia)) as [B [B1 B2]].
  destruct (Nat.le_gt_cases (pos counts t) (pos counts t')) as [X|X]; [assumption|].
  pose proof (C_mono counts (pos counts t') (pos counts t - 1) Hn ltac:(lia)). lia.
Qed.

Lemma bnd_mono : forall counts t t', nonneg counts -> 0 < t -> t <= t' -> t' <= total counts ->
  (bnd counts t <= bnd counts t')%nat.
Proof.
  intros counts t t' Hn H0 H1 H2. pose proof (pos_mono counts t t' Hn H0 H1 H2) as M.
  destruct (pos_spec counts t ltac:(lia)) as [A [A1 A2]].
  destruct (pos_spec counts t' ltac:(lia)) as [B [B1 B2]].
  unfold bnd. destruct (Nat.eq_dec (pos counts t) (pos counts t')) as [E|E].
  - rewrite <- E in *. destruct (_ - t <? t - _) eqn:X; destruct (_ - t' <? t' - _) eqn:Y; lia.
  - destruct (_ - t <? t - _); destruct (_ - t' <? t' - _); lia.
Qed.

Lemma bnd_nearest : forall counts t b, nonneg counts -> 0 < t <= total counts -> (b <= length counts)%nat ->
  Z.abs (C counts (bnd counts t) - t) <= Z.abs (C counts b - t).
Proof.
  intros counts t b Hn Ht Hb. destruct (pos_spec counts t Ht) as [A [A1 A2]].
  assert (D : (b <= pos counts t - 1 \/ pos counts t <= b)%nat) by lia.
  assert (E : C counts b <= C counts (pos counts t - 1) \/ C counts (pos counts t) <= C counts b).
  { destruct D; [left|right]; apply C_mono; assumption. }
  unfold bnd. destruct (_ - t <? t - _) eqn:X; lia.
Qed.

Lemma bnd_first : forall counts t, nonneg counts -> 0 < t <= total counts ->
  (bnd counts t = 0)%nat <-> 2 * t <= hd 0 counts.
Proof.
  intros counts t Hn Ht. destruct (pos_spec counts t Ht) as [A [A1 A2]].
  destruct counts as [|c counts]; [cbn in A; lia|].
  assert (C1 : C (c :: counts) 1 = c) by (unfold C; cbn; lia).
  cbn [hd]. unfold bnd. split.
  - destruct (_ - t <? t - _) eqn:X; [lia|]. intros E. assert (P : (pos (c :: counts) t = 1)%nat) by lia.
    rewrite P in *. cbn [Nat.sub] in *. rewrite C_0, C1 in *. lia.
  - intros H. assert (P : (pos (c :: counts) t = 1)%nat).
    { destruct (Nat.le_gt_cases (pos (c :: counts) t) 1) as [Y|Y]; [lia|].
      pose proof (C_mono (c :: counts) 1 (pos (c :: counts) t - 1) Hn ltac:(lia)). lia. }
    rewrite P in *. cbn [Nat.sub] in *. rewrite C_0, C1 in *.
    destruct (c - t <? t - 0) eqn:X; lia.
Qed.

(** ** The fill loops *)
Lemma fill_range_ok : forall l b e i, 0 <= b -> e < Z.of_nat (length l) ->
  exists l', fill_range l b e i = Ok l' /\ length l' = length l /\
    forall j, nth_error l' j = if (b <=? Z.of_nat j) && (Z.of_nat j <=? e) then Some i else nth_error l j.
Proof.
  intros l b e i Hb He. unfold fill_range.
  set (P := fun (n : nat) (r : list Z) => length r = length l /\
    forall j, nth_error r j = if (b <=? Z.of_nat j) && (Z.of_nat j <? b + Z.of_nat n) then Some i else nth_error l j).
  destruct (foldM_ind _ _ (fun r j => set_resZ r j i) P (zseq b (Z.to_nat (e - b + 1))) l) as (s & E & HL & HN).
  - split; [reflexivity|]. intros j. destruct (_ && _) eqn:X; [blia|reflexivity].
  - intros j a s Ha [HL HN]. apply zseq_inv in Ha. destruct Ha as [Hj ->].
    exists (upd s (Z.to_nat (b + Z.of_nat j)) i). split; [apply set_resZ_ok; blia|]. split.
    + rewrite upd_length. assumption.
    + intros k. destruct (Nat.eq_dec (Z.to_nat (b + Z.of_nat j)) k) as [<-|Hk].
      * rewrite upd_same by blia. destruct (_ && _) eqn:X; [reflexivity|blia].
      * rewrite upd_other by assumption. rewrite HN.
        destruct ((b <=? Z.of_nat k) && (Z.of_nat k <? b + Z.of_nat j)) eqn:X;
        destruct ((b <=? Z.of_nat k) && (Z.of_nat k <? b + Z.of_nat (S j))) eqn:Y; try reflexivity; blia.
  - exists s. split; [assumption|]. split; [assumption|]. intros j. rewrite HN, zseq_len.
    destruct ((b <=? Z.of_nat j) && (Z.of_nat j <? b + Z.of_nat (Z.to_nat (e - b + 1)))) eqn:X;
    destruct ((b <=? Z.of_nat j) && (Z.of_nat j <=? e)) eqn:Y; try reflexivity; blia.
Qed.

(** Rank of position j: how many cuts lie strictly before it. *)
Definition rank_at (cuts : list Z) (j : Z) : Z := Z.of_nat (length (filter (fun c => c <? j) cuts)).

Definition sorted (cuts : list Z) : Prop :=
  forall i j a b, (i <= j)%nat -> nth_error cuts i = Some a -> nth_error cuts j = Some b -> a <= b.

Lemma rank_at_sorted : forall cuts j i, sorted cuts ->
  (forall k c, (k < i)%nat -> nth_error cuts k = Some c -> c < j) ->
  (forall k c, (i <= k)%nat -> nth_error cuts k = Some c -> j <= c) ->
  (i <= length cuts)%nat -> rank_at cuts j = Z.of_nat i.
Proof.
  intros cuts j i _. unfold rank_at. revert i. induction cuts as [|c cuts IH]; intros i Hlo Hhi Hi; cbn in Hi.
  - assert (i = 0)%nat by blia. subst. reflexivity.
  - cbn [filter]. destruct i.
    + pose proof (Hhi 0%nat c ltac:(blia) eq_refl). destruct (c <? j) eqn:E; [blia|].
      apply (IH 0%nat); [intros; blia| |blia]. intros k c' Hk. apply (Hhi (S k)). blia.
    + pose proof (Hlo 0%nat c ltac:(blia) eq_refl). destruct (c <? j) eqn:E; [|blia].
      cbn [length]. specialize (IH i). rewrite Nat2Z.inj_succ. rewrite IH; [blia| | |blia].
      * intros k c' Hk. apply (Hlo (S k)). blia.
      * intros k c' Hk. apply (Hhi (S k)). blia.
Qed.

Lemma fill_ok : forall cuts np l,
  length cuts = np -> sorted cuts ->
  (forall k c, nth_error cuts k = Some c -> -1 <= c < Z.of_nat (length l)) ->
  nth_error cuts (np - 1) = Some (Z.of_nat (length l) - 1) ->
  fill cuts (Z.of_nat np) l = Ok (map (rank_at cuts) (zseq 0 (length l))).
Proof.
  intros cuts np l HL HS HR Hlast. unfold fill. rewrite Nat2Z.id.
  assert (Hnp : (1 <= np)%nat).
  { apply nth_error_bound in Hlast. blia. }
  (* invariant: positions up to cuts[n-1] carry their rank *)
  set (P := fun (n : nat) (r : list Z) => length r = length l /\
    forall j, (j < length l)%nat ->
      (exists c, nth_error cuts (n - 1) = Some c /\ (1 <= n)%nat /\ Z.of_nat j <= c) ->
      nth_error r j = Some (rank_at cuts (Z.of_nat j))).
  match goal with |- foldM ?f ?z ?s = _ =>
    destruct (foldM_ind _ _ f P z s) as (s' & E & HL' & HN) end.
  - split; [reflexivity|]. intros j _ (c & _ & H & _). blia.
  - intros i a s Ha [HLs HNs]. apply zseq_inv in Ha. destruct Ha as [Hi ->]. cbn [Z.add].
    destruct (nth_error_lt _ cuts i ltac:(blia)) as [e He].
    pose proof (HR _ _ He) as Re.
    set (b := if Z.of_nat i =? 0 then 0 else match nth_error cuts (i - 1) with Some c => c + 1 | None => 0 end).
    assert (Eb : (if Z.of_nat i =? 0 then Ok 0 else do c <- nth_resZ cuts (Z.of_nat i - 1); Ok (c + 1)) = Ok b).
    { unfold b. destruct (Z.of_nat i =? 0) eqn:Z0; [reflexivity|].
      destruct (nth_error_lt _ cuts (i - 1) ltac:(blia)) as [c Hc].
      assert (Q : nth_resZ cuts (Z.of_nat i - 1) = Ok c).
      { apply nth_resZ_ok. split; [blia|]. replace (Z.to_nat (Z.of_nat i - 1)) with (i - 1)%nat by blia. assumption. }
      rewrite Q, Hc. reflexivity. }
    rewrite Eb. cbn [bind].
    assert (Ee : nth_resZ cuts (Z.of_nat i) = Ok e) by (apply nth_resZ_ok; rewrite Nat2Z.id; split; [blia|assumption]).
    rewrite Ee. cbn [bind].
    assert (Hb0 : 0 <= b).
    { unfold b. destruct (_ =? 0); [blia|]. destruct (nth_error cuts (i - 1)) eqn:X; [|blia]. pose proof (HR _ _ X). blia. }
    destruct (fill_range_ok s b e (Z.of_nat i) Hb0 ltac:(blia)) as (s' & Es & HLs' & HNs').
    exists s'. split; [assumption|]. split; [blia|].
    intros j Hj (c & Hc & _ & Hjc). replace (S i - 1)%nat with i in Hc by blia.
    assert (c = e) by congruence. subst c. rewrite HNs'.
    destruct ((b <=? Z.of_nat j) && (Z.of_nat j <=? e)) eqn:X.
    + f_equal. symmetry. apply rank_at_sorted; [assumption| | |blia].
      * intros k c Hk Hkc. unfold b in X. destruct (Z.of_nat i =? 0) eqn:Z0; [blia|].
        destruct (nth_error cuts (i - 1)) as [c'|] eqn:Y.
        -- pose proof (HS k (i - 1)%nat c c' ltac:(blia) Hkc Y). blia.
        -- apply nth_error_None in Y. blia.
      * intros k c Hk Hkc. pose proof (HS i k e c Hk He Hkc). blia.
    + apply HNs; [assumption|]. unfold b in X. destruct (Z.of_nat i =? 0) eqn:Z0; [blia|].
      destruct (nth_error cuts (i - 1)) as [c'|] eqn:Y.
      -- exists c'. split; [reflexivity|]. split; blia.
      -- apply nth_error_None in Y. blia.
  - rewrite E. f_equal. rewrite zseq_len in *.
    apply list_ext; [rewrite map_length, zseq_len; assumption|].
    intros j Hj. rewrite HL' in Hj. rewrite HN; [|assumption|].
    + rewrite (map_nth_error _ _ _ (zseq_nth_error 0 (length l) j Hj)). reflexivity.
    + exists (Z.of_nat (length l) - 1). split; [assumption|]. split; blia.
Qed.

(** ** The whole function *)
Definition the_cuts (counts : list Z) (np : nat) : list Z :=
  map (fun s => Z.of_nat (bnd counts (Z.quot (total counts) (Z.of_nat np) * s)) - 1) (zseq 1 (np - 1))
  ++ [Z.of_nat (length counts) - 1].

Definition succeeds (counts : list Z) (np : nat) : Prop :=
  np = 1%nat \/ (Z.of_nat np <= total counts /\ hd 0 counts < 2 * (total counts / Z.of_nat np)).

Lemma share_bounds : forall T np s, 0 < np -> np <= T -> 1 <= s <= np ->
  0 < Z.quot T np * s <= T.
Proof.
  intros T np s H0 H1 H2. rewrite Z.quot_div_nonneg by blia.
  pose proof (Z.div_mod T np ltac:(blia)). pose proof (Z.mod_pos_bound T np H0).
  assert (1 <= T / np) by (apply Z.div_le_lower_bound; blia). nia.
Qed.

Lemma mapM_fail : forall A B (f : A -> res B) a l e, f a = Fail e -> mapM f (a :: l) = Fail e.
Proof. intros. cbn. rewrite H. reflexivity. Qed.

Lemma mapM_okf : forall A B (f : A -> res B) (g : A -> B) l,
  (forall a, In a l -> f a = Ok (g a)) -> mapM f l = Ok (map g l).
Proof. intros; apply mapM_ok; assumption. Qed.

Lemma quot_div : forall T np, 0 <= T -> 0 < np -> Z.quot T np = T / np.
Proof. intros. apply Z.quot_div_nonneg; blia. Qed.

Lemma the_cuts_nth : forall counts np k, (k < np)%nat ->
  nth_error (the_cuts counts np) k =
    Some (if (k =? np - 1)%nat then Z.of_nat (length counts) - 1
          else Z.of_nat (bnd counts (Z.quot (total counts) (Z.of_nat np) * (1 + Z.of_nat k))) - 1).
Proof.
  intros counts np k Hk. unfold the_cuts. destruct (Nat.eqb_spec k (np - 1)) as [->|Hne].
  - rewrite nth_error_app2; rewrite map_length, zseq_len; [|blia]. rewrite Nat.sub_diag. reflexivity.
  - rewrite nth_error_app1 by (rewrite map_length, zseq_len; blia).
    erewrite map_nth_error; [|apply zseq_nth_error; blia]. reflexivity.
Qed.

Lemma the_cuts_length : forall counts np, (1 <= np)%nat -> length (the_cuts counts np) = np.
Proof. intros. unfold the_cuts. rewrite app_length, map_length, zseq_len. cbn. blia. Qed.

Lemma succeeds_bnd : forall counts np s, nonneg counts -> (1 <= np)%nat -> succeeds counts np ->
  1 <= s < Z.of_nat np ->
  (1 <= bnd counts (Z.quot (total counts) (Z.of_nat np) * s))%nat.
Proof.
  intros counts np s Hn Hnp [->|[H1 H2]] Hs; [blia|].
  pose proof (share_bounds (total counts) (Z.of_nat np) 1 ltac:(blia) H1 ltac:(blia)) as B1.
  pose proof (share_bounds (total counts) (Z.of_nat np) s ltac:(blia) H1 ltac:(blia)) as Bs.
  assert (M : (bnd counts (Z.quot (total counts) (Z.of_nat np) * 1) <= bnd counts (Z.quot (total counts) (Z.of_nat np) * s))%nat).
  { apply bnd_mono; [assumption|lia| |lia]. apply Z.mul_le_mono_nonneg_l; [apply Z.quot_pos; lia|lia]. }
  assert (T0 : 0 <= total counts) by (apply zsum_nonneg; assumption).
  assert (Z1 : bnd counts (Z.quot (total counts) (Z.of_nat np) * 1) <> 0%nat).
  { intros E. apply bnd_first in E; [|assumption|assumption]. rewrite quot_div in E by blia. blia. }
  blia.
Qed.

Lemma the_cuts_sorted : forall counts np, nonneg counts -> (1 <= np)%nat -> succeeds counts np -> sorted (the_cuts counts np).
Proof.
  intros counts np Hn Hnp Hs i j a b Hij Ha Hb.
  assert (Hj : (j < np)%nat) by (apply nth_error_bound in Hb; rewrite the_cuts_length in Hb; assumption).
  rewrite the_cuts_nth in Ha, Hb by blia. apply some_inj in Ha, Hb; subst a b.
  destruct (Nat.eqb_spec i (np - 1)); destruct (Nat.eqb_spec j (np - 1)); try blia.
  - destruct Hs as [->|[H1 H2]]; [blia|].
    assert (Hi : 1 <= 1 + Z.of_nat i <= Z.of_nat np) by lia.
    pose proof (bnd_range counts (Z.quot (total counts) (Z.of_nat np) * (1 + Z.of_nat i))
      (share_bounds (total counts) (Z.of_nat np) (1 + Z.of_nat i) ltac:(lia) H1 Hi)) as R. lia.
  - destruct Hs as [->|[H1 H2]]; [blia|].
    pose proof (share_bounds (total counts) (Z.of_nat np) (1 + Z.of_nat i) ltac:(blia) H1 ltac:(blia)) as B1.
    pose proof (share_bounds (total counts) (Z.of_nat np) (1 + Z.of_nat j) ltac:(blia) H1 ltac:(blia)) as B2.
    assert (M : Z.quot (total counts) (Z.of_nat np) * (1 + Z.of_nat i) <= Z.quot (total counts) (Z.of_nat np) * (1 + Z.of_nat j)).
    { apply Z.mul_le_mono_nonneg_l; [apply Z.quot_pos; lia|lia]. }
    pose proof (bnd_mono counts _ _ Hn (proj1 B1) M (proj2 B2)). blia.
Qed.

Lemma partition_ok : forall counts np, nonneg counts -> (1 <= np)%nat -> succeeds counts np ->
  partition counts (Z.of_nat np) = Ok (map (rank_at (the_cuts counts np)) (zseq 0 (length counts))).
Proof.
  intros counts np Hn Hnp Hs. unfold partition.
  destruct (Z.of_nat np <=? 0) eqn:E; [blia|].
  assert (N : nth_resZ (prefix_sums 0 counts) (Z.of_nat (length counts)) = Ok (total counts)).
  { apply nth_resZ_ok. split; [blia|]. rewrite Nat2Z.id, prefix_sums_nth by blia. f_equal. apply C_full. }
  rewrite N. cbn [bind].
  rewrite (mapM_okf _ _ _ (fun s => Z.of_nat (bnd counts (Z.quot (total counts) (Z.of_nat np) * s)) - 1)).
  - cbn [bind]. replace (Z.to_nat (Z.of_nat np - 1)) with (np - 1)%nat by blia.
    fold (the_cuts counts np).
    pose proof (fill_ok (the_cuts counts np) np (repeat 0 (length counts))) as F.
    rewrite repeat_length in F. apply F.
    + apply the_cuts_length; assumption.
    + apply the_cuts_sorted; assumption.
    + intros k c Hc. assert (Hk : (k < np)%nat) by (apply nth_error_bound in Hc; rewrite the_cuts_length in Hc; assumption).
      rewrite the_cuts_nth in Hc by assumption. apply some_inj in Hc; subst c. destruct (Nat.eqb_spec k (np - 1)); [blia|].
      destruct Hs as [->|[H1 H2]]; [blia|].
      pose proof (bnd_range counts (Z.quot (total counts) (Z.of_nat np) * (1 + Z.of_nat k))
        (share_bounds (total counts) (Z.of_nat np) (1 + Z.of_nat k) ltac:(blia) H1 ltac:(blia))). blia.
    + rewrite the_cuts_nth by blia. rewrite Nat.eqb_refl. reflexivity.
  - intros s Hin. apply zseq_in in Hin.
    destruct Hs as [->|[H1 H2]]; [cbn in Hin; blia|].
    rewrite cut_bnd by (apply share_bounds; blia).
    pose proof (succeeds_bnd counts np s Hn Hnp (or_intror (conj H1 H2)) ltac:(blia)).
    destruct (Nat.ltb_spec 0 (bnd counts (Z.quot (total counts) (Z.of_nat np) * s))); [reflexivity|blia].
Qed.

Lemma partition_fails : forall counts np, nonneg counts -> (1 <= np)%nat -> ~ succeeds counts np ->
  exists e, partition counts (Z.of_nat np) = Fail e.
Proof.
  intros counts np Hn Hnp Hs. unfold partition.
  destruct (Z.of_nat np <=? 0) eqn:E; [blia|].
  assert (N : nth_resZ (prefix_sums 0 counts) (Z.of_nat (length counts)) = Ok (total counts)).
  { apply nth_resZ_ok. split; [blia|]. rewrite Nat2Z.id, prefix_sums_nth by blia. f_equal. apply C_full. }
  rewrite N. cbn [bind].
  assert (np <> 1%nat) by (intros ->; apply Hs; left; reflexivity).
  replace (Z.to_nat (Z.of_nat np - 1)) with (S (np - 2)) by blia. rewrite zseq_S.
  assert (T0 : 0 <= total counts) by (apply zsum_nonneg; assumption).
  destruct (Z_lt_ge_dec (total counts) (Z.of_nat np)) as [L|L].
  - rewrite Z.quot_small by blia. rewrite (mapM_fail _ _ _ _ _ Oob) by (apply cut_zero; assumption).
    eexists; reflexivity.
  - pose proof (share_bounds (total counts) (Z.of_nat np) 1 ltac:(blia) ltac:(blia) ltac:(blia)) as B1.
    assert (Z1 : bnd counts (Z.quot (total counts) (Z.of_nat np) * 1) = 0%nat).
    { apply bnd_first; [assumption|assumption|]. rewrite quot_div by blia.
      destruct (Z_lt_ge_dec (hd 0 counts) (2 * (total counts / Z.of_nat np))); [|blia].
      exfalso. apply Hs. right. blia. }
    rewrite (mapM_fail _ _ _ _ _ AssertFail); [eexists; reflexivity|].
    rewrite cut_bnd by assumption. rewrite Z1. reflexivity.
Qed.

Lemma succeeds_dec : forall counts np, succeeds counts np \/ ~ succeeds counts np.
Proof. intros. unfold succeeds. blia. Qed.

Lemma rank_at_range : forall counts np j, (1 <= np)%nat -> j < Z.of_nat (length counts) ->
  0 <= rank_at (the_cuts counts np) j < Z.of_nat np.
Proof.
  intros counts np j Hnp Hj. unfold rank_at. split; [blia|].
  unfold the_cuts. rewrite filter_app, app_length. cbn [filter].
  destruct (Z.of_nat (length counts) - 1 <? j) eqn:E; [blia|]. cbn [length].
  match goal with |- context [filter ?f ?l] => pose proof (filter_length_le _ f l) as FL end.
  rewrite map_length, zseq_len in FL. blia.
Qed.

Lemma rank_at_mono : forall cuts a b, a <= b -> rank_at cuts a <= rank_at cuts b.
Proof.
  intros cuts a b H. unfold rank_at. apply inj_le. induction cuts as [|c cuts IH]; cbn; [blia|].
  destruct (c <? a) eqn:E1; destruct (c <? b) eqn:E2; cbn; blia.
Qed.

(** Positions of rank below r are those up to cut r-1. *)
Lemma rank_at_below : forall cuts r c j, sorted cuts -> (1 <= r)%nat -> nth_error cuts (r - 1) = Some c ->
  (rank_at cuts j < Z.of_nat r <-> j <= c).
Proof.
  intros cuts r c j HS Hr Hc. unfold rank_at. revert r Hr Hc.
  induction cuts as [|a cuts IH]; intros r Hr Hc; [destruct (r - 1)%nat; discriminate|].
  assert (HS' : sorted cuts).
  { intros i k x y Hik Hx Hy. apply (HS (S i) (S k)); [blia|assumption|assumption]. }
  specialize (IH HS').
  cbn [filter]. destruct r as [|r]; [blia|]. destruct r as [|r].
  - cbn in Hc. injection Hc as ->. destruct (c <? j) eqn:E.
    + cbn [length]. blia.
    + split; [blia|]. intros _. assert (Z0 : filter (fun c0 => c0 <? j) cuts = []).
      { destruct (filter _ cuts) as [|y ys] eqn:F; [reflexivity|]. exfalso.
        assert (In y (filter (fun c0 => c0 <? j) cuts)) as Hin by (rewrite F; left; reflexivity).
        apply filter_In in Hin. destruct Hin as [Hin Hy]. apply In_nth_error in Hin. destruct Hin as [k Hk].
        pose proof (HS 0%nat (S k) c y ltac:(blia) eq_refl Hk). blia. }
      rewrite Z0. cbn. blia.
  - replace (S (S r) - 1)%nat with (S r) in Hc by blia. cbn in Hc.
    destruct (a <? j) eqn:E.
    + cbn [length]. specialize (IH (S r) ltac:(blia)). replace (S r - 1)%nat with r in IH by blia. specialize (IH Hc). blia.
    + pose proof (HS 0%nat (S r) a c ltac:(blia) eq_refl Hc). 
      specialize (IH (S r) ltac:(blia)). replace (S r - 1)%nat with r in IH by blia. specialize (IH Hc). blia.
Qed.

Lemma load_prefix : forall counts (g : Z -> Z) f b j0, (b <= length counts)%nat ->
  (forall j, 0 <= j < Z.of_nat (length counts) -> f (g (j0 + j)) = (j <? Z.of_nat b)) ->
  load f (map g (zseq j0 (length counts))) counts = C counts b.
Proof.
  induction counts as [|c counts IH]; intros g f b j0 Hb Hf.
  - cbn in Hb. assert (b = 0)%nat by blia. subst. reflexivity.
  - cbn [length]. rewrite zseq_S. cbn [map load].
    pose proof (Hf 0 ltac:(cbn [length]; blia)) as H0. rewrite Z.add_0_r in H0. rewrite H0.
    cbn [length] in *. destruct b as [|b].
    + cbn [Z.of_nat Z.ltb Z.compare]. rewrite (IH g f 0%nat (j0 + 1)); [|blia|].
      * rewrite !C_0. reflexivity.
      * intros j Hj. replace (j0 + 1 + j) with (j0 + (j + 1)) by blia. rewrite Hf by blia.
        cbn. destruct (j + 1 <? 0) eqn:X; destruct (j <? 0) eqn:Y; blia.
    + destruct (0 <? Z.of_nat (S b)) eqn:X; [|blia].
      rewrite (IH g f b (j0 + 1)); [|blia|].
      * unfold C. cbn [firstn]. unfold zsum. cbn [fold_right]. reflexivity.
      * intros j Hj. replace (j0 + 1 + j) with (j0 + (j + 1)) by blia. rewrite Hf by blia.
        destruct (j + 1 <? Z.of_nat (S b)) eqn:X1; destruct (j <? Z.of_nat b) eqn:Y; blia.
Qed.

(** Number of points below rank r is a prefix sum at the chosen boundary. *)
Lemma load_below : forall counts np r, nonneg counts -> (1 <= np)%nat -> succeeds counts np ->
  1 <= r < Z.of_nat np ->
  load (fun q => q <? r) (map (rank_at (the_cuts counts np)) (zseq 0 (length counts))) counts
  = C counts (bnd counts (Z.quot (total counts) (Z.of_nat np) * r)).
Proof.
  intros counts np r Hn Hnp Hs Hr. apply load_prefix.
  - destruct Hs as [->|[H1 H2]]; [blia|]. apply bnd_range. apply share_bounds; blia.
  - intros j Hj. cbn [Z.add].
    pose proof (the_cuts_nth counts np (Z.to_nat r - 1) ltac:(blia)) as N.
    destruct (Nat.eqb_spec (Z.to_nat r - 1) (np - 1)) as [X|X]; [blia|].
    replace (1 + Z.of_nat (Z.to_nat r - 1)) with r in N by blia.
    pose proof (rank_at_below _ (Z.to_nat r) _ j (the_cuts_sorted counts np Hn Hnp Hs) ltac:(blia) N) as B.
    rewrite Z2Nat.id in B by blia.
    destruct (rank_at (the_cuts counts np) j <? r) eqn:Y; destruct (j <? Z.of_nat (bnd counts (Z.quot (total counts) (Z.of_nat np) * r))) eqn:W; blia.
Qed.

Lemma load_split : forall f g h ranks counts, (forall q, h q = xorb (f q) (g q)) -> (forall q, f q = true -> g q = true) ->
  load h ranks counts = load g ranks counts - load f ranks counts.
Proof.
  intros f g h ranks. induction ranks as [|q ranks IH]; intros counts Hh Hi; [reflexivity|].
  destruct counts as [|c counts]; [reflexivity|]. cbn [load].
  rewrite IH by assumption. rewrite Hh. specialize (Hi q).
  destruct (f q), (g q); cbn; try blia.
Qed.

Lemma load_all : forall f ranks counts, length ranks = length counts -> (forall q, In q ranks -> f q = true) ->
  load f ranks counts = total counts.
Proof.
  intros f ranks. induction ranks as [|q ranks IH]; intros counts HL Hf; destruct counts as [|c counts]; try discriminate; [reflexivity|].
  cbn. rewrite Hf by (left; reflexivity). rewrite IH; [reflexivity|cbn in HL; blia|intros; apply Hf; right; assumption].
Qed.

Lemma load_none : forall f ranks counts, (forall q, In q ranks -> f q = false) -> load f ranks counts = 0.
Proof.
  intros f ranks. induction ranks as [|q ranks IH]; intros counts Hf; [reflexivity|]. destruct counts as [|c counts]; [reflexivity|].
  cbn. rewrite Hf by (left; reflexivity). apply IH. intros; apply Hf; right; assumption.
Qed.

(** Distance of the chosen boundary from the target: at most half a cell. *)
Lemma bnd_half : forall counts t m, nonneg counts -> 0 < t <= total counts ->
  (forall c, In c counts -> c <= m) -> 2 * Z.abs (C counts (bnd counts t) - t) <= m.
Proof.
  intros counts t m Hn Ht Hm. destruct (pos_spec counts t Ht) as [A [A1 A2]].
  destruct (nth_error_lt _ counts (pos counts t - 1) ltac:(blia)) as [c Hc].
  assert (E : C counts (pos counts t) = C counts (pos counts t - 1) + c).
  { unfold C. replace (pos counts t) with (S (pos counts t - 1)) at 1 by blia. apply zsum_firstn_S. assumption. }
  pose proof (Hm c (nth_error_In _ _ Hc)).
  unfold bnd. destruct (_ - t <? t - _) eqn:X; blia.
Qed.
