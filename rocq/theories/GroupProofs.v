From Coq Require Import ZArith List Bool Lia Permutation.
From Verif Require Import Base ListFacts GroupModel GroupSpec.
Import ListNotations.
Local Open Scope Z_scope.

(** Occurrences of c among the first i cell numbers. *)
Definition cnt (gid : list Z) (c : Z) (i : nat) : Z :=
  Z.of_nat (length (filter (fun g => g =? c) (firstn i gid))).
Definition size (gid : list Z) (c : Z) : Z := cnt gid c (length gid).
Fixpoint start (gid : list Z) (c : nat) : Z :=
  match c with O => 0 | S c' => start gid c' + size gid (Z.of_nat c') end.

Lemma cnt_S : forall gid c i g, nth_error gid i = Some g ->
  cnt gid c (S i) = cnt gid c i + (if g =? c then 1 else 0).
Proof.
  intros gid c i g H. unfold cnt. rewrite (firstn_S _ _ _ _ H), filter_app, app_length. cbn [filter].
  destruct (g =? c); cbn [length]; blia.
Qed.

Lemma cnt_le : forall gid c i j, (i <= j)%nat -> cnt gid c i <= cnt gid c j.
Proof.
  intros gid c i j H. unfold cnt. apply inj_le. revert gid j H. induction i as [|i IH]; intros gid j H; [cbn; blia|].
  destruct j as [|j]; [blia|]. destruct gid as [|g gid]; [cbn; blia|]. cbn [firstn filter].
  specialize (IH gid j ltac:(blia)). destruct (g =? c); cbn [length]; blia.
Qed.

Lemma cnt_size : forall gid c i, cnt gid c i <= size gid c.
Proof.
  intros gid c i. destruct (Nat.le_gt_cases i (length gid)) as [H|H].
  - apply cnt_le. assumption.
  - unfold size, cnt. rewrite !firstn_all2 by blia. blia.
Qed.

Lemma cnt_nonneg : forall gid c i, 0 <= cnt gid c i.
Proof. intros. unfold cnt. blia. Qed.

Lemma cnt_lt_size : forall gid c i, nth_error gid i = Some c -> cnt gid c i < size gid c.
Proof.
  intros gid c i H. pose proof (cnt_S gid c i c H) as E. rewrite Z.eqb_refl in E.
  pose proof (cnt_size gid c (S i)). blia.
Qed.

Lemma start_mono : forall gid a b, (a <= b)%nat -> start gid a <= start gid b.
Proof.
  intros gid a b H. induction H; [blia|]. cbn [start]. pose proof (cnt_nonneg gid (Z.of_nat m) (length gid)).
  unfold size. blia.
Qed.

Lemma start_total : forall gid d, Forall (fun g => 0 <= g) gid ->
  start gid d = Z.of_nat (length (filter (fun g => g <? Z.of_nat d) gid)).
Proof.
  intros gid d Hg. induction d as [|d IH].
  - cbn [start]. rewrite (proj2 (filter_none _ _ _)); [reflexivity|].
    intros a Ha. rewrite Forall_forall in Hg. specialize (Hg a Ha). blia.
  - cbn [start]. rewrite IH. unfold size, cnt. rewrite firstn_all. clear IH.
    induction Hg as [|g gid H Hg IHg]; [reflexivity|]. cbn [filter].
    destruct (g <? Z.of_nat d) eqn:E1; destruct (g =? Z.of_nat d) eqn:E2; destruct (g <? Z.of_nat (S d)) eqn:E3;
    cbn [length]; try blia.
Qed.

(** The destination of record i. *)
Definition dest (gid : list Z) (i : nat) : Z :=
  match nth_error gid i with
  | Some c => start gid (Z.to_nat c) + cnt gid c i
  | None => -1
  end.

Section WithGid.
Variables (gid : list Z) (dim : nat).
Hypothesis Hrange : Forall (fun g => 0 <= g < Z.of_nat dim) gid.

Lemma gid_range : forall i c, nth_error gid i = Some c -> 0 <= c < Z.of_nat dim.
Proof. intros i c H. apply nth_error_In in H. rewrite Forall_forall in Hrange. auto. Qed.

Lemma start_dim : start gid dim = Z.of_nat (length gid).
Proof.
  rewrite start_total.
  - rewrite filter_all; [reflexivity|]. intros a Ha. rewrite Forall_forall in Hrange. specialize (Hrange a Ha). blia.
  - eapply Forall_impl; [|exact Hrange]. cbn; intros; blia.
Qed.

Lemma dest_range : forall i, (i < length gid)%nat -> 0 <= dest gid i < Z.of_nat (length gid).
Proof.
  intros i Hi. unfold dest. destruct (nth_error_lt _ gid i Hi) as [c Hc]. rewrite Hc.
  pose proof (gid_range i c Hc) as R. pose proof (cnt_lt_size gid c i Hc) as L.
  pose proof (cnt_nonneg gid c i). rewrite <- start_dim.
  pose proof (start_mono gid 0 (Z.to_nat c) ltac:(blia)) as S0. cbn [start] in S0.
  pose proof (start_mono gid (S (Z.to_nat c)) dim ltac:(blia)) as S1. cbn [start] in S1. rewrite Z2Nat.id in S1 by blia. blia.
Qed.

Lemma dest_inj : forall i j, (i < length gid)%nat -> (j < length gid)%nat -> dest gid i = dest gid j -> i = j.
Proof.
  intros i j Hi Hj. unfold dest.
  destruct (nth_error_lt _ gid i Hi) as [c Hc]. destruct (nth_error_lt _ gid j Hj) as [d Hd]. rewrite Hc, Hd. intros E.
  pose proof (gid_range i c Hc) as Rc. pose proof (gid_range j d Hd) as Rd.
  pose proof (cnt_lt_size gid c i Hc) as Lc. pose proof (cnt_lt_size gid d j Hd) as Ld.
  pose proof (cnt_nonneg gid c i). pose proof (cnt_nonneg gid d j).
  destruct (Z.lt_trichotomy c d) as [X|[X|X]].
  - pose proof (start_mono gid (S (Z.to_nat c)) (Z.to_nat d) ltac:(blia)) as S1. cbn [start] in S1. rewrite Z2Nat.id in S1 by blia. blia.
  - subst d. destruct (Nat.lt_trichotomy i j) as [Y|[Y|Y]]; [|assumption|].
    + pose proof (cnt_S gid c i c Hc) as E1. rewrite Z.eqb_refl in E1. pose proof (cnt_le gid c (S i) j Y). blia.
    + pose proof (cnt_S gid c j c Hd) as E1. rewrite Z.eqb_refl in E1. pose proof (cnt_le gid c (S j) i Y). blia.
  - pose proof (start_mono gid (S (Z.to_nat d)) (Z.to_nat c) ltac:(blia)) as S1. cbn [start] in S1. rewrite Z2Nat.id in S1 by blia. blia.
Qed.

Definition dests : list Z := map (dest gid) (seq 0 (length gid)).

Lemma dests_nth : forall i, (i < length gid)%nat -> nth_error dests i = Some (dest gid i).
Proof.
  intros i Hi. unfold dests. erewrite map_nth_error; [reflexivity|].
  rewrite (nth_error_nth' _ 0%nat) by (rewrite seq_length; assumption). f_equal. apply seq_nth. assumption.
Qed.
Lemma dests_length : length dests = length gid.
Proof. unfold dests. rewrite map_length, seq_length. reflexivity. Qed.

Lemma dests_perm : Permutation dests (zseq 0 (length gid)).
Proof.
  apply NoDup_Permutation_bis.
  - apply NoDup_nth_error. intros i j Hi E. rewrite dests_length in Hi.
    assert (Hj : (j < length gid)%nat).
    { destruct (Nat.lt_ge_cases j (length gid)) as [X|X]; [assumption|]. rewrite dests_nth in E by assumption.
      symmetry in E. apply nth_error_bound in E. rewrite dests_length in E. blia. }
    rewrite !dests_nth in E by assumption. apply some_inj in E. apply dest_inj; assumption.
  - rewrite zseq_len, dests_length. blia.
  - intros a Ha. unfold dests in Ha. apply in_map_iff in Ha. destruct Ha as (i & <- & Hi). apply in_seq in Hi.
    apply zseq_in. pose proof (dest_range i ltac:(blia)). blia.
Qed.

Lemma dests_onto : forall k, (k < length gid)%nat -> exists i, (i < length gid)%nat /\ dest gid i = Z.of_nat k.
Proof.
  intros k Hk. assert (I : In (Z.of_nat k) dests).
  { eapply Permutation_in; [apply Permutation_sym, dests_perm|]. apply zseq_in. blia. }
  unfold dests in I. apply in_map_iff in I. destruct I as (i & E & Hi). apply in_seq in Hi. exists i. split; [blia|assumption].
Qed.

(** ** The offset loops *)
Variable count : list Z.
Hypothesis Hcount : forall c, (c < dim)%nat -> nth_error count c = Some (size gid (Z.of_nat c)).
Hypothesis Hdim : (1 <= dim)%nat.

Lemma initial_offsets_ok : initial_offsets (Z.of_nat dim) count = Ok (map (start gid) (seq 0 dim)).
Proof.
  unfold initial_offsets. rewrite Nat2Z.id.
  rewrite set_resZ_ok by (rewrite repeat_length; blia). cbn [bind].
  set (P := fun (k : nat) (o : list Z) => length o = dim /\
     forall c, (c <= k)%nat -> (c < dim)%nat -> nth_error o c = Some (start gid c)).
  match goal with |- foldM ?f ?z ?s = _ => destruct (foldM_ind _ _ f P z s) as (o & E & HL & HN) end.
  - split; [rewrite upd_length, repeat_length; reflexivity|].
    intros c Hc Hd. assert (c = 0)%nat by blia. subst c. change (Z.to_nat 0) with 0%nat.
    rewrite upd_same by (rewrite repeat_length; blia). reflexivity.
  - intros j a o Ha [HL HN]. apply zseq_inv in Ha. destruct Ha as [Hj ->].
    replace (1 + Z.of_nat j - 1) with (Z.of_nat j) by blia.
    assert (A : nth_resZ o (Z.of_nat j) = Ok (start gid j)).
    { apply nth_resZ_ok. rewrite Nat2Z.id. split; [blia|]. apply HN; blia. }
    assert (B : nth_resZ count (Z.of_nat j) = Ok (size gid (Z.of_nat j))).
    { apply nth_resZ_ok. rewrite Nat2Z.id. split; [blia|]. apply Hcount; blia. }
    rewrite A, B. cbn [bind]. rewrite set_resZ_ok by blia. eexists; split; [reflexivity|].
    split; [rewrite upd_length; assumption|]. intros c Hc Hd.
    replace (Z.to_nat (1 + Z.of_nat j)) with (S j) by blia.
    destruct (Nat.eq_dec (S j) c) as [<-|X].
    + rewrite upd_same by blia. reflexivity.
    + rewrite upd_other by assumption. apply HN; blia.
  - rewrite E. f_equal. rewrite zseq_len in HN. apply list_ext; [rewrite map_length, seq_length; assumption|].
    intros c Hc. rewrite HN by blia. symmetry. erewrite map_nth_error; [reflexivity|].
    rewrite (nth_error_nth' _ 0%nat) by (rewrite seq_length; blia). f_equal. apply seq_nth. blia.
Qed.

Lemma final_locations_ok : exists o,
  final_locations (Z.of_nat (length gid)) gid (map (start gid) (seq 0 dim)) = Ok (dests, o) /\
  length o = dim /\ forall c, (c < dim)%nat -> nth_error o c = Some (start gid (S c)).
Proof.
  unfold final_locations. rewrite Nat2Z.id.
  set (P := fun (k : nat) (st : list Z * list Z) =>
     length (fst st) = length gid /\ length (snd st) = dim /\
     (forall i, (i < k)%nat -> (i < length gid)%nat -> nth_error (fst st) i = Some (dest gid i)) /\
     (forall i, (k <= i)%nat -> nth_error (fst st) i = nth_error gid i) /\
     (forall c, (c < dim)%nat -> nth_error (snd st) c = Some (start gid c + cnt gid (Z.of_nat c) k))).
  match goal with |- exists o, foldM ?f ?z ?s = _ /\ _ => destruct (foldM_ind _ _ f P z s) as ([g o] & E & L1 & L2 & D & _ & O) end.
  - repeat split; cbn [fst snd].
    + rewrite map_length, seq_length. reflexivity.
    + intros; blia.
    + intros c Hc. rewrite nth_error_map_seq by assumption. f_equal. unfold cnt. cbn. blia.
  - intros j a [g o] Ha (L1 & L2 & D & U & O). cbn [fst snd] in *. apply zseq_inv in Ha. destruct Ha as [Hj ->]. cbn [Z.add].
    destruct (nth_error_lt _ gid j Hj) as [c Hc]. pose proof (gid_range j c Hc) as Rc.
    assert (A : nth_resZ g (Z.of_nat j) = Ok c).
    { apply nth_resZ_ok. rewrite Nat2Z.id. split; [blia|]. rewrite U by blia. assumption. }
    assert (B : nth_resZ o c = Ok (start gid (Z.to_nat c) + cnt gid c j)).
    { apply nth_resZ_ok. split; [blia|]. rewrite O by blia. rewrite Z2Nat.id by blia. reflexivity. }
    rewrite A. cbn [bind]. rewrite B. cbn [bind].
    rewrite set_resZ_ok by blia. cbn [bind]. rewrite set_resZ_ok by blia. cbn [bind].
    rewrite Nat2Z.id.
    eexists; split; [reflexivity|]. repeat split; cbn [fst snd].
    + rewrite upd_length. assumption.
    + rewrite upd_length. assumption.
    + intros i Hi Hi'. destruct (Nat.eq_dec j i) as [<-|X].
      * rewrite upd_same by blia. unfold dest. rewrite Hc. reflexivity.
      * rewrite upd_other by assumption. apply D; blia.
    + intros i Hi. rewrite upd_other by blia. apply U. blia.
    + intros d Hd. rewrite (cnt_S gid (Z.of_nat d) j c Hc).
      destruct (Nat.eq_dec (Z.to_nat c) d) as [<-|X].
      * rewrite upd_same by blia. rewrite Z2Nat.id by blia. rewrite Z.eqb_refl. f_equal. blia.
      * rewrite upd_other by assumption. rewrite O by assumption. f_equal.
        destruct (c =? Z.of_nat d) eqn:Y; blia.
  - cbn [fst snd] in *. rewrite zseq_len in D, O. exists o. rewrite E. split; [|split; [assumption|]].
    + f_equal. f_equal. apply list_ext; [rewrite dests_length; assumption|].
      intros i Hi. rewrite D by blia. rewrite dests_nth by blia. reflexivity.
    + intros c Hc. rewrite O by assumption. reflexivity.
Qed.

Lemma correct_offsets_ok : forall o, length o = dim ->
  (forall c, (c < dim)%nat -> nth_error o c = Some (start gid (S c))) ->
  correct_offsets (Z.of_nat dim) o count = Ok (map (start gid) (seq 0 dim)).
Proof.
  intros o Lo Ho. unfold correct_offsets. rewrite Nat2Z.id.
  set (P := fun (k : nat) (o : list Z) => length o = dim /\
     forall c, (c < dim)%nat -> nth_error o c = Some (if (c <? k)%nat then start gid c else start gid (S c))).
  match goal with |- foldM ?f ?z ?s = _ => destruct (foldM_ind _ _ f P z s) as (o' & E & HL & HN) end.
  - split; [assumption|]. intros c Hc. rewrite Ho by assumption. reflexivity.
  - intros j a o1 Ha [HL HN]. apply zseq_inv in Ha. destruct Ha as [Hj ->]. cbn [Z.add].
    assert (A : nth_resZ o1 (Z.of_nat j) = Ok (start gid (S j))).
    { apply nth_resZ_ok. rewrite Nat2Z.id. split; [blia|]. rewrite HN by blia. rewrite Nat.ltb_irrefl. reflexivity. }
    assert (B : nth_resZ count (Z.of_nat j) = Ok (size gid (Z.of_nat j))).
    { apply nth_resZ_ok. rewrite Nat2Z.id. split; [blia|]. apply Hcount; blia. }
    rewrite A, B. cbn [bind]. rewrite set_resZ_ok by blia. eexists; split; [reflexivity|].
    split; [rewrite upd_length; assumption|]. intros c Hc. rewrite Nat2Z.id.
    destruct (Nat.eq_dec j c) as [<-|X].
    + rewrite upd_same by blia. destruct (Nat.ltb_spec j (S j)); [|blia]. cbn [start]. f_equal. blia.
    + rewrite upd_other by assumption. rewrite HN by assumption.
      destruct (Nat.ltb_spec c j); destruct (Nat.ltb_spec c (S j)); try reflexivity; blia.
  - rewrite E. f_equal. rewrite zseq_len in HN. apply list_ext; [rewrite map_length, seq_length; assumption|].
    intros c Hc. rewrite HN by blia. destruct (Nat.ltb_spec c dim); [|blia].
    symmetry. erewrite map_nth_error; [reflexivity|].
    rewrite (nth_error_nth' _ 0%nat) by (rewrite seq_length; blia). f_equal. apply seq_nth. blia.
Qed.
End WithGid.

(** ** The cycle loop *)
Section Cycle.
Variable Record : Type.
Variable n : nat.

(** Swapping two entries. *)
Definition swap_at {A} (l : list A) (i j : nat) : list A :=
  match nth_error l i, nth_error l j with
  | Some a, Some b => upd (upd l j a) i b
  | _, _ => l
  end.

Lemma upd_app : forall A (l1 l2 : list A) a v, upd (l1 ++ a :: l2) (length l1) v = l1 ++ v :: l2.
Proof. induction l1; intros; cbn; [reflexivity|]. f_equal. apply IHl1. Qed.

Lemma upd_upd_perm : forall A (l : list A) i j a b, i <> j -> nth_error l i = Some a -> nth_error l j = Some b ->
  Permutation (upd (upd l j a) i b) l.
Proof.
  induction l as [|c l IH]; intros i j a b Hij Ha Hb; [destruct i; discriminate|].
  assert (T : forall k v w, nth_error l k = Some w -> Permutation (w :: upd l k v) (v :: l)).
  { clear. induction l as [|c l IH]; intros k v w Hk; [destruct k; discriminate|]. destruct k; cbn in Hk |- *.
    - injection Hk as ->. apply perm_swap.
    - rewrite perm_swap. rewrite (perm_swap c v l). apply perm_skip. apply IH. assumption. }
  destruct i, j; cbn in Ha, Hb |- *; try blia.
  - injection Ha as ->. apply T. assumption.
  - injection Hb as ->. apply T. assumption.
  - apply perm_skip. apply IH; [blia|assumption|assumption].
Qed.

Definition fixed (g : list Z) : nat := length (filter (fun i => match nth_error g i with Some v => v =? Z.of_nat i | None => false end) (seq 0 n)).

Lemma filter_count_lt : forall (f f' : nat -> bool) l t, NoDup l -> In t l -> f t = false -> f' t = true ->
  (forall x, f x = true -> f' x = true) -> (length (filter f l) < length (filter f' l))%nat.
Proof.
  intros f f' l t _ Ht Ff Ft Himp. induction l as [|x l IH]; [destruct Ht|].
  assert (LE : forall m, (length (filter f m) <= length (filter f' m))%nat).
  { induction m as [|y m IHm]; cbn; [blia|]. destruct (f y) eqn:E; [rewrite (Himp _ E)|destruct (f' y)]; cbn; blia. }
  destruct Ht as [->|Ht].
  - cbn. rewrite Ff, Ft. cbn. specialize (LE l). blia.
  - cbn. specialize (IH Ht). destruct (f x) eqn:E; [rewrite (Himp _ E)|destruct (f' x)]; cbn; blia.
Qed.

Definition ok_state (p : list Record) (g : list Z) : Prop :=
  length p = n /\ Permutation g (zseq 0 n).

Lemma ok_range : forall p g i v, ok_state p g -> nth_error g i = Some v -> 0 <= v < Z.of_nat n.
Proof.
  intros p g i v [_ P] H. apply nth_error_In in H. apply (Permutation_in _ P) in H. apply zseq_in in H. blia.
Qed.
Lemma ok_length : forall p g, ok_state p g -> length g = n.
Proof. intros p g [_ P]. rewrite (Permutation_length P), zseq_len. reflexivity. Qed.
Lemma zseq_NoDup : forall a k, NoDup (zseq a k).
Proof.
  intros. unfold zseq. apply FinFun.Injective_map_NoDup; [intros x y; blia|apply seq_NoDup].
Qed.
Lemma ok_inj : forall p g i j v, ok_state p g -> nth_error g i = Some v -> nth_error g j = Some v -> i = j.
Proof.
  intros p g i j v [_ P] Hi Hj. assert (ND : NoDup g).
  { apply Permutation_NoDup with (zseq 0 n); [apply Permutation_sym; assumption|apply zseq_NoDup]. }
  rewrite NoDup_nth_error in ND. apply ND; [apply nth_error_bound in Hi; assumption|congruence].
Qed.

Lemma combine_upd : forall A B (l : list A) (m : list B) i a b, combine (upd l i a) (upd m i b) = upd (combine l m) i (a, b).
Proof.
  induction l as [|x l IH]; intros m i a b; [reflexivity|]. destruct m as [|y m]; [destruct i; cbn; [reflexivity|destruct (upd l i a); reflexivity]|].
  destruct i; cbn; [reflexivity|]. f_equal. apply IH.
Qed.

Lemma nth_error_combine : forall A B (l : list A) (m : list B) i a b,
  nth_error l i = Some a -> nth_error m i = Some b -> nth_error (combine l m) i = Some (a, b).
Proof.
  induction l as [|x l IH]; intros m i a b Ha Hb; [destruct i; discriminate|].
  destruct m as [|y m]; [destruct i; discriminate|]. destruct i; cbn in *; [congruence|]. apply IH; assumption.
Qed.

Lemma swap_step_ok : forall p g i v, ok_state p g -> (i < n)%nat -> nth_error g i = Some v -> v <> Z.of_nat i ->
  exists p' g', swap_step Record p g (Z.of_nat i) = Ok (p', g') /\ ok_state p' g' /\
    Permutation (combine p' g') (combine p g) /\ (fixed g < fixed g')%nat /\
    (forall k, nth_error g k = Some (Z.of_nat k) -> nth_error g' k = Some (Z.of_nat k)).
Proof.
  intros p g i v Hok Hi Hv Hne. pose proof (ok_length _ _ Hok) as Lg. pose proof (ok_range _ _ _ _ Hok Hv) as Rv.
  destruct Hok as [Lp P]. set (t := Z.to_nat v).
  destruct (nth_error_lt _ p i ltac:(blia)) as [pi Hpi].
  destruct (nth_error_lt _ p t ltac:(unfold t; blia)) as [pt Hpt].
  destruct (nth_error_lt _ g t ltac:(unfold t; blia)) as [gt Hgt].
  assert (Hit : i <> t) by (unfold t; blia).
  exists (upd (upd p t pi) i pt), (upd (upd g t v) i gt).
  assert (E : swap_step Record p g (Z.of_nat i) = Ok (upd (upd p t pi) i pt, upd (upd g t v) i gt)).
  { unfold swap_step.
    assert (A1 : nth_resZ g (Z.of_nat i) = Ok v) by (apply nth_resZ_ok; rewrite Nat2Z.id; split; [blia|assumption]).
    assert (A2 : nth_resZ p v = Ok pt) by (apply nth_resZ_ok; split; [blia|assumption]).
    assert (A3 : nth_resZ g v = Ok gt) by (apply nth_resZ_ok; split; [blia|assumption]).
    assert (A4 : nth_resZ p (Z.of_nat i) = Ok pi) by (apply nth_resZ_ok; rewrite Nat2Z.id; split; [blia|assumption]).
    rewrite A1. cbn [bind]. rewrite A2. cbn [bind]. rewrite A3. cbn [bind]. rewrite A4. cbn [bind].
    rewrite set_resZ_ok by blia. cbn [bind]. rewrite set_resZ_ok by blia. cbn [bind].
    rewrite set_resZ_ok by (rewrite upd_length; blia). cbn [bind].
    rewrite set_resZ_ok by (rewrite upd_length; blia). cbn [bind]. rewrite Nat2Z.id. reflexivity. }
  split; [exact E|].
  assert (Pg : Permutation (upd (upd g t v) i gt) g) by (apply upd_upd_perm; assumption).
  split; [|split; [|split]].
  - split; [rewrite !upd_length; assumption|]. rewrite Pg. assumption.
  - rewrite !combine_upd. apply upd_upd_perm; [assumption| |]; apply nth_error_combine; assumption.
  - unfold fixed. apply filter_count_lt with t.
    + apply seq_NoDup.
    + apply in_seq. unfold t. blia.
    + rewrite Hgt. apply Z.eqb_neq. intros Q. apply Hit.
      apply (ok_inj p g i t v (conj Lp P)); [assumption|]. rewrite Hgt, Q. f_equal. unfold t. blia.
    + rewrite upd_other by assumption. rewrite upd_same by (unfold t; blia). apply Z.eqb_eq. unfold t. blia.
    + intros k Hk. destruct (nth_error g k) as [w|] eqn:W; [|discriminate]. apply Z.eqb_eq in Hk.
      assert (k <> i) by congruence.
      assert (k <> t).
      { intros ->. apply Hit. apply (ok_inj p g i t v (conj Lp P)); [assumption|]. rewrite W, Hk. f_equal. unfold t. blia. }
      rewrite !upd_other by congruence. rewrite W. apply Z.eqb_eq. assumption.
  - intros k Hk. assert (k <> i) by congruence.
    assert (k <> t).
    { intros ->. apply Hit. apply (ok_inj p g i t v (conj Lp P)); [assumption|]. rewrite Hk. f_equal. unfold t. blia. }
    rewrite !upd_other by congruence. assumption.
Qed.

Lemma fixed_le : forall g, (fixed g <= n)%nat.
Proof. intros. unfold fixed. rewrite <- (seq_length n 0) at 2. apply filter_length_le. Qed.

Lemma cycle_loop_ok : forall fuel p g i, ok_state p g -> (i < n)%nat -> (n <= fixed g + fuel)%nat ->
  exists p' g', cycle_loop Record fuel p g (Z.of_nat i) = Ok (p', g') /\ ok_state p' g' /\
    Permutation (combine p' g') (combine p g) /\ nth_error g' i = Some (Z.of_nat i) /\
    (forall k, nth_error g k = Some (Z.of_nat k) -> nth_error g' k = Some (Z.of_nat k)).
Proof.
  induction fuel as [|fuel IH]; intros p g i Hok Hi Hf.
  all: destruct (nth_error_lt _ g i ltac:(rewrite (ok_length _ _ Hok); blia)) as [v Hv].
  all: assert (A1 : nth_resZ g (Z.of_nat i) = Ok v) by (apply nth_resZ_ok; rewrite Nat2Z.id; split; [blia|assumption]).
  all: cbn [cycle_loop]; rewrite A1; cbn [bind]; destruct (Z.eqb_spec v (Z.of_nat i)) as [X|X].
  - exists p, g. subst v. auto.
  - exfalso. destruct (swap_step_ok p g i v Hok Hi Hv X) as (p' & g' & _ & _ & _ & F & _).
    pose proof (fixed_le g'). blia.
  - exists p, g. subst v. auto.
  - destruct (swap_step_ok p g i v Hok Hi Hv X) as (p1 & g1 & E1 & O1 & P1 & F1 & K1).
    rewrite E1. cbn [bind]. destruct (IH p1 g1 i O1 Hi ltac:(blia)) as (p2 & g2 & E2 & O2 & P2 & F2 & K2).
    exists p2, g2. split; [assumption|]. split; [assumption|]. split; [rewrite P2; assumption|]. split; [assumption|].
    intros k Hk. apply K2, K1, Hk.
Qed.

Lemma rearrange_ok : forall p g, ok_state p g ->
  exists p', rearrange Record (Z.of_nat n) p g = Ok (p', zseq 0 n) /\ length p' = n /\
    Permutation (combine p' (zseq 0 n)) (combine p g).
Proof.
  intros p g Hok. unfold rearrange. rewrite Nat2Z.id.
  set (P := fun (k : nat) (st : list Record * list Z) => ok_state (fst st) (snd st) /\
    Permutation (combine (fst st) (snd st)) (combine p g) /\
    forall j, (j < k)%nat -> (j < n)%nat -> nth_error (snd st) j = Some (Z.of_nat j)).
  match goal with |- exists p', foldM ?f ?z ?s = _ /\ _ => destruct (foldM_ind _ _ f P z s) as ([p' g'] & E & O & Pm & F) end.
  - repeat split; cbn [fst snd]; try apply Hok; try reflexivity. intros; blia.
  - intros j a [p1 g1] Ha (O & Pm & F). cbn [fst snd] in *. apply zseq_inv in Ha. destruct Ha as [Hj ->]. cbn [Z.add].
    destruct (cycle_loop_ok n p1 g1 j O Hj ltac:(blia)) as (p2 & g2 & E2 & O2 & P2 & F2 & K2).
    exists (p2, g2). split; [assumption|]. repeat split; cbn [fst snd]; try apply O2.
    + rewrite P2. assumption.
    + intros k Hk Hk'. destruct (Nat.eq_dec k j) as [->|X]; [assumption|]. apply K2, F; blia.
  - cbn [fst snd] in *. rewrite zseq_len in F.
    assert (G : g' = zseq 0 n).
    { apply list_ext; [rewrite (ok_length _ _ O), zseq_len; reflexivity|]. intros k Hk. rewrite (ok_length _ _ O) in Hk.
      rewrite F by assumption. rewrite zseq_nth_error by assumption. f_equal. }
    subst g'. exists p'. split; [assumption|]. split; [apply O|assumption].
Qed.
End Cycle.

(** ** Assembly *)
Lemma cell_records_nth : forall R (p : list R) gid i r c, length p = length gid ->
  nth_error p i = Some r -> nth_error gid i = Some c ->
  nth_error (cell_records p gid c) (Z.to_nat (cnt gid c i)) = Some r.
Proof.
  intros R p. unfold cell_records. induction p as [|a p IH]; intros gid i r c HL Hr Hc; [destruct i; discriminate|].
  destruct gid as [|g gid]; [destruct i; discriminate|]. cbn [combine filter snd].
  destruct i; cbn in Hr, Hc.
  - injection Hr as ->. injection Hc as ->. rewrite Z.eqb_refl. reflexivity.
  - unfold cnt. cbn [firstn filter]. specialize (IH gid i r c ltac:(cbn in HL; blia) Hr Hc). unfold cnt in IH.
    rewrite Nat2Z.id in *. destruct (g =? c); cbn; assumption.
Qed.

Lemma cell_records_length : forall R (p : list R) gid c, length p = length gid ->
  Z.of_nat (length (cell_records p gid c)) = size gid c.
Proof.
  intros R p. unfold cell_records, size, cnt. induction p as [|a p IH]; intros gid c HL; destruct gid as [|g gid]; try discriminate; [reflexivity|].
  rewrite firstn_all. cbn [combine filter snd]. specialize (IH gid c ltac:(cbn in HL; blia)). rewrite firstn_all in IH.
  destruct (g =? c); cbn [map length]; blia.
Qed.

Lemma grouped_length : forall R (p : list R) gid d, length p = length gid -> Z.of_nat (length (grouped p gid d)) = start gid d.
Proof.
  intros R p gid d HL. induction d as [|d IH]; [reflexivity|]. cbn [grouped start]. rewrite app_length, Nat2Z.inj_add, IH.
  rewrite cell_records_length by assumption. reflexivity.
Qed.

Lemma grouped_nth : forall R (p : list R) gid d i r c, length p = length gid ->
  nth_error p i = Some r -> nth_error gid i = Some c -> 0 <= c < Z.of_nat d ->
  nth_error (grouped p gid d) (Z.to_nat (start gid (Z.to_nat c) + cnt gid c i)) = Some r.
Proof.
  intros R p gid d i r c HL Hr Hc. pose proof (cnt_nonneg gid c i) as C0. pose proof (cnt_lt_size gid c i Hc) as C1.
  induction d as [|d IH]; intros Hd; [blia|]. cbn [grouped].
  pose proof (grouped_length R p gid d HL) as GL.
  pose proof (start_mono gid 0 (Z.to_nat c) ltac:(blia)) as S0. cbn [start] in S0.
  destruct (Z.eq_dec c (Z.of_nat d)) as [->|X].
  - rewrite Nat2Z.id in *. rewrite nth_error_app2 by blia.
    replace (Z.to_nat (start gid d + cnt gid (Z.of_nat d) i) - length (grouped p gid d))%nat with (Z.to_nat (cnt gid (Z.of_nat d) i)) by blia.
    apply cell_records_nth; assumption.
  - pose proof (start_mono gid (S (Z.to_nat c)) d ltac:(blia)) as S1. cbn [start] in S1. rewrite Z2Nat.id in S1 by blia.
    rewrite nth_error_app1 by blia. apply IH. blia.
Qed.

Lemma group_points_ok : forall R (p : list R) gid count dim,
  length p = length gid -> (1 <= dim)%nat ->
  Forall (fun g => 0 <= g < Z.of_nat dim) gid ->
  (forall c, (c < dim)%nat -> nth_error count c = Some (size gid (Z.of_nat c))) ->
  group_points R p (Z.of_nat (length gid)) (Z.of_nat dim) gid count
  = Ok (grouped p gid dim, map (start gid) (seq 0 dim)).
Proof.
  intros R p gid count dim HL Hdim Hr Hc. unfold group_points.
  rewrite (initial_offsets_ok gid dim count Hc Hdim). cbn [bind].
  destruct (final_locations_ok gid dim Hr Hdim) as (o & E & Lo & Ho). rewrite E. cbn [bind].
  destruct (rearrange_ok R (length gid) p (dests gid)) as (p' & E' & Lp & Pm).
  { split; [assumption|]. apply (dests_perm gid dim Hr). }
  rewrite E'. cbn [bind].
  rewrite (correct_offsets_ok gid dim count Hc Hdim o Lo Ho). cbn [bind]. f_equal. f_equal.
  assert (GL : length (grouped p gid dim) = length gid).
  { pose proof (grouped_length R p gid dim HL) as G. rewrite (start_dim gid dim Hr) in G. blia. }
  apply list_ext; [blia|]. intros k Hk. rewrite Lp in Hk.
  destruct (dests_onto gid dim Hr k Hk) as (i & Hi & Di).
  destruct (nth_error_lt _ p i ltac:(blia)) as [r Hri]. destruct (nth_error_lt _ gid i Hi) as [c Hci].
  assert (G : nth_error (grouped p gid dim) k = Some r).
  { rewrite <- (Nat2Z.id k), <- Di. unfold dest. rewrite Hci. apply grouped_nth; try assumption.
    apply (gid_range gid dim Hr i c Hci). }
  rewrite G.
  assert (I : In (r, Z.of_nat k) (combine p' (zseq 0 (length gid)))).
  { apply (Permutation_in _ (Permutation_sym Pm)). apply nth_error_In with i.
    apply nth_error_combine; [assumption|]. rewrite <- Di. apply dests_nth. assumption. }
  apply In_nth_error in I. destruct I as [k' Hk'].
  assert (B : (k' < length gid)%nat).
  { apply nth_error_bound in Hk'. rewrite combine_length, zseq_len in Hk'. blia. }
  destruct (nth_error_lt _ p' k' ltac:(blia)) as [r' Hr'].
  rewrite (nth_error_combine _ _ _ _ _ _ _ Hr' (zseq_nth_error 0 _ k' B)) in Hk'.
  injection Hk' as -> Ek. assert (k' = k) by blia. subst k'. assumption.
Qed.

Lemma size_count_occ : forall gid c, size gid c = Z.of_nat (count_occ Z.eq_dec gid c).
Proof.
  intros gid c. unfold size, cnt. rewrite firstn_all. f_equal. induction gid as [|g gid IH]; [reflexivity|].
  cbn. destruct (Z.eq_dec g c) as [->|X].
  - rewrite Z.eqb_refl. cbn. congruence.
  - destruct (Z.eqb_spec g c); [contradiction|assumption].
Qed.

Lemma grouped_perm_gen : forall R (p : list R) gid d, length p = length gid ->
  Permutation (grouped p gid d) (map fst (filter (fun rg => (0 <=? snd rg) && (snd rg <? Z.of_nat d)) (combine p gid))).
Proof.
  intros R p gid d HL. induction d as [|d IH].
  - cbn [grouped]. rewrite (proj2 (filter_none _ _ _)); [reflexivity|]. intros a _. destruct (_ && _) eqn:E; [blia|reflexivity].
  - cbn [grouped]. rewrite IH. unfold cell_records. clear IH HL. rewrite <- map_app. apply Permutation_map.
    induction (combine p gid) as [|[a g] l IH]; [reflexivity|]. cbn [filter snd].
    destruct ((0 <=? g) && (g <? Z.of_nat d)) eqn:E1; destruct (g =? Z.of_nat d) eqn:E2;
    destruct ((0 <=? g) && (g <? Z.of_nat (S d))) eqn:E3; try (exfalso; blia).
    + cbn. apply perm_skip. assumption.
    + rewrite <- Permutation_middle. apply perm_skip. assumption.
    + assumption.
Qed.

Lemma grouped_perm : forall R (p : list R) gid d, length p = length gid ->
  Forall (fun g => 0 <= g < Z.of_nat d) gid -> Permutation (grouped p gid d) p.
Proof.
  intros R p gid d HL Hr. rewrite grouped_perm_gen by assumption. rewrite filter_all.
  - clear Hr. revert gid HL. induction p as [|a p IH]; intros gid HL; destruct gid as [|g gid]; try discriminate; [reflexivity|].
    cbn. apply perm_skip. apply IH. cbn in HL. blia.
  - intros [a g] Ha. apply in_combine_r in Ha. rewrite Forall_forall in Hr. specialize (Hr g Ha). cbn [snd].
    apply andb_true_intro. split; blia.
Qed.
