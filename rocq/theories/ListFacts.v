(** Generic facts about the array and loop vocabulary of [Base]. *)
From Coq Require Import ZArith List Bool Lia Permutation Sorting.Sorted.
From Verif Require Import Base.
Import ListNotations.

(** ** Access and store *)
Lemma nth_res_ok : forall A (l : list A) i a, nth_res l i = Ok a <-> nth_error l i = Some a.
Proof.
  intros. unfold nth_res. destruct (nth_error l i); split; congruence.
Qed.

Lemma nth_resZ_ok : forall A (l : list A) i a,
  nth_resZ l i = Ok a <-> (0 <= i)%Z /\ nth_error l (Z.to_nat i) = Some a.
Proof.
  intros. unfold nth_resZ. destruct (i <? 0)%Z eqn:E.
  - split; [discriminate|lia].
  - rewrite nth_res_ok. split; [split; [lia|assumption]|tauto].
Qed.

Lemma nth_error_lt : forall A (l : list A) i, (i < length l)%nat -> exists a, nth_error l i = Some a.
Proof.
  intros A l i H. destruct (nth_error l i) eqn:E; [eauto|].
  apply nth_error_None in E. lia.
Qed.

Lemma nth_error_bound : forall A (l : list A) i a, nth_error l i = Some a -> (i < length l)%nat.
Proof. intros. apply nth_error_Some. congruence. Qed.

Lemma some_inj : forall A (a b : A), Some a = Some b -> a = b.
Proof. congruence. Qed.

(** Functional update, the meaning of a successful store. *)
Fixpoint upd {A} (l : list A) (i : nat) (v : A) : list A :=
  match l, i with
  | [], _ => []
  | _ :: l', O => v :: l'
  | a :: l', S i' => a :: upd l' i' v
  end.

Lemma upd_length : forall A (l : list A) i v, length (upd l i v) = length l.
Proof. induction l; destruct i; cbn; auto. Qed.

Lemma upd_same : forall A (l : list A) i v, (i < length l)%nat -> nth_error (upd l i v) i = Some v.
Proof. induction l; destruct i; cbn; intros; try lia; auto. apply IHl; lia. Qed.

Lemma upd_other : forall A (l : list A) i j v, i <> j -> nth_error (upd l i v) j = nth_error l j.
Proof. induction l; destruct i, j; cbn; intros; try lia; auto. Qed.

Lemma set_res_ok : forall A (l : list A) i v, (i < length l)%nat -> set_res l i v = Ok (upd l i v).
Proof.
  induction l as [|a l IH]; destruct i; cbn; intros; try lia; auto.
  rewrite IH by lia. reflexivity.
Qed.

Lemma set_res_fail : forall A (l : list A) i v, (length l <= i)%nat -> set_res l i v = Fail Oob.
Proof.
  induction l as [|a l IH]; destruct i; cbn; intros; try lia; auto.
  rewrite IH by lia. reflexivity.
Qed.

Lemma set_res_inv : forall A (l l' : list A) i v, set_res l i v = Ok l' -> (i < length l)%nat /\ l' = upd l i v.
Proof.
  intros A l l' i v H. destruct (Nat.lt_ge_cases i (length l)) as [C|C].
  - rewrite set_res_ok in H by assumption. split; congruence.
  - rewrite set_res_fail in H by assumption. discriminate.
Qed.

Lemma set_resZ_ok : forall A (l : list A) i v, (0 <= i < Z.of_nat (length l))%Z ->
  set_resZ l i v = Ok (upd l (Z.to_nat i) v).
Proof.
  intros A l i v H. unfold set_resZ. destruct (i <? 0)%Z eqn:E; [lia|]. apply set_res_ok. lia.
Qed.

Lemma list_ext : forall A (l l' : list A), length l = length l' ->
  (forall i, (i < length l)%nat -> nth_error l i = nth_error l' i) -> l = l'.
Proof.
  induction l as [|a l IH]; destruct l' as [|a' l']; cbn; intros HL H; try discriminate; auto.
  f_equal.
  - specialize (H 0%nat ltac:(lia)). cbn in H. congruence.
  - apply IH; [lia|]. intros i Hi. apply (H (S i)). lia.
Qed.

Lemma nth_error_ext : forall A (l l' : list A), (forall i, nth_error l i = nth_error l' i) -> l = l'.
Proof.
  induction l as [|a l IH]; destruct l' as [|a' l']; intros H; auto.
  - specialize (H 0%nat). discriminate.
  - specialize (H 0%nat). discriminate.
  - f_equal; [specialize (H 0%nat); cbn in H; congruence|]. apply IH. intros i. apply (H (S i)).
Qed.

(** ** Loops *)
Lemma foldM_app : forall A S (f : S -> A -> res S) l1 l2 s,
  foldM f (l1 ++ l2) s = do s' <- foldM f l1 s; foldM f l2 s'.
Proof.
  induction l1 as [|a l1 IH]; intros; cbn; [reflexivity|].
  destruct (f s a); cbn; auto.
Qed.

Lemma foldM_ind : forall A T (f : T -> A -> res T) (P : nat -> T -> Prop) (l : list A) s,
  P 0%nat s ->
  (forall j a s, nth_error l j = Some a -> P j s -> exists s', f s a = Ok s' /\ P (S j) s') ->
  exists s', foldM f l s = Ok s' /\ P (length l) s'.
Proof.
  intros A T f P l. revert P. induction l as [|a l IH]; intros P s H0 Hs; cbn.
  - eauto.
  - destruct (Hs 0%nat a s eq_refl H0) as (s1 & E & H1). rewrite E. cbn.
    apply (IH (fun n => P (S n)) s1 H1).
    intros j b s' Hj. apply (Hs (S j) b s' Hj).
Qed.

Lemma mapM_ok : forall A B (f : A -> res B) (g : A -> B) l,
  (forall a, In a l -> f a = Ok (g a)) ->
  mapM f l = Ok (map g l).
Proof.
  induction l as [|a l IH]; intros H; [reflexivity|]. cbn.
  rewrite (H a) by (left; reflexivity). cbn. rewrite IH by (intros; apply H; right; assumption). reflexivity.
Qed.

(** ** [zseq] *)
Lemma zseq_len : forall a n, length (zseq a n) = n.
Proof. intros. unfold zseq. rewrite map_length, seq_length. reflexivity. Qed.

Lemma zseq_nth_error : forall a n j, (j < n)%nat -> nth_error (zseq a n) j = Some (a + Z.of_nat j)%Z.
Proof.
  intros a n j H. unfold zseq.
  erewrite map_nth_error; [reflexivity|].
  rewrite (nth_error_nth' _ 0%nat) by (rewrite seq_length; assumption). f_equal. apply seq_nth. assumption.
Qed.

Lemma zseq_inv : forall a n j x, nth_error (zseq a n) j = Some x -> (j < n)%nat /\ x = (a + Z.of_nat j)%Z.
Proof.
  intros a n j x H. assert (Hj : (j < n)%nat) by (apply nth_error_bound in H; rewrite zseq_len in H; assumption).
  rewrite zseq_nth_error in H by assumption. split; congruence.
Qed.

Lemma zseq_in : forall a n x, In x (zseq a n) <-> (a <= x < a + Z.of_nat n)%Z.
Proof.
  intros. unfold zseq. rewrite in_map_iff. split.
  - intros (k & E & Hk). apply in_seq in Hk. lia.
  - intros H. exists (Z.to_nat (x - a)). split; [lia|]. apply in_seq. lia.
Qed.

Lemma zseq_S : forall a n, zseq a (S n) = a :: zseq (a + 1) n.
Proof.
  intros. unfold zseq. cbn [seq map]. f_equal; [lia|].
  rewrite <- seq_shift, map_map. apply map_ext. intros; lia.
Qed.

Lemma zseq_snoc : forall a n, zseq a (S n) = zseq a n ++ [(a + Z.of_nat n)%Z].
Proof.
  intros. unfold zseq. rewrite seq_S, map_app. cbn. reflexivity.
Qed.

(** ** Sums *)
Definition zsum (l : list Z) : Z := fold_right Z.add 0%Z l.

Lemma zsum_app : forall a b, zsum (a ++ b) = (zsum a + zsum b)%Z.
Proof. induction a; intros; cbn; [reflexivity|]. rewrite IHa. unfold zsum. lia. Qed.

Lemma zsum_nonneg : forall l, Forall (fun x => 0 <= x)%Z l -> (0 <= zsum l)%Z.
Proof. induction 1; cbn; [lia|]. unfold zsum in *; lia. Qed.

Lemma zsum_perm : forall a b, Permutation a b -> zsum a = zsum b.
Proof. induction 1; cbn; unfold zsum in *; cbn in *; lia. Qed.

Lemma firstn_S : forall A (l : list A) k a, nth_error l k = Some a -> firstn (S k) l = firstn k l ++ [a].
Proof.
  induction l as [|b l IH]; destruct k; cbn; intros; try discriminate; [congruence|].
  f_equal. apply IH. assumption.
Qed.

Lemma Forall_firstn : forall A (P : A -> Prop) l k, Forall P l -> Forall P (firstn k l).
Proof. intros A P l k H. revert k. induction H; destruct k; cbn; auto. Qed.

Lemma zsum_firstn_mono : forall l a b, Forall (fun x => 0 <= x)%Z l -> (a <= b)%nat ->
  (zsum (firstn a l) <= zsum (firstn b l))%Z.
Proof.
  intros l a b H Hab. revert l H. revert b Hab. induction a as [|a IH]; intros b Hab l H.
  - cbn. apply zsum_nonneg, Forall_firstn, H.
  - destruct b as [|b]; [lia|]. destruct H as [|x l Hx Hl]; [cbn; lia|].
    cbn [firstn]. cbn. specialize (IH b ltac:(lia) l Hl). unfold zsum in IH. lia.
Qed.

Lemma zsum_firstn_S : forall l k a, nth_error l k = Some a -> zsum (firstn (S k) l) = (zsum (firstn k l) + a)%Z.
Proof. intros. rewrite (firstn_S _ _ _ _ H), zsum_app. cbn. lia. Qed.

(** Boolean comparisons to propositions ([lia] misses some of them). *)
Ltac bprop :=
  repeat match goal with
  | H : context [Z.geb _ _] |- _ => rewrite Z.geb_leb in H
  | H : context [Z.gtb _ _] |- _ => rewrite Z.gtb_ltb in H
  | H : (_ <? _)%Z = true |- _ => apply Z.ltb_lt in H
  | H : (_ <? _)%Z = false |- _ => apply Z.ltb_ge in H
  | H : (_ <=? _)%Z = true |- _ => apply Z.leb_le in H
  | H : (_ <=? _)%Z = false |- _ => apply Z.leb_gt in H
  | H : (_ =? _)%Z = true |- _ => apply Z.eqb_eq in H
  | H : (_ =? _)%Z = false |- _ => apply Z.eqb_neq in H
  | H : (_ <? _)%nat = true |- _ => apply Nat.ltb_lt in H
  | H : (_ <? _)%nat = false |- _ => apply Nat.ltb_ge in H
  | H : (_ <=? _)%nat = true |- _ => apply Nat.leb_le in H
  | H : (_ <=? _)%nat = false |- _ => apply Nat.leb_gt in H
  | H : (_ =? _)%nat = true |- _ => apply Nat.eqb_eq in H
  | H : (_ =? _)%nat = false |- _ => apply Nat.eqb_neq in H
  | H : (_ && _)%bool = true |- _ => apply andb_prop in H; destruct H
  | H : (_ && _)%bool = false |- _ => apply andb_false_iff in H
  | H : (_ || _)%bool = false |- _ => apply orb_false_elim in H; destruct H
  | H : (_ || _)%bool = true |- _ => apply orb_prop in H
  | H : negb _ = true |- _ => apply negb_true_iff in H
  | H : negb _ = false |- _ => apply negb_false_iff in H
  | H : _ \/ _ |- _ => destruct H
  end.
Ltac bgoal :=
  repeat match goal with
  | |- context [Z.geb _ _] => rewrite Z.geb_leb
  | |- context [Z.gtb _ _] => rewrite Z.gtb_ltb
  | |- (_ <? _)%Z = true => apply Z.ltb_lt
  | |- (_ <? _)%Z = false => apply Z.ltb_ge
  | |- (_ <=? _)%Z = true => apply Z.leb_le
  | |- (_ <=? _)%Z = false => apply Z.leb_gt
  | |- (_ =? _)%Z = true => apply Z.eqb_eq
  | |- (_ =? _)%Z = false => apply Z.eqb_neq
  | |- (_ <? _)%nat = true => apply Nat.ltb_lt
  | |- (_ <? _)%nat = false => apply Nat.ltb_ge
  | |- (_ <=? _)%nat = true => apply Nat.leb_le
  | |- (_ <=? _)%nat = false => apply Nat.leb_gt
  | |- (_ =? _)%nat = true => apply Nat.eqb_eq
  | |- (_ =? _)%nat = false => apply Nat.eqb_neq
  end.
Ltac blia := bprop; bgoal; lia.

Lemma filter_length_le : forall A (f : A -> bool) l, (length (filter f l) <= length l)%nat.
Proof. induction l as [|a l IH]; cbn; [lia|]. destruct (f a); cbn; lia. Qed.

Lemma nth_error_firstn_lt : forall A (l : list A) k i, (i < k)%nat -> nth_error (firstn k l) i = nth_error l i.
Proof.
  induction l as [|a l IH]; intros k i H; destruct k; try lia; cbn; [destruct i; reflexivity|].
  destruct i; cbn; [reflexivity|]. apply IH. lia.
Qed.

Lemma nth_error_skipn : forall A (l : list A) k i, nth_error (skipn k l) i = nth_error l (k + i).
Proof.
  induction l as [|a l IH]; intros k i; destruct k; cbn; try reflexivity.
  - destruct i; reflexivity.
  - apply IH.
Qed.

Lemma filter_none : forall A (f : A -> bool) l, filter f l = [] <-> (forall a, In a l -> f a = false).
Proof.
  induction l as [|a l IH]; cbn; split; intros H; try tauto; try reflexivity.
  - destruct (f a) eqn:E; [discriminate|]. intros b [<-|Hb]; [assumption|]. apply IH; assumption.
  - rewrite (H a) by auto. apply IH. intros; apply H; auto.
Qed.

Lemma filter_all : forall A (f : A -> bool) l, (forall a, In a l -> f a = true) -> filter f l = l.
Proof.
  induction l as [|a l IH]; cbn; intros H; [reflexivity|]. rewrite H by auto. f_equal. apply IH. intros; apply H; auto.
Qed.

Lemma nth_error_seq : forall a n i, (i < n)%nat -> nth_error (seq a n) i = Some (a + i)%nat.
Proof.
  intros. rewrite (nth_error_nth' _ 0%nat) by (rewrite seq_length; assumption). f_equal. apply seq_nth. assumption.
Qed.

Lemma nth_error_map_seq : forall A (f : nat -> A) n i, (i < n)%nat -> nth_error (map f (seq 0 n)) i = Some (f i).
Proof. intros. erewrite map_nth_error; [reflexivity|]. apply nth_error_seq. assumption. Qed.
