(** Invariants of the tree build's tasks. *)
From Coq Require Import List Bool Arith Lia.
From Verif Require Import Base ListFacts LifeModel LifeSpec.
Import ListNotations.
Open Scope nat_scope.

(** ** Sums *)
Definition sumn (n : nat) (f : nat -> nat) : nat := list_sum (map f (seq 0 n)).

Lemma sumn_S n f : sumn (S n) f = sumn n f + f n.
Proof. unfold sumn. rewrite seq_S, map_app, list_sum_app. cbn. lia. Qed.

Lemma sumn_ext n f g : (forall i, i < n -> f i = g i) -> sumn n f = sumn n g.
Proof. intros H. unfold sumn. f_equal. apply map_ext_in. intros i Hi. apply in_seq in Hi. apply H. lia. Qed.

Lemma sumn_le n f g : (forall i, i < n -> f i <= g i) -> sumn n f <= sumn n g.
Proof. induction n as [|n IH]; intros H; [reflexivity|]. rewrite !sumn_S. pose proof (H n ltac:(lia)). specialize (IH ltac:(intros; apply H; lia)). lia. Qed.

Lemma sumn_lt n f g i : i < n -> f i < g i -> (forall j, j < n -> f j <= g j) -> sumn n f < sumn n g.
Proof.
  induction n as [|n IH]; intros Hi Hf H; [lia|]. rewrite !sumn_S. pose proof (H n ltac:(lia)) as Hn. destruct (Nat.eq_dec i n) as [->|Hne].
  - pose proof (sumn_le n f g ltac:(intros; apply H; lia)). lia.
  - specialize (IH ltac:(lia) Hf ltac:(intros; apply H; lia)). lia.
Qed.

Lemma sumn_add n f g i d : i < n -> g i = f i + d -> (forall j, j < n -> j <> i -> g j = f j) -> sumn n g = sumn n f + d.
Proof.
  induction n as [|n IH]; intros Hi Hg H; [lia|]. rewrite !sumn_S. destruct (Nat.eq_dec i n) as [->|Hne].
  - rewrite (sumn_ext n g f); [lia|]. intros j Hj. apply H; lia.
  - rewrite (IH ltac:(lia) Hg); [|intros; apply H; lia]. rewrite (H n ltac:(lia) ltac:(lia)). lia.
Qed.

Lemma sumn_zero n f : sumn n f = 0 -> forall i, i < n -> f i = 0.
Proof. induction n as [|n IH]; intros H i Hi; [lia|]. rewrite sumn_S in H. destruct (Nat.eq_dec i n) as [->|]; [lia|]. apply IH; lia. Qed.

Lemma sumn_all_zero n f : (forall i, i < n -> f i = 0) -> sumn n f = 0.
Proof. induction n as [|n IH]; intros H; [reflexivity|]. rewrite sumn_S, IH by (intros; apply H; lia). rewrite H; lia. Qed.

Lemma sumn_eq_le n f g : (forall i, i < n -> f i <= g i) -> sumn n g <= sumn n f -> forall i, i < n -> f i = g i.
Proof.
  intros H Hs i Hi. pose proof (H i Hi). destruct (Nat.eq_dec (f i) (g i)); [assumption|]. pose proof (sumn_lt n f g i Hi ltac:(lia) H). lia.
Qed.

Definition num (f : nat -> bool) (n : nat) : nat := length (filter f (seq 0 n)).
Lemma num_sumn f n : num f n = sumn n (fun k => if f k then 1 else 0).
Proof.
  unfold num. induction n as [|n IH]; [reflexivity|]. rewrite seq_S, filter_app, app_length, IH, sumn_S. cbn. destruct (f n); cbn; lia.
Qed.

Section Life.
Variable c : config.
Hypothesis P : proper c.
Let n := ranks c.
Let N := ncells c.

Lemma home_lt k : k < N -> home c k < n.
Proof.
  intros H. destruct P as (_ & R & _). unfold home, slot. apply R. unfold N, ncells in H. destruct (Nat.ltb_spec k (dim3 c)); lia.
Qed.

Lemma batch_cnt r k : k < N -> batch c r k = cnt c r k.
Proof.
  intros H. unfold batch. destruct (same c) eqn:Es; [|reflexivity]. destruct (Nat.leb_spec (dim3 c) k) as [Hk|Hk]; [|reflexivity]. cbn [andb].
  destruct P as (_ & _ & S). unfold slot. destruct (Nat.ltb_spec k (dim3 c)); [lia|]. unfold N, ncells in H.
  rewrite <- (S Es r (k - dim3 c)) by lia. f_equal. lia.
Qed.

Definition contrib (s : state) (k r : nat) : nat :=
  if r =? home c k then (if inited (at_ s r) then cnt c r k else 0)
  else match mails s r (home c k) with MDone => cnt c r k | _ => 0 end.

Definition signalled (s : state) (r k : nat) : bool :=
  (total c k =? 0) ||
  (if home c k =? r then match cells s k with CSent => true | _ => false end
   else match newsof s k r with NNoted | NDeleted => true | _ => false end).

Record inv (s : state) : Prop := {
  v_mail : forall r r', r < n -> r' < n -> r <> r' -> (mails s r r' = MNone <-> attached (at_ s r) = false);
  v_mail_out : forall r r', mails s r r' <> MNone -> r < n /\ r' < n /\ r <> r';
  v_arr : forall k, k < N -> arrived s k = sumn n (contrib s k);
  v_cell : forall k, cells s k <> CWait -> k < N /\ 0 < total c k /\ total c k <= arrived s k;
  v_news : forall k r, newsof s k r <> NNone -> r < n /\ r <> home c k /\ cells s k = CSent;
  v_news2 : forall k r, cells s k = CSent -> r < n -> r <> home c k -> newsof s k r <> NNone;
  v_sent : forall k, cells s k = CSent -> attached (at_ s (home c k)) = true;
  v_noted : forall k r, newsof s k r = NNoted \/ newsof s k r = NDeleted -> attached (at_ s r) = true;
  v_left : forall r, r < n -> attached (at_ s r) = true -> left s r = num (fun k => negb (signalled s r k)) N;
  v_done : forall r, at_ s r = Done -> left s r = 0;
  v_gone : forall r k, gone s r k = true <-> newsof s k r = NDeleted \/ (destroyed s = true /\ home c k = r /\ k < N);
  v_rank : forall r, n <= r -> at_ s r = Begin;
  v_destr : destroyed s = true -> forall r, r < n -> at_ s r = Done }.

Lemma inv_start : inv (start c).
Proof.
  constructor; cbn; try congruence; try discriminate.
  - intros; split; auto.
  - intros k Hk. symmetry. apply sumn_all_zero. intros r Hr. unfold contrib. cbn. destruct (r =? home c k); reflexivity.
  - intros k r [?|?]; discriminate.
  - intros r k. split; [discriminate|]. intros [?|[? _]]; discriminate.
Qed.

Lemma total_sumn k : total c k = sumn n (fun r => cnt c r k).
Proof. reflexivity. Qed.

Lemma contrib_le s k r : contrib s k r <= cnt c r k.
Proof. unfold contrib. destruct (r =? home c k); [destruct (inited _); lia|destruct (mails s r (home c k)); lia]. Qed.

Lemma arrived_le s k : inv s -> k < N -> arrived s k <= total c k.
Proof. intros I Hk. rewrite (v_arr s I k Hk), total_sumn. apply sumn_le. intros. apply contrib_le. Qed.

(** A rank that is done knows that every non-empty cell was sent. *)
Lemma done_signalled s r : inv s -> r < n -> at_ s r = Done -> forall k, k < N -> signalled s r k = true.
Proof.
  intros I Hr Hd k Hk. pose proof (v_left s I r Hr) as L. rewrite Hd in L. specialize (L eq_refl). rewrite (v_done s I r Hd), num_sumn in L. symmetry in L.
  pose proof (sumn_zero _ _ L k Hk) as Z. cbn in Z. destruct (signalled s r k); [reflexivity|discriminate].
Qed.

Lemma signalled_sent s r k : inv s -> signalled s r k = true -> total c k <> 0 -> cells s k = CSent.
Proof.
  intros I H Ht. unfold signalled in H. destruct (Nat.eqb_spec (total c k) 0); [contradiction|]. cbn [orb] in H.
  destruct (home c k =? r).
  - destruct (cells s k); congruence.
  - destruct (newsof s k r) eqn:E; try discriminate; apply (v_news s I k r); rewrite E; discriminate.
Qed.

Lemma done_sent s r : inv s -> r < n -> at_ s r = Done -> forall k, k < N -> total c k <> 0 -> cells s k = CSent.
Proof. intros I Hr Hd k Hk Ht. apply (signalled_sent s r k I); [|assumption]. apply done_signalled; assumption. Qed.

(** A sent cell has the points of all ranks. *)
Lemma full_contrib s k : inv s -> cells s k <> CWait -> forall r, r < n -> contrib s k r = cnt c r k.
Proof.
  intros I H. destruct (v_cell s I k H) as (Hk & _ & Ha). rewrite (v_arr s I k Hk), total_sumn in Ha. apply sumn_eq_le; [|assumption]. intros. apply contrib_le.
Qed.

Lemma has_points_cell r r' : has_points_for c r r' -> exists k, k < N /\ home c k = r' /\ 0 < cnt c r k.
Proof.
  intros (i & Hi & Hm & [H|H]).
  - exists i. unfold N, ncells, home, slot. destruct (Nat.ltb_spec i (dim3 c)); [|lia]. repeat split; [lia|assumption|assumption].
  - exists (dim3 c + i). unfold N, ncells, home, slot. destruct (Nat.ltb_spec (dim3 c + i) (dim3 c)); [lia|]. replace (dim3 c + i - dim3 c) with i by lia. repeat split; [lia|assumption|assumption].
Qed.

Lemma cell_has_points r k : k < N -> 0 < cnt c r k -> has_points_for c r (home c k).
Proof.
  intros Hk H. unfold N, ncells in Hk. exists (slot c k). unfold home. unfold slot. destruct (Nat.ltb_spec k (dim3 c)).
  - repeat split; auto.
  - split; [lia|]. split; [reflexivity|]. right. replace (dim3 c + (k - dim3 c)) with k by lia. assumption.
Qed.

Lemma cnt_total r k : r < n -> 0 < cnt c r k -> total c k <> 0.
Proof. intros Hr H E. rewrite total_sumn in E. pose proof (sumn_zero _ _ E r Hr). cbn in *. lia. Qed.

(** If some rank is done, every batch with points has been merged. *)
Lemma done_mail s q r r' : inv s -> q < n -> at_ s q = Done -> r < n -> r <> r' -> has_points_for c r r' -> mails s r r' = MDone.
Proof.
  intros I Hq Hd Hr Hne HP. destruct (has_points_cell r r' HP) as (k & Hk & Hh & Hc).
  assert (S : cells s k = CSent) by (apply (done_sent s q I Hq Hd k Hk), (cnt_total r); assumption).
  pose proof (full_contrib s k I ltac:(congruence) r Hr) as F. unfold contrib in F. rewrite Hh in F.
  destruct (Nat.eqb_spec r r'); [contradiction|]. destruct (mails s r r'); try reflexivity; lia.
Qed.

(** ** Every step keeps the invariant; only two kinds of step can fail. *)
Definition late (e : event) (s : state) : Prop :=
  match e with
  | SendPoints r r' => r < n /\ r' < n /\ r <> r' /\ ~ has_points_for c r r' /\ at_ s r = Done
  | RecvPoints r r' => r < n /\ r' < n /\ r <> r' /\ ~ has_points_for c r r' /\ destroyed s = true
  | _ => False
  end.

Lemma set1_eq {A} (f : nat -> A) i v : set1 f i v i = v.
Proof. unfold set1. now rewrite Nat.eqb_refl. Qed.
Lemma set1_ne {A} (f : nat -> A) i v j : j <> i -> set1 f i v j = f j.
Proof. unfold set1. intros. destruct (Nat.eqb_spec j i); [contradiction|reflexivity]. Qed.
Lemma set2_eq {A} (f : nat -> nat -> A) i j v : set2 f i j v i j = v.
Proof. unfold set2. now rewrite !Nat.eqb_refl. Qed.
Lemma set2_ne {A} (f : nat -> nat -> A) i j v a b : a <> i \/ b <> j -> set2 f i j v a b = f a b.
Proof. unfold set2. intros H. destruct (Nat.eqb_spec a i), (Nat.eqb_spec b j); cbn; try reflexivity. lia. Qed.

(** A move of the program counter. *)
Lemma pc_facts s r p : attached p = attached (at_ s r) -> forall q, attached (set1 (at_ s) r p q) = attached (at_ s q).
Proof. intros H q. unfold set1. destruct (Nat.eqb_spec q r); subst; auto. Qed.

Lemma num_ext f g m : (forall k, k < m -> f k = g k) -> num f m = num g m.
Proof. intros H. rewrite !num_sumn. apply sumn_ext. intros i Hi. now rewrite H. Qed.

Lemma num_dec f g m k : k < m -> f k = true -> g k = false -> (forall j, j < m -> j <> k -> f j = g j) -> num f m = S (num g m).
Proof.
  intros Hk Hf Hg H. rewrite !num_sumn. rewrite (sumn_add m (fun j => if g j then 1 else 0) (fun j => if f j then 1 else 0) k 1); [lia|assumption| |].
  - rewrite Hf, Hg. reflexivity.
  - intros j Hj Hne. now rewrite H.
Qed.

Lemma forallb_ranks f : all_ranks c f = true <-> forall r, r < n -> f r = true.
Proof.
  unfold all_ranks. rewrite forallb_forall. split; intros H r Hr.
  - apply H, in_seq. unfold n in Hr. lia.
  - apply in_seq in Hr. apply H. unfold n. lia.
Qed.

Lemma signalled_ext s s' r k :
  cells s' k = cells s k -> newsof s' k r = newsof s k r -> signalled s' r k = signalled s r k.
Proof. intros E1 E2. unfold signalled. now rewrite E1, E2. Qed.

Lemma contrib_ext s s' k r :
  inited (at_ s' r) = inited (at_ s r) -> mails s' r (home c k) = mails s r (home c k) -> contrib s' k r = contrib s k r.
Proof. intros E1 E2. unfold contrib. now rewrite E1, E2. Qed.

Definition keeps (e : event) : Prop := forall s s', inv s -> step c e s = Some (Ok s') -> inv s'.

Lemma keeps_Count r : keeps (Count r).
Proof.
  intros s s' I H. unfold step in H. destruct (at_ s r) eqn:Ea; try discriminate. destruct (Nat.ltb_spec r (ranks c)) as [Hr|]; [|discriminate]. cbn [negb bind] in H. injection H as <-.
  assert (A : forall q, attached (set1 (at_ s) r Counted q) = attached (at_ s q)) by (intros q; apply pc_facts; now rewrite Ea).
  assert (D : forall q, set1 (at_ s) r Counted q = Done <-> at_ s q = Done) by (intros q; unfold set1; destruct (Nat.eqb_spec q r); subst; [rewrite Ea; split; discriminate|reflexivity]).
  destruct I. constructor; cbn [at_ mails arrived cells newsof left gone destroyed]; auto.
  - intros. rewrite A. auto.
  - intros k Hk. rewrite v_arr0 by assumption. apply sumn_ext. intros q Hq. symmetry. apply contrib_ext; [|reflexivity]. cbn. unfold set1. destruct (Nat.eqb_spec q r); subst; [now rewrite Ea|reflexivity].
  - intros k Hs. rewrite A. auto.
  - intros k q Hs. rewrite A. eauto.
  - intros q Hq Ha. rewrite A in Ha. rewrite (v_left0 q Hq Ha). reflexivity.
  - intros q Hq. apply D in Hq. auto.
  - intros q Hq. unfold set1. destruct (Nat.eqb_spec q r); [subst; unfold n in Hq; lia|auto].
  - intros Hd q Hq. apply D. auto.
Qed.

Lemma keeps_Init r : keeps (Init r).
Proof.
  intros s s' I H. unfold step in H. destruct (at_ s r) eqn:Ea; try discriminate. destruct (Nat.ltb_spec r (ranks c)) as [Hr|]; [|discriminate]. cbn [negb orb] in H. destruct (all_ranks c _); [|discriminate]. cbn [negb bind] in H. injection H as <-.
  assert (A : forall q, attached (set1 (at_ s) r Inited q) = attached (at_ s q)) by (intros q; apply pc_facts; now rewrite Ea).
  assert (D : forall q, set1 (at_ s) r Inited q = Done <-> at_ s q = Done) by (intros q; unfold set1; destruct (Nat.eqb_spec q r); subst; [rewrite Ea; split; discriminate|reflexivity]).
  destruct I. constructor; cbn [at_ mails arrived cells newsof left gone destroyed]; auto.
  - intros. rewrite A. auto.
  - intros k Hk. change (ncells c) with N. destruct (Nat.ltb_spec k N); [|lia]. rewrite andb_true_r. destruct (Nat.eqb_spec (home c k) r) as [Hh|Hh].
    + rewrite v_arr0 by assumption. symmetry. apply (sumn_add _ _ _ r); [assumption| |].
      * unfold contrib. cbn. rewrite Hh, Nat.eqb_refl, set1_eq, Ea. reflexivity.
      * intros q Hq Hne. apply contrib_ext; [|reflexivity]. cbn. now rewrite set1_ne.
    + rewrite v_arr0 by assumption. apply sumn_ext. intros q Hq. unfold contrib. cbn. destruct (Nat.eqb_spec q (home c k)); [|reflexivity]. rewrite set1_ne; [reflexivity|congruence].
  - intros k Hc. destruct (v_cell0 k Hc) as (X & Y & Z). repeat split; [assumption|assumption|]. destruct (_ && _); lia.
  - intros k Hs. rewrite A. auto.
  - intros k q Hs. rewrite A. eauto.
  - intros q Hq Ha. rewrite A in Ha. rewrite (v_left0 q Hq Ha). reflexivity.
  - intros q Hq. apply D in Hq. auto.
  - intros q Hq. unfold set1. destruct (Nat.eqb_spec q r); [subst; unfold n in Hq; lia|auto].
  - intros Hd q Hq. apply D. auto.
Qed.

Lemma keeps_Spawn r : keeps (Spawn r).
Proof.
  intros s s' I H. unfold step in H. destruct (at_ s r) eqn:Ea; try discriminate. destruct (Nat.ltb_spec r (ranks c)) as [Hr|]; [|discriminate]. cbn [negb bind] in H. injection H as <-.
  assert (NA : attached (at_ s r) = false) by now rewrite Ea.
  assert (D : forall q, set1 (at_ s) r Waiting q = Done <-> at_ s q = Done) by (intros q; unfold set1; destruct (Nat.eqb_spec q r); subst; [rewrite Ea; split; discriminate|reflexivity]).
  assert (Up : forall q, attached (at_ s q) = true -> attached (set1 (at_ s) r Waiting q) = true) by (intros q Hq; unfold set1; destruct (Nat.eqb_spec q r); [reflexivity|assumption]).
  destruct I. constructor; cbn [at_ mails arrived cells newsof left gone destroyed]; auto.
  - intros a b Ha Hb Hne. unfold set1. destruct (Nat.eqb_spec a r); subst.
    + destruct (Nat.eqb_spec b r); [subst; lia|]. destruct (Nat.ltb_spec b (ranks c)); [|unfold n in Hb; lia]. cbn. split; discriminate.
    + cbn. auto.
  - intros a b. destruct (Nat.eqb_spec a r); subst; [|cbn; auto]. destruct (Nat.eqb_spec b r); [subst; cbn; auto|]. destruct (Nat.ltb_spec b (ranks c)); [|cbn; auto]. cbn. intros _. unfold n. repeat split; auto.
  - intros k Hk. rewrite v_arr0 by assumption. apply sumn_ext. intros q Hq. unfold contrib. cbn. unfold set1. destruct (Nat.eqb_spec q (home c k)).
    + destruct (Nat.eqb_spec q r) as [Eq|]; [rewrite Eq, Ea; reflexivity|reflexivity].
    + destruct (Nat.eqb_spec q r); [|reflexivity]. subst q. cbn [andb]. pose proof (home_lt k Hk) as Hh. assert (E : mails s r (home c k) = MNone) by (apply v_mail0; auto).
      rewrite E. destruct (negb _ && _); reflexivity.
  - eauto.
  - intros q Hq Ha. unfold set1 in *. destruct (Nat.eqb_spec q r); subst.
    + apply num_ext. intros k Hk. unfold signalled. cbn. destruct (total c k =? 0); [reflexivity|]. cbn [orb negb]. destruct (Nat.eqb_spec (home c k) r) as [Hh|Hh].
      * destruct (cells s k) eqn:Ec; try reflexivity. apply v_sent0 in Ec. rewrite Hh in Ec. congruence.
      * destruct (newsof s k r) eqn:Ec; try reflexivity; rewrite (v_noted0 k r) in NA by auto; discriminate.
    + rewrite (v_left0 q Hq Ha). reflexivity.
  - intros q Hq. apply D in Hq. rewrite set1_ne by congruence. auto.
  - intros q Hq. unfold set1. destruct (Nat.eqb_spec q r); [subst; unfold n in Hq; lia|auto].
  - intros Hd q Hq. apply D. auto.
Qed.

Lemma keeps_SendPoints r r' : keeps (SendPoints r r').
Proof.
  intros s s' I H. unfold step in H. destruct (mails s r r') eqn:Em; try discriminate. destruct (_ || _) eqn:Eb; [discriminate|]. injection H as <-.
  destruct I. constructor; cbn [at_ mails arrived cells newsof left gone destroyed]; auto.
  - intros a b Ha Hb Hne. unfold set2. destruct (Nat.eqb_spec a r), (Nat.eqb_spec b r'); subst; cbn; auto. rewrite <- (v_mail0 r r') by assumption. rewrite Em. split; discriminate.
  - intros a b. unfold set2. destruct (Nat.eqb_spec a r), (Nat.eqb_spec b r'); subst; cbn; auto. intros _. apply v_mail_out0. congruence.
  - intros k Hk. rewrite v_arr0 by assumption. apply sumn_ext. intros q Hq. unfold contrib. cbn. destruct (q =? home c k); [reflexivity|]. unfold set2.
    destruct (Nat.eqb_spec q r), (Nat.eqb_spec (home c k) r'); subst; cbn; try reflexivity. now rewrite Em.
Qed.

Lemma keeps_RecvPoints r r' : keeps (RecvPoints r r').
Proof.
  intros s s' I H. unfold step in H. destruct (mails s r r') eqn:Em; try discriminate. destruct (destroyed s) eqn:Ed; [discriminate|]. destruct (inited (at_ s r')); [|discriminate]. cbn [negb] in H. injection H as <-.
  pose proof (v_mail_out s I r r' ltac:(congruence)) as (Hr & Hr' & Hne0).
  destruct I. constructor; cbn [at_ mails arrived cells newsof left gone destroyed]; auto.
  - intros a b Ha Hb Hne. unfold set2. destruct (Nat.eqb_spec a r), (Nat.eqb_spec b r'); subst; cbn; auto. rewrite <- (v_mail0 r r') by assumption. rewrite Em. split; discriminate.
  - intros a b. unfold set2. destruct (Nat.eqb_spec a r), (Nat.eqb_spec b r'); subst; cbn; auto.
  - intros k Hk. change (ncells c) with N. destruct (Nat.ltb_spec k N); [|lia]. rewrite andb_true_r. destruct (Nat.eqb_spec (home c k) r') as [Hh|Hh].
    + rewrite v_arr0, batch_cnt by assumption. symmetry. apply (sumn_add _ _ _ r); [assumption| |].
      * unfold contrib. cbn. rewrite Hh. destruct (Nat.eqb_spec r r'); [contradiction|]. rewrite set2_eq, Em. reflexivity.
      * intros q Hq Hne. apply contrib_ext; [reflexivity|]. cbn. now rewrite set2_ne by auto.
    + rewrite v_arr0 by assumption. apply sumn_ext. intros q Hq. apply contrib_ext; [reflexivity|]. cbn. now rewrite set2_ne by auto.
  - intros k Hc. destruct (v_cell0 k Hc) as (X & Y & Z). repeat split; [assumption|assumption|]. destruct (_ && _); lia.
  - intros q j. rewrite v_gone0, Ed. reflexivity.
  - discriminate.
Qed.

Lemma keeps_Complete k : keeps (Complete k).
Proof.
  intros s s' I H. unfold step in H. destruct (cells s k) eqn:Ec; try discriminate.
  destruct (Nat.ltb_spec k (ncells c)) as [Hk|]; [|discriminate]. cbn [negb orb] in H. destruct (Nat.eqb_spec (arrived s k) 0) as [|Ha]; [discriminate|]. cbn [orb] in H. destruct (Nat.ltb_spec (arrived s k) (total c k)) as [|Ht]; [discriminate|].
  destruct (_ && _); [discriminate|]. destruct (destroyed s) eqn:Ed; [discriminate|]. injection H as <-.
  pose proof (arrived_le s k I Hk) as Hle.
  destruct I. constructor; cbn [at_ mails arrived cells newsof left gone destroyed]; auto.
  - intros j. unfold set1. destruct (Nat.eqb_spec j k); subst; [|auto]. intros _. unfold N. repeat split; lia.
  - intros j r Hn. destruct (v_news0 j r Hn) as (X & Y & Z). rewrite set1_ne by congruence. auto.
  - intros j r. unfold set1. destruct (Nat.eqb_spec j k); subst; [discriminate|auto].
  - intros j. unfold set1. destruct (Nat.eqb_spec j k); subst; [discriminate|auto].
  - intros r Hr Hat. rewrite (v_left0 r Hr Hat). apply num_ext. intros j Hj. f_equal. unfold signalled. cbn. unfold set1. destruct (Nat.eqb_spec j k); subst; [|reflexivity]. now rewrite Ec.
  - intros q j. rewrite v_gone0, Ed. reflexivity.
  - discriminate.
Qed.

Lemma signal_ok r s l : signal r s = Ok l -> at_ s r = Waiting /\ 0 < left s r /\ l = set1 (left s) r (left s r - 1).
Proof.
  unfold signal. destruct (at_ s r); try discriminate. destruct (left s r) as [|m] eqn:E; [discriminate|]. intros H. injection H as <-. repeat split; [lia|]. f_equal. lia.
Qed.

Lemma keeps_SendNode k : keeps (SendNode k).
Proof.
  intros s s' I H. unfold step in H. destruct (cells s k) eqn:Ec; try discriminate.
  destruct (attached (at_ s (home c k))) eqn:Eat; [|discriminate]. cbn [negb orb] in H. destruct (Nat.eqb_spec (total c k) 0) as [|Ht]; [discriminate|]. destruct (destroyed s) eqn:Ed; [discriminate|].
  destruct (signal (home c k) s) as [l|] eqn:Es; [|discriminate]. cbn [negb bind] in H. injection H as <-. apply signal_ok in Es as (Ew & Hl & ->).
  destruct (v_cell s I k ltac:(congruence)) as (Hk & _ & _).
  assert (NN : forall r, newsof s k r = NNone). { intros r. destruct (newsof s k r) eqn:E; try reflexivity; destruct (v_news s I k r) as (_ & _ & X); congruence. }
  destruct I. constructor; cbn [at_ mails arrived cells newsof left gone destroyed]; auto.
  - intros j. unfold set1. destruct (Nat.eqb_spec j k); subst; [|auto]. intros _. apply v_cell0. congruence.
  - intros j r. unfold set1. destruct (Nat.eqb_spec j k); subst; [|cbn; auto]. destruct (Nat.eqb_spec r (home c k)); cbn [negb andb]; [subst; rewrite NN; congruence|]. destruct (Nat.ltb_spec r (ranks c)); [|rewrite NN; congruence]. auto.
  - intros j r. unfold set1. destruct (Nat.eqb_spec j k); subst; [|cbn; auto]. intros _ Hr Hne. destruct (Nat.eqb_spec r (home c k)); [contradiction|]. destruct (Nat.ltb_spec r (ranks c)); [|unfold n in Hr; lia]. cbn. discriminate.
  - intros j. unfold set1. destruct (Nat.eqb_spec j k); subst; [|auto]. intros _. rewrite Ew. reflexivity.
  - intros j r. destruct ((j =? k) && negb (r =? home c k) && (r <? ranks c)); [intros [?|?]; discriminate|eauto].
  - intros r Hr Hat. unfold set1 at 1. destruct (Nat.eqb_spec r (home c k)) as [->|Hne].
    + pose proof (v_left0 _ Hr Hat) as L. match goal with |- _ = num ?g N => assert (X : num (fun j => negb (signalled s (home c k) j)) N = S (num g N)); [apply (num_dec _ _ _ k); [assumption| | |]|lia] end.
      * unfold signalled. rewrite Nat.eqb_refl, Ec. destruct (Nat.eqb_spec (total c k) 0); [contradiction|reflexivity].
      * unfold signalled. cbn. rewrite Nat.eqb_refl, set1_eq, orb_true_r. reflexivity.
      * intros j Hj Hn. f_equal. unfold signalled. cbn. rewrite set1_ne by assumption. destruct (Nat.eqb_spec j k); [contradiction|]. reflexivity.
    + rewrite (v_left0 _ Hr Hat). apply num_ext. intros j Hj. f_equal. unfold signalled. cbn [cells newsof]. unfold set1. destruct (Nat.eqb_spec j k); subst; [|reflexivity].
      destruct (Nat.eqb_spec (home c k) r); [congruence|]. destruct (Nat.eqb_spec r (home c k)); [congruence|]. rewrite NN. cbn [negb andb]. destruct (r <? ranks c); reflexivity.
  - intros r Hr. rewrite set1_ne by congruence. auto.
  - intros r j. rewrite v_gone0, Ed. destruct (Nat.eqb_spec j k); subst; [|reflexivity]. cbn [andb]. rewrite NN. destruct (negb _ && _); [|reflexivity]. split; (intros [?|[? _]]; discriminate).
  - discriminate.
Qed.

Lemma keeps_RecvNode k r : keeps (RecvNode k r).
Proof.
  intros s s' I H. unfold step in H. destruct (newsof s k r) eqn:En; try discriminate. destruct (_ || _) eqn:Eb; [discriminate|]. injection H as <-.
  pose proof (v_news s I k r ltac:(congruence)) as (Hr & Hh & Hc).
  destruct I. constructor; cbn [at_ mails arrived cells newsof left gone destroyed]; auto.
  - intros j q. unfold set2. destruct (Nat.eqb_spec j k), (Nat.eqb_spec q r); subst; cbn; auto.
  - intros j q. unfold set2. destruct (Nat.eqb_spec j k), (Nat.eqb_spec q r); subst; cbn; auto. discriminate.
  - intros j q. unfold set2. destruct (Nat.eqb_spec j k), (Nat.eqb_spec q r); subst; cbn; eauto. intros [?|?]; discriminate.
  - intros q Hq Hat. rewrite (v_left0 q Hq Hat). apply num_ext. intros j Hj. f_equal. unfold signalled. cbn. unfold set2. destruct (Nat.eqb_spec j k), (Nat.eqb_spec q r); subst; cbn; try reflexivity. now rewrite En.
  - intros q j. rewrite v_gone0. unfold set2. destruct (Nat.eqb_spec j k), (Nat.eqb_spec q r); subst; cbn; try reflexivity. rewrite En. intuition discriminate.
Qed.

Lemma keeps_Note k r : keeps (Note k r).
Proof.
  intros s s' I H. unfold step in H. destruct (newsof s k r) eqn:En; try discriminate. destruct (attached (at_ s r)) eqn:Eat; [|discriminate]. cbn [negb orb] in H. destruct (Nat.eqb_spec (total c k) 0) as [|Ht]; [discriminate|].
  destruct (signal r s) as [l|] eqn:Es; [|discriminate]. cbn [negb bind] in H. injection H as <-. apply signal_ok in Es as (Ew & Hl & ->).
  pose proof (v_news s I k r ltac:(congruence)) as (Hr & Hh & Hc). destruct (v_cell s I k ltac:(congruence)) as (Hk & _ & _).
  assert (ND : destroyed s = false). { destruct (destroyed s) eqn:E; [|reflexivity]. rewrite (v_destr s I E r Hr) in Ew. discriminate. }
  destruct I. constructor; cbn [at_ mails arrived cells newsof left gone destroyed]; auto.
  - intros j q. unfold set2. destruct (Nat.eqb_spec j k), (Nat.eqb_spec q r); subst; cbn; auto.
  - intros j q. unfold set2. destruct (Nat.eqb_spec j k), (Nat.eqb_spec q r); subst; cbn; auto. discriminate.
  - intros j q. unfold set2. destruct (Nat.eqb_spec j k), (Nat.eqb_spec q r); subst; cbn; eauto.
  - intros q Hq Hat. unfold set1. destruct (Nat.eqb_spec q r) as [->|Hne].
    + pose proof (v_left0 _ Hq Hat) as L. match goal with |- _ = num ?g N => assert (X : num (fun j => negb (signalled s r j)) N = S (num g N)); [apply (num_dec _ _ _ k); [assumption| | |]|lia] end.
      * unfold signalled. rewrite En. destruct (Nat.eqb_spec (total c k) 0); [contradiction|]. destruct (Nat.eqb_spec (home c k) r); [congruence|]. reflexivity.
      * unfold signalled. cbn. rewrite set2_eq. destruct (Nat.eqb_spec (home c k) r); [congruence|]. rewrite orb_true_r. reflexivity.
      * intros j Hj Hn. f_equal. unfold signalled. cbn. rewrite set2_ne by auto. reflexivity.
    + rewrite (v_left0 q Hq Hat). apply num_ext. intros j Hj. f_equal. unfold signalled. cbn. rewrite set2_ne by auto. reflexivity.
  - intros q Hq. rewrite set1_ne by congruence. auto.
  - intros q j. rewrite v_gone0. unfold set2. destruct (Nat.eqb_spec j k), (Nat.eqb_spec q r); subst; cbn; try reflexivity. rewrite En. intuition discriminate.
Qed.

Lemma keeps_DeleteGate k r : keeps (DeleteGate k r).
Proof.
  intros s s' I H. unfold step in H. destruct (newsof s k r) eqn:En; try discriminate. destruct (gone s r k) eqn:Eg; [discriminate|]. injection H as <-.
  pose proof (v_news s I k r ltac:(congruence)) as (Hr & Hh & Hc).
  destruct I. constructor; cbn [at_ mails arrived cells newsof left gone destroyed]; auto.
  - intros j q. unfold set2. destruct (Nat.eqb_spec j k), (Nat.eqb_spec q r); subst; cbn; auto.
  - intros j q. unfold set2. destruct (Nat.eqb_spec j k), (Nat.eqb_spec q r); subst; cbn; auto. discriminate.
  - intros j q. unfold set2. destruct (Nat.eqb_spec j k), (Nat.eqb_spec q r); subst; cbn; eauto.
  - intros q Hq Hat. rewrite (v_left0 q Hq Hat). apply num_ext. intros j Hj. f_equal. unfold signalled. cbn. unfold set2. destruct (Nat.eqb_spec j k), (Nat.eqb_spec q r); subst; cbn; try reflexivity. now rewrite En.
  - intros q j. unfold set2. destruct (Nat.eqb_spec j k), (Nat.eqb_spec q r); subst; cbn; try apply v_gone0. intuition.
Qed.

Lemma keeps_Free r : keeps (Free r).
Proof.
  intros s s' I H. unfold step in H. destruct (at_ s r) eqn:Ea; try discriminate. destruct (left s r) eqn:El; [|discriminate]. injection H as <-.
  assert (A : forall q, attached (set1 (at_ s) r Done q) = attached (at_ s q)) by (intros q; apply pc_facts; now rewrite Ea).
  destruct I. constructor; cbn [at_ mails arrived cells newsof left gone destroyed]; auto.
  - intros. rewrite A. auto.
  - intros k Hk. rewrite v_arr0 by assumption. apply sumn_ext. intros q Hq. symmetry. apply contrib_ext; [|reflexivity]. cbn. unfold set1. destruct (Nat.eqb_spec q r); subst; [now rewrite Ea|reflexivity].
  - intros k Hs. rewrite A. auto.
  - intros k q Hs. rewrite A. eauto.
  - intros q Hq Hat. rewrite A in Hat. rewrite (v_left0 q Hq Hat). reflexivity.
  - intros q. unfold set1. destruct (Nat.eqb_spec q r); [subst; auto|auto].
  - intros q Hq. unfold set1. destruct (Nat.eqb_spec q r); [subst; rewrite v_rank0 in Ea by assumption; discriminate|auto].
  - intros Hd q Hq. unfold set1. destruct (Nat.eqb_spec q r); [reflexivity|auto].
Qed.

Lemma keeps_Destroy : keeps Destroy.
Proof.
  intros s s' I H. unfold step in H. destruct (destroyed s) eqn:Ed; [discriminate|]. cbn [orb] in H. destruct (all_ranks c _) eqn:Ea; [|discriminate]. cbn [negb] in H. destruct (existsb _ _) eqn:Eg; [discriminate|]. injection H as <-.
  pose proof (proj1 (forallb_ranks _) Ea) as A. clear Ea.
  destruct I. constructor; cbn [at_ mails arrived cells newsof left gone destroyed]; auto.
  - intros r k. change (ncells c) with N. destruct (Nat.eqb_spec (home c k) r) as [Hh|Hh]; cbn [andb].
    + destruct (Nat.ltb_spec k N); [intuition|]. rewrite v_gone0. intuition; try lia; discriminate.
    + rewrite v_gone0. intuition; discriminate.
  - intros _ r Hr. specialize (A r Hr). cbn in A. destruct (at_ s r); cbn in A; congruence.
Qed.

Lemma inv_step e s s' : inv s -> step c e s = Some (Ok s') -> inv s'.
Proof.
  destruct e; [apply keeps_Count|apply keeps_Init|apply keeps_Spawn|apply keeps_SendPoints|apply keeps_RecvPoints|apply keeps_Complete|apply keeps_SendNode|apply keeps_RecvNode|apply keeps_Note|apply keeps_DeleteGate|apply keeps_Free|apply keeps_Destroy].
Qed.

Lemma inv_runs m s : runs c m (start c) s -> inv s.
Proof.
  intros H. remember (start c) as s0 eqn:E. induction H; subst; [apply inv_start|]. eapply inv_step; eauto.
Qed.

(** ** What can fail *)
(** What waits for what. *)
Record ordered (s : state) : Prop := {
  o_init : forall r, r < n -> inited (at_ s r) = true -> forall q, q < n -> at_ s q <> Begin;
  o_recv : forall r r', mails s r r' = MDone -> inited (at_ s r') = true;
  o_pair : same c = true -> forall i, i < dim3 c -> cells s (dim3 c + i) <> CWait -> cells s i <> CWait }.
Lemma ordered_start : ordered (start c).
Proof. constructor; cbn; congruence. Qed.
Lemma ordered_step e s s' : ordered s -> step c e s = Some (Ok s') -> ordered s'.
Proof.
  intros [O1 O2 O3] H. destruct e; cbn [step] in H.
  - destruct (at_ s r) eqn:E; try discriminate. destruct (negb (r <? ranks c)) eqn:R; [discriminate|]. injection H as <-. constructor; cbn [at_ mails cells].
    + intros q Hq I p Hp. unfold set1 in *. destruct (Nat.eqb_spec p r); [congruence|]. destruct (Nat.eqb_spec q r); [discriminate I|]. apply (O1 q); assumption.
    + intros a b M. pose proof (O2 a b M) as X. unfold set1. destruct (Nat.eqb_spec b r) as [->|]; [rewrite E in X; discriminate X|exact X].
    + exact O3.
  - destruct (at_ s r) eqn:E; try discriminate. destruct (negb (r <? ranks c) || negb (all_ranks c (fun q => begun (at_ s q)))) eqn:R; [discriminate|]. injection H as <-. apply orb_false_iff in R. destruct R as [_ R]. apply negb_false_iff in R. pose proof (proj1 (forallb_ranks _) R) as R'. clear R. rename R' into R.
    constructor; cbn [at_ mails cells].
    + intros q Hq I p Hp. unfold set1. destruct (Nat.eqb_spec p r); [congruence|]. specialize (R p Hp). cbn beta in R. destruct (at_ s p); [discriminate R|congruence..].
    + intros a b M. unfold set1. destruct (Nat.eqb_spec b r); [reflexivity|apply (O2 a b M)].
    + exact O3.
  - destruct (at_ s r) eqn:E; try discriminate. destruct (negb (r <? ranks c)) eqn:R; [discriminate|]. injection H as <-. apply negb_false_iff, Nat.ltb_lt in R. constructor; cbn [at_ mails cells].
    + intros q Hq I p Hp. unfold set1 in *. destruct (Nat.eqb_spec p r); [congruence|]. destruct (Nat.eqb_spec q r) as [->|]; [apply (O1 r R); [rewrite E; reflexivity|assumption]|apply (O1 q); assumption].
    + intros a b. unfold set1. destruct ((a =? r) && negb (b =? r) && (b <? ranks c)); [discriminate|]. intros M. destruct (Nat.eqb_spec b r); [reflexivity|apply (O2 a b M)].
    + exact O3.
  - destruct (mails s r r') eqn:E; try discriminate. destruct (finished (at_ s r) || destroyed s); [discriminate|]. injection H as <-. constructor; cbn [at_ mails cells]; [exact O1| |exact O3].
    intros a b M. unfold set2 in M. destruct ((a =? r) && (b =? r')); [discriminate M|apply (O2 a b M)].
  - destruct (mails s r r') eqn:E; try discriminate. destruct (destroyed s); [discriminate|]. destruct (negb (inited (at_ s r'))) eqn:R; [discriminate|]. injection H as <-. apply negb_false_iff in R. constructor; cbn [at_ mails cells]; [exact O1| |exact O3].
    intros a b M. unfold set2 in M. destruct ((a =? r) && (b =? r')) eqn:X; [|apply (O2 a b M)]. apply andb_true_iff in X. destruct X as [_ X]. apply Nat.eqb_eq in X. subst b. exact R.
  - destruct (cells s k) eqn:E; try discriminate. destruct (negb (k <? ncells c) || (arrived s k =? 0) || (arrived s k <? total c k)); [discriminate|].
    destruct (same c && (dim3 c <=? k) && match cells s (slot c k) with CWait => true | _ => false end) eqn:R; [discriminate|]. destruct (destroyed s); [discriminate|]. injection H as <-. constructor; cbn [at_ mails cells]; [exact O1|exact O2|].
    intros Sm i Hi X. unfold set1 in *. destruct (Nat.eqb_spec i k); [congruence|]. destruct (Nat.eqb_spec (dim3 c + i) k) as [<-|]; [|apply (O3 Sm i Hi X)].
    rewrite Sm in R. replace (dim3 c <=? dim3 c + i) with true in R by (symmetry; apply Nat.leb_le; lia). unfold slot in R. replace (dim3 c + i <? dim3 c) with false in R by (symmetry; apply Nat.ltb_ge; lia). replace (dim3 c + i - dim3 c) with i in R by lia. cbn [andb] in R. destruct (cells s i); congruence.
  - destruct (cells s k) eqn:E; try discriminate. destruct (negb (attached (at_ s (home c k))) || (total c k =? 0)); [discriminate|]. destruct (destroyed s); [discriminate|]. destruct (signal (home c k) s) as [l|x]; [|discriminate]. cbn [bind] in H. injection H as <-. constructor; cbn [at_ mails cells]; [exact O1|exact O2|].
    intros Sm i Hi X. unfold set1 in *. destruct (Nat.eqb_spec i k); [congruence|]. apply (O3 Sm i Hi). destruct (Nat.eqb_spec (dim3 c + i) k) as [<-|]; [congruence|exact X].
  - destruct (newsof s k r) eqn:E; try discriminate. destruct (destroyed s || gone s r k); [discriminate|]. injection H as <-. constructor; assumption.
  - destruct (newsof s k r) eqn:E; try discriminate. destruct (negb (attached (at_ s r)) || (total c k =? 0)); [discriminate|]. destruct (signal r s) as [l|x]; [|discriminate]. injection H as <-. constructor; assumption.
  - destruct (newsof s k r) eqn:E; try discriminate. destruct (gone s r k); [discriminate|]. injection H as <-. constructor; assumption.
  - destruct (at_ s r) eqn:E; try discriminate. destruct (left s r); [|discriminate]. injection H as <-. constructor; cbn [at_ mails cells]; [|intros a b M; unfold set1; destruct (Nat.eqb_spec b r); [reflexivity|apply (O2 a b M)]|exact O3].
    intros q Hq I p Hp. unfold set1 in *. destruct (Nat.eqb_spec p r); [congruence|]. destruct (Nat.eqb_spec q r) as [->|]; [apply (O1 r Hq); [rewrite E; reflexivity|assumption]|apply (O1 q); assumption].
  - destruct (destroyed s || negb (all_ranks c (fun r => finished (at_ s r)))); [discriminate|]. destruct (existsb _ _); [discriminate|]. injection H as <-. constructor; assumption.
Qed.
Lemma ordered_runs m s : runs c m (start c) s -> ordered s.
Proof.
  remember (start c) as s0 eqn:E0. intros H. induction H as [s0|m s0 s1 s2 e H IH St]; [subst; apply ordered_start|]. apply (ordered_step e s1); auto.
Qed.

Lemma destr_done s : inv s -> destroyed s = true -> at_ s 0 = Done /\ 0 < n.
Proof. intros I H. destruct P as (Hn & _). split; [apply (v_destr s I H)|]; assumption. Qed.

Lemma destr_sent s k : inv s -> destroyed s = true -> k < N -> total c k <> 0 -> cells s k = CSent.
Proof. intros I H Hk Ht. destruct (destr_done s I H). apply (done_sent s 0); assumption. Qed.

Lemma not_signalled_left s r k : inv s -> r < n -> attached (at_ s r) = true -> k < N -> signalled s r k = false -> at_ s r = Waiting /\ left s r <> 0.
Proof.
  intros I Hr Hat Hk Hs. split.
  - destruct (at_ s r) eqn:E; try discriminate; [reflexivity|]. rewrite (done_signalled s r I Hr E k Hk) in Hs. discriminate.
  - intros E. rewrite (v_left s I r Hr Hat), num_sumn in E. pose proof (sumn_zero _ _ E k Hk) as Z. cbn in Z. rewrite Hs in Z. discriminate.
Qed.

Lemma signal_some s r k : inv s -> r < n -> attached (at_ s r) = true -> k < N -> signalled s r k = false -> exists l, signal r s = Ok l.
Proof.
  intros I Hr Hat Hk Hs. destruct (not_signalled_left s r k I Hr Hat Hk Hs) as [E L]. unfold signal. rewrite E. destruct (left s r); [contradiction|eauto].
Qed.

Lemma only_late e s x : inv s -> step c e s = Some (Fail x) -> late e s.
Proof.
  intros I H. destruct e as [r|r|r|r r'|r r'|k|k|k r|k r|k r|r|]; unfold step in H.
  - destruct (at_ s r); try discriminate. destruct (negb _); discriminate.
  - destruct (at_ s r); try discriminate. destruct (_ || _); discriminate.
  - destruct (at_ s r); try discriminate. destruct (negb _); discriminate.
  - destruct (mails s r r') eqn:Em; try discriminate. destruct (_ || _) eqn:Eb; [|discriminate]. destruct (v_mail_out s I r r' ltac:(congruence)) as (Hr & Hr' & Hne).
    assert (D : at_ s r = Done). { apply orb_true_iff in Eb as [E|E]; [destruct (at_ s r); cbn in E; congruence|apply (v_destr s I E r Hr)]. }
    cbn. repeat split; try assumption. intros HP. rewrite (done_mail s r r r' I Hr D Hr Hne HP) in Em. discriminate.
  - destruct (mails s r r') eqn:Em; try discriminate. destruct (destroyed s) eqn:Ed; [|destruct (negb _); discriminate]. destruct (v_mail_out s I r r' ltac:(congruence)) as (Hr & Hr' & Hne).
    cbn. repeat split; try assumption. intros HP. rewrite (done_mail s r r r' I Hr (v_destr s I Ed r Hr) Hr Hne HP) in Em. discriminate.
  - destruct (cells s k) eqn:Ec; try discriminate. destruct (Nat.ltb_spec k (ncells c)) as [Hk|]; [|discriminate]. cbn [negb orb] in H. destruct (Nat.eqb_spec (arrived s k) 0); [discriminate|]. cbn [orb] in H. destruct (_ <? _); [discriminate|].
    destruct (_ && _); [discriminate|]. destruct (destroyed s) eqn:Ed; [|discriminate]. exfalso. pose proof (arrived_le s k I Hk). rewrite (destr_sent s k I Ed Hk) in Ec by lia. discriminate.
  - destruct (cells s k) eqn:Ec; try discriminate. destruct (attached _) eqn:Eat; [|discriminate]. cbn [negb orb] in H. destruct (Nat.eqb_spec (total c k) 0) as [|Ht]; [discriminate|].
    exfalso. destruct (v_cell s I k ltac:(congruence)) as (Hk & _ & _). destruct (destroyed s) eqn:Ed; [rewrite (destr_sent s k I Ed Hk Ht) in Ec; discriminate|].
    destruct (signal_some s (home c k) k I (home_lt k Hk) Eat Hk) as [l E]; [|rewrite E in H; discriminate].
    unfold signalled. rewrite Nat.eqb_refl, Ec. destruct (Nat.eqb_spec (total c k) 0); [contradiction|reflexivity].
  - destruct (newsof s k r) eqn:En; try discriminate. destruct (_ || _) eqn:Eb; [|discriminate]. exfalso. destruct (v_news s I k r ltac:(congruence)) as (Hr & Hh & Hc). destruct (v_cell s I k ltac:(congruence)) as (Hk & Ht & _).
    apply orb_true_iff in Eb as [E|E].
    + pose proof (done_signalled s r I Hr (v_destr s I E r Hr) k Hk) as S. unfold signalled in S. rewrite En in S. destruct (Nat.eqb_spec (total c k) 0); [lia|]. destruct (Nat.eqb_spec (home c k) r); [congruence|]. discriminate.
    + apply (v_gone s I) in E as [E|(_ & E & _)]; congruence.
  - destruct (newsof s k r) eqn:En; try discriminate. destruct (attached _) eqn:Eat; [|discriminate]. cbn [negb orb] in H. destruct (Nat.eqb_spec (total c k) 0) as [|Ht]; [discriminate|].
    exfalso. destruct (v_news s I k r ltac:(congruence)) as (Hr & Hh & Hc). destruct (v_cell s I k ltac:(congruence)) as (Hk & _ & _).
    destruct (signal_some s r k I Hr Eat Hk) as [l E]; [|rewrite E in H; discriminate].
    unfold signalled. rewrite En. destruct (Nat.eqb_spec (total c k) 0); [contradiction|]. destruct (Nat.eqb_spec (home c k) r); [congruence|]. reflexivity.
  - destruct (newsof s k r) eqn:En; try discriminate. destruct (gone s r k) eqn:Eg; [|discriminate]. exfalso. destruct (v_news s I k r ltac:(congruence)) as (Hr & Hh & Hc).
    apply (v_gone s I) in Eg as [E|(_ & E & _)]; congruence.
  - destruct (at_ s r); try discriminate. destruct (left s r); discriminate.
  - destruct (destroyed s) eqn:Ed; [discriminate|]. cbn [orb] in H. destruct (negb _); [discriminate|]. destruct (existsb _ _) eqn:Eg; [|discriminate]. exfalso. apply existsb_exists in Eg as (k & Hk & Eg).
    apply (v_gone s I) in Eg as [E|(E & _)]; [|congruence]. destruct (v_news s I k (home c k) ltac:(congruence)) as (_ & X & _). congruence.
Qed.

(** ** Something can always run *)
Definition calm (e : event) : Prop :=
  match e with SendPoints r r' | RecvPoints r r' => has_points_for c r r' | _ => True end.

Lemma find_or f m : (exists i, i < m /\ f i = true) \/ (forall i, i < m -> f i = false).
Proof.
  induction m as [|m [(i & Hi & E)|H]].
  - right. intros; lia.
  - left. exists i. split; [lia|assumption].
  - destruct (f m) eqn:E; [left; exists m; auto|]. right. intros i Hi. destruct (Nat.eq_dec i m) as [->|]; [assumption|]. apply H. lia.
Qed.

Lemma find_or2 f m m' : (exists i j, i < m /\ j < m' /\ f i j = true) \/ (forall i j, i < m -> j < m' -> f i j = false).
Proof.
  induction m as [|m [(i & j & Hi & Hj & E)|H]].
  - right. intros; lia.
  - left. exists i, j. repeat split; [lia|assumption|assumption].
  - destruct (find_or (f m) m') as [(j & Hj & E)|H']; [left; exists m, j; auto|]. right. intros i j Hi Hj. destruct (Nat.eq_dec i m) as [->|]; [auto|]. apply H; [lia|assumption].
Qed.

Lemma run_it e s x : inv s -> step c e s = Some x -> calm e -> exists s', step c e s = Some (Ok s') /\ calm e.
Proof.
  intros I H C. destruct x as [s'|x]; [eauto|]. exfalso. pose proof (only_late e s x I H) as L. destruct e; cbn in L, C; try contradiction; tauto.
Qed.

Lemma home_of_slot k : k < N -> slot c k < dim3 c.
Proof. unfold N, ncells, slot. intros. destruct (Nat.ltb_spec k (dim3 c)); lia. Qed.

Lemma total_slot k : k < N -> same c = true -> total c (slot c k) = total c k.
Proof.
  intros Hk Es. rewrite !total_sumn. apply sumn_ext. intros r Hr. unfold slot. destruct (Nat.ltb_spec k (dim3 c)); [reflexivity|].
  destruct P as (_ & _ & S). unfold N, ncells in Hk. rewrite <- (S Es r (k - dim3 c)) by lia. f_equal. lia.
Qed.

Lemma progress s : inv s -> destroyed s = false -> exists e s', step c e s = Some (Ok s') /\ calm e.
Proof.
  intros I Hd.
  destruct (find_or (fun r => match at_ s r with Begin => true | _ => false end) n) as [(r & Hr & E)|H1].
  { exists (Count r). eapply run_it; [assumption| |exact Logic.I]. unfold step. destruct (at_ s r); try discriminate. destruct (Nat.ltb_spec r (ranks c)); [reflexivity|unfold n in Hr; lia]. }
  destruct (find_or (fun r => match at_ s r with Counted => true | _ => false end) n) as [(r & Hr & E)|H2].
  { exists (Init r). eapply run_it; [assumption| |exact Logic.I]. unfold step. destruct (at_ s r); try discriminate. destruct (Nat.ltb_spec r (ranks c)); [|unfold n in Hr; lia]. cbn [negb orb].
    rewrite (proj2 (forallb_ranks _)); [reflexivity|]. intros q Hq. specialize (H1 q Hq). destruct (at_ s q); [discriminate|reflexivity..]. }
  destruct (find_or (fun r => match at_ s r with Inited => true | _ => false end) n) as [(r & Hr & E)|H3].
  { exists (Spawn r). eapply run_it; [assumption| |exact Logic.I]. unfold step. destruct (at_ s r); try discriminate. destruct (Nat.ltb_spec r (ranks c)); [reflexivity|unfold n in Hr; lia]. }
  assert (A : forall r, r < n -> attached (at_ s r) = true).
  { intros r Hr. specialize (H1 r Hr). specialize (H2 r Hr). specialize (H3 r Hr). destruct (at_ s r); try discriminate; reflexivity. }
  clear H1 H2 H3.
  destruct (find_or2 (fun k r => contrib s k r <? cnt c r k) N n) as [(k & r & Hk & Hr & E)|H4].
  { apply Nat.ltb_lt in E. unfold contrib in E. destruct (Nat.eqb_spec r (home c k)) as [Hh|Hh].
    - specialize (A r Hr). destruct (at_ s r); try discriminate; cbn in E; lia.
    - assert (HP : has_points_for c r (home c k)) by (apply cell_has_points; [assumption|lia]). pose proof (home_lt k Hk) as Hq.
      pose proof (v_mail s I r (home c k) Hr Hq Hh) as M. rewrite (A r Hr) in M. destruct (mails s r (home c k)) eqn:Em.
      + destruct M as [M _]. specialize (M eq_refl). discriminate.
      + exists (SendPoints r (home c k)). assert (X : exists x, step c (SendPoints r (home c k)) s = Some x) by (unfold step; rewrite Em; destruct (_ || _); eauto).
        destruct X as [x X]. eapply run_it; [assumption|exact X|exact HP].
      + exists (RecvPoints r (home c k)). eapply run_it; [assumption| |exact HP]. unfold step. rewrite Em, Hd. specialize (A _ Hq). destruct (at_ s (home c k)); try discriminate; reflexivity.
      + lia. }
  assert (F : forall k, k < N -> arrived s k = total c k).
  { intros k Hk. rewrite (v_arr s I k Hk), total_sumn. apply sumn_ext. intros r Hr. specialize (H4 k r Hk Hr). apply Nat.ltb_ge in H4. pose proof (contrib_le s k r). lia. }
  clear H4.
  assert (G : forall k, k < N -> total c k <> 0 -> cells s k = CWait -> (same c = true -> dim3 c <= k -> cells s (slot c k) <> CWait) -> exists e s', step c e s = Some (Ok s') /\ calm e).
  { intros k Hk Ht Ec Hs. exists (Complete k). eapply run_it; [assumption| |exact Logic.I]. unfold step. rewrite Ec, (F k Hk), Hd. destruct (Nat.ltb_spec k (ncells c)); [|unfold N in Hk; lia]. cbn [negb orb].
    destruct (Nat.eqb_spec (total c k) 0); [contradiction|]. rewrite Nat.ltb_irrefl. cbn [orb].
    destruct (same c) eqn:Es; cbn [andb]; [|reflexivity]. destruct (Nat.leb_spec (dim3 c) k) as [Hl|Hl]; cbn [andb]; [|reflexivity]. specialize (Hs eq_refl Hl). destruct (cells s (slot c k)); [contradiction|reflexivity..]. }
  destruct (find_or (fun k => negb (total c k =? 0) && match cells s k with CWait => true | _ => false end) N) as [(k & Hk & E)|H5].
  { apply andb_true_iff in E as [E1 E2]. apply negb_true_iff, Nat.eqb_neq in E1. destruct (cells s k) eqn:Ec; try discriminate. clear E2.
    destruct (same c) eqn:Es.
    - destruct (cells s (slot c k)) eqn:Ec'.
      + pose proof (home_of_slot k Hk) as Hs. apply (G (slot c k)); [unfold N, ncells; lia|rewrite total_slot by assumption; assumption|assumption|]. intros; lia.
      + apply (G k); try assumption. intros; congruence.
      + apply (G k); try assumption. intros; congruence.
    - apply (G k); try assumption. discriminate. }
  clear G. destruct (find_or (fun k => match cells s k with CComplete => true | _ => false end) N) as [(k & Hk & E)|H6].
  { exists (SendNode k). destruct (cells s k) eqn:Ec; try discriminate. destruct (v_cell s I k ltac:(congruence)) as (_ & Ht & _).
    assert (X : exists x, step c (SendNode k) s = Some x). { unfold step. rewrite Ec, Hd, (A _ (home_lt k Hk)). destruct (Nat.eqb_spec (total c k) 0); [lia|]. cbn [negb orb]. eauto. }
    destruct X as [x X]. eapply run_it; [assumption|exact X|exact Logic.I]. }
  assert (S : forall k, k < N -> total c k <> 0 -> cells s k = CSent).
  { intros k Hk Ht. specialize (H5 k Hk). specialize (H6 k Hk). destruct (Nat.eqb_spec (total c k) 0); [contradiction|]. destruct (cells s k); try discriminate. reflexivity. }
  clear H5 H6. destruct (find_or2 (fun k r => match newsof s k r with NFlying => true | _ => false end) N n) as [(k & r & Hk & Hr & E)|H7].
  { exists (RecvNode k r). destruct (newsof s k r) eqn:En; try discriminate. assert (X : exists x, step c (RecvNode k r) s = Some x) by (unfold step; rewrite En; destruct (_ || _); eauto).
    destruct X as [x X]. eapply run_it; [assumption|exact X|exact Logic.I]. }
  destruct (find_or2 (fun k r => match newsof s k r with NGot => true | _ => false end) N n) as [(k & r & Hk & Hr & E)|H8].
  { exists (Note k r). destruct (newsof s k r) eqn:En; try discriminate. destruct (v_news s I k r ltac:(congruence)) as (_ & _ & Hc). destruct (v_cell s I k ltac:(congruence)) as (_ & Ht & _).
    assert (X : exists x, step c (Note k r) s = Some x). { unfold step. rewrite En, (A r Hr). destruct (Nat.eqb_spec (total c k) 0); [lia|]. cbn [negb orb]. eauto. }
    destruct X as [x X]. eapply run_it; [assumption|exact X|exact Logic.I]. }
  assert (L : forall r, r < n -> left s r = 0).
  { intros r Hr. rewrite (v_left s I r Hr (A r Hr)), num_sumn. apply sumn_all_zero. intros k Hk. cbn. unfold signalled. destruct (Nat.eqb_spec (total c k) 0) as [|Ht]; [reflexivity|]. cbn [orb].
    destruct (Nat.eqb_spec (home c k) r) as [Hh|Hh]; [rewrite (S k Hk Ht); reflexivity|]. pose proof (v_news2 s I k r (S k Hk Ht) Hr ltac:(congruence)) as X. specialize (H7 k r Hk Hr). specialize (H8 k r Hk Hr). destruct (newsof s k r); try discriminate; try reflexivity. congruence. }
  destruct (find_or (fun r => match at_ s r with Waiting => true | _ => false end) n) as [(r & Hr & E)|H9].
  { exists (Free r). eapply run_it; [assumption| |exact Logic.I]. unfold step. rewrite (L r Hr). destruct (at_ s r); try discriminate. reflexivity. }
  exists Destroy. assert (X : exists x, step c Destroy s = Some x).
  { unfold step. rewrite Hd, (proj2 (forallb_ranks _)). { cbn [negb orb]. destruct (existsb _ _); eauto. }
    intros r Hr. specialize (A r Hr). specialize (H9 r Hr). destruct (at_ s r); try discriminate. reflexivity. }
  destruct X as [x X]. eapply run_it; [assumption|exact X|exact Logic.I].
Qed.

(** ** Every run is finite *)
Definition pcv (p : pc) : nat := match p with Begin => 4 | Counted => 3 | Inited => 2 | Waiting => 1 | Done => 0 end.
Definition mailv (m : mail) : nat := match m with MNone => 3 | MPending => 2 | MFlying => 1 | MDone => 0 end.
Definition cellv (x : cell) : nat := match x with CWait => 2 | CComplete => 1 | CSent => 0 end.
Definition newsv (x : news) : nat := match x with NNone => 4 | NFlying => 3 | NGot => 2 | NNoted => 1 | NDeleted => 0 end.

Definition mu (s : state) : nat :=
  sumn n (fun r => pcv (at_ s r)) + sumn n (fun r => sumn n (fun r' => mailv (mails s r r'))) + sumn N (fun k => cellv (cells s k)) +
  sumn N (fun k => sumn n (fun r => newsv (newsof s k r))) + (if destroyed s then 0 else 1).

Lemma mu_lt s s' :
  (forall r, r < n -> pcv (at_ s' r) <= pcv (at_ s r)) ->
  (forall r r', r < n -> r' < n -> mailv (mails s' r r') <= mailv (mails s r r')) ->
  (forall k, k < N -> cellv (cells s' k) <= cellv (cells s k)) ->
  (forall k r, k < N -> r < n -> newsv (newsof s' k r) <= newsv (newsof s k r)) ->
  (destroyed s = true -> destroyed s' = true) ->
  (exists r, r < n /\ pcv (at_ s' r) < pcv (at_ s r)) \/ (exists r r', r < n /\ r' < n /\ mailv (mails s' r r') < mailv (mails s r r')) \/
  (exists k, k < N /\ cellv (cells s' k) < cellv (cells s k)) \/ (exists k r, k < N /\ r < n /\ newsv (newsof s' k r) < newsv (newsof s k r)) \/
  (destroyed s = false /\ destroyed s' = true) -> mu s' < mu s.
Proof.
  intros H1 H2 H3 H4 H5 H. unfold mu.
  pose proof (sumn_le n _ _ H1) as L1. cbn beta in L1.
  assert (L2 : sumn n (fun r => sumn n (fun r' => mailv (mails s' r r'))) <= sumn n (fun r => sumn n (fun r' => mailv (mails s r r')))) by (apply sumn_le; intros; apply sumn_le; auto).
  pose proof (sumn_le N _ _ H3) as L3. cbn beta in L3.
  assert (L4 : sumn N (fun k => sumn n (fun r => newsv (newsof s' k r))) <= sumn N (fun k => sumn n (fun r => newsv (newsof s k r)))) by (apply sumn_le; intros; apply sumn_le; auto).
  assert (L5 : (if destroyed s' then 0 else 1) <= (if destroyed s then 0 else 1)) by (destruct (destroyed s); [rewrite H5 by reflexivity; lia|destruct (destroyed s'); lia]).
  destruct H as [(r & Hr & X)|[(r & r' & Hr & Hr' & X)|[(k & Hk & X)|[(k & r & Hk & Hr & X)|(X & Y)]]]].
  - pose proof (sumn_lt n (fun r => pcv (at_ s' r)) (fun r => pcv (at_ s r)) r Hr X H1). lia.
  - pose proof (sumn_lt n (fun r => sumn n (fun r' => mailv (mails s' r r'))) (fun r => sumn n (fun r' => mailv (mails s r r'))) r Hr) as Z. cbn beta in Z.
    specialize (Z ltac:(apply (sumn_lt n _ _ r' Hr' X); auto) ltac:(intros; apply sumn_le; auto)). lia.
  - pose proof (sumn_lt N (fun k => cellv (cells s' k)) (fun k => cellv (cells s k)) k Hk X H3). lia.
  - pose proof (sumn_lt N (fun k => sumn n (fun r => newsv (newsof s' k r))) (fun k => sumn n (fun r => newsv (newsof s k r))) k Hk) as Z. cbn beta in Z.
    specialize (Z ltac:(apply (sumn_lt n _ _ r Hr X); auto) ltac:(intros; apply sumn_le; auto)). lia.
  - rewrite X, Y. lia.
Qed.

Lemma set1_le {A} (v : A -> nat) (f : nat -> A) i x j : v x <= v (f i) -> v (set1 f i x j) <= v (f j).
Proof. intros H. unfold set1. destruct (Nat.eqb_spec j i); subst; auto. Qed.
Lemma set2_le {A} (v : A -> nat) (f : nat -> nat -> A) i j x a b : v x <= v (f i j) -> v (set2 f i j x a b) <= v (f a b).
Proof. intros H. unfold set2. destruct (Nat.eqb_spec a i), (Nat.eqb_spec b j); subst; cbn; auto. Qed.

Lemma mu_step e s s' : inv s -> step c e s = Some (Ok s') -> mu s' < mu s.
Proof.
  intros I H. destruct e as [r|r|r|r r'|r r'|k|k|k r|k r|k r|r|]; unfold step in H.
  - destruct (at_ s r) eqn:Ea; try discriminate. destruct (Nat.ltb_spec r (ranks c)) as [Hr|]; [|discriminate]. cbn [negb] in H. injection H as <-.
    apply mu_lt; cbn [at_ mails cells newsof destroyed]; auto; [intros; apply set1_le; rewrite Ea; cbn; lia|]. left. exists r. split; [exact Hr|]. rewrite set1_eq, Ea. cbn. lia.
  - destruct (at_ s r) eqn:Ea; try discriminate. destruct (Nat.ltb_spec r (ranks c)) as [Hr|]; [|discriminate]. cbn [negb orb] in H. destruct (negb _); [discriminate|]. injection H as <-.
    apply mu_lt; cbn [at_ mails cells newsof destroyed]; auto; [intros; apply set1_le; rewrite Ea; cbn; lia|]. left. exists r. split; [exact Hr|]. rewrite set1_eq, Ea. cbn. lia.
  - destruct (at_ s r) eqn:Ea; try discriminate. destruct (Nat.ltb_spec r (ranks c)) as [Hr|]; [|discriminate]. cbn [negb] in H. injection H as <-.
    apply mu_lt; cbn [at_ mails cells newsof destroyed]; auto; [intros; apply set1_le; rewrite Ea; cbn; lia| |].
    + intros a b Ha Hb. destruct (Nat.eqb_spec a r); [|reflexivity]. subst. destruct (Nat.eqb_spec b r); [reflexivity|]. destruct (b <? ranks c); [|reflexivity]. cbn [andb negb].
      rewrite (proj2 (v_mail s I r b Ha Hb ltac:(auto))); [cbn; lia|]. now rewrite Ea.
    + left. exists r. split; [exact Hr|]. rewrite set1_eq, Ea. cbn. lia.
  - destruct (mails s r r') eqn:Em; try discriminate. destruct (_ || _); [discriminate|]. injection H as <-. destruct (v_mail_out s I r r' ltac:(congruence)) as (Hr & Hr' & Hne).
    apply mu_lt; cbn [at_ mails cells newsof destroyed]; auto; [intros; apply set2_le; rewrite Em; cbn; lia|]. right. left. exists r, r'. split; [exact Hr|]. split; [exact Hr'|]. rewrite set2_eq, Em. cbn. lia.
  - destruct (mails s r r') eqn:Em; try discriminate. destruct (destroyed s) eqn:Ed; [discriminate|]. destruct (negb _); [discriminate|]. injection H as <-. destruct (v_mail_out s I r r' ltac:(congruence)) as (Hr & Hr' & Hne).
    apply mu_lt; cbn [at_ mails cells newsof destroyed]; auto; [intros; apply set2_le; rewrite Em; cbn; lia|congruence|]. right. left. exists r, r'. split; [exact Hr|]. split; [exact Hr'|]. rewrite set2_eq, Em. cbn. lia.
  - destruct (cells s k) eqn:Ec; try discriminate. destruct (Nat.ltb_spec k (ncells c)) as [Hk|]; [|discriminate]. cbn [negb orb] in H. destruct (_ || _); [discriminate|]. destruct (_ && _); [discriminate|]. destruct (destroyed s) eqn:Ed; [discriminate|]. injection H as <-.
    apply mu_lt; cbn [at_ mails cells newsof destroyed]; auto; [intros; apply set1_le; rewrite Ec; cbn; lia|congruence|]. right. right. left. exists k. split; [exact Hk|]. rewrite set1_eq, Ec. cbn. lia.
  - destruct (cells s k) eqn:Ec; try discriminate. destruct (_ || _); [discriminate|]. destruct (destroyed s) eqn:Ed; [discriminate|]. destruct (signal _ _); [|discriminate]. cbn [bind] in H. injection H as <-. destruct (v_cell s I k ltac:(congruence)) as (Hk & _ & _).
    apply mu_lt; cbn [at_ mails cells newsof destroyed]; auto; [intros; apply set1_le; rewrite Ec; cbn; lia| |congruence|].
    + intros j r Hj Hr. destruct (_ && _) eqn:E; [|reflexivity]. apply andb_true_iff in E as [E _]. apply andb_true_iff in E as [E _]. apply Nat.eqb_eq in E. subst.
      destruct (newsof s k r) eqn:En; cbn; try lia; destruct (v_news s I k r) as (_ & _ & X); congruence.
    + right. right. left. exists k. split; [exact Hk|]. rewrite set1_eq, Ec. cbn. lia.
  - destruct (newsof s k r) eqn:En; try discriminate. destruct (_ || _); [discriminate|]. injection H as <-. destruct (v_news s I k r ltac:(congruence)) as (Hr & _ & Hc). destruct (v_cell s I k ltac:(congruence)) as (Hk & _ & _).
    apply mu_lt; cbn [at_ mails cells newsof destroyed]; auto; [intros; apply set2_le; rewrite En; cbn; lia|]. right. right. right. left. exists k, r. split; [exact Hk|]. split; [exact Hr|]. rewrite set2_eq, En. cbn. lia.
  - destruct (newsof s k r) eqn:En; try discriminate. destruct (_ || _); [discriminate|]. destruct (signal _ _); [|discriminate]. cbn [bind] in H. injection H as <-. destruct (v_news s I k r ltac:(congruence)) as (Hr & _ & Hc). destruct (v_cell s I k ltac:(congruence)) as (Hk & _ & _).
    apply mu_lt; cbn [at_ mails cells newsof destroyed]; auto; [intros; apply set2_le; rewrite En; cbn; lia|]. right. right. right. left. exists k, r. split; [exact Hk|]. split; [exact Hr|]. rewrite set2_eq, En. cbn. lia.
  - destruct (newsof s k r) eqn:En; try discriminate. destruct (gone _ _ _); [discriminate|]. injection H as <-. destruct (v_news s I k r ltac:(congruence)) as (Hr & _ & Hc). destruct (v_cell s I k ltac:(congruence)) as (Hk & _ & _).
    apply mu_lt; cbn [at_ mails cells newsof destroyed]; auto; [intros; apply set2_le; rewrite En; cbn; lia|]. right. right. right. left. exists k, r. split; [exact Hk|]. split; [exact Hr|]. rewrite set2_eq, En. cbn. lia.
  - destruct (at_ s r) eqn:Ea; try discriminate. destruct (left s r); [|discriminate]. injection H as <-.
    assert (Hr : r < n). { destruct (Nat.lt_ge_cases r n); [assumption|]. rewrite (v_rank s I r) in Ea by assumption. discriminate. }
    apply mu_lt; cbn [at_ mails cells newsof destroyed]; auto; [intros; apply set1_le; rewrite Ea; cbn; lia|]. left. exists r. split; [exact Hr|]. rewrite set1_eq, Ea. cbn. lia.
  - destruct (destroyed s) eqn:Ed; [discriminate|]. cbn [orb] in H. destruct (negb _); [discriminate|]. destruct (existsb _ _); [discriminate|]. injection H as <-.
    apply mu_lt; cbn [at_ mails cells newsof destroyed]; auto. right. right. right. right. auto.
Qed.

Lemma runs_bound m s : runs c m (start c) s -> m + mu s <= mu (start c).
Proof.
  intros H. remember (start c) as s0 eqn:E. induction H; subst; [lia|]. pose proof (mu_step e s' s'' (inv_runs _ _ H) H0). specialize (IHruns eq_refl). lia.
Qed.

(** ** The end of a run *)
Lemma stuck_end s : inv s -> (forall e, step c e s = None) ->
  destroyed s = true /\ (forall r, r < n -> at_ s r = Done) /\ (forall r r', r < n -> r' < n -> r <> r' -> mails s r r' = MDone) /\
  forall r k, r < n -> k < N -> (gone s r k = false <-> home c k <> r /\ total c k = 0).
Proof.
  intros I Stop. destruct (destroyed s) eqn:Ed; [|exfalso; destruct (progress s I Ed) as (e & s' & H & _); rewrite Stop in H; discriminate].
  pose proof (v_destr s I Ed) as D. split; [reflexivity|]. split; [assumption|]. split.
  - intros r r' Hr Hr' Hne. pose proof (v_mail s I r r' Hr Hr' Hne) as M. rewrite (D r Hr) in M. cbn in M. destruct (mails s r r') eqn:Em; try reflexivity.
    + destruct M as [M _]. specialize (M eq_refl). discriminate.
    + exfalso. specialize (Stop (SendPoints r r')). unfold step in Stop. rewrite Em in Stop. destruct (_ || _); discriminate.
    + exfalso. specialize (Stop (RecvPoints r r')). unfold step in Stop. rewrite Em, Ed in Stop. discriminate.
  - intros r k Hr Hk. pose proof (v_gone s I r k) as G. split.
    + intros E. assert (NG : ~ (newsof s k r = NDeleted \/ destroyed s = true /\ home c k = r /\ k < N)) by (rewrite <- G; congruence).
      assert (Hh : home c k <> r) by tauto. split; [assumption|]. destruct (Nat.eq_dec (total c k) 0) as [|Ht]; [assumption|]. exfalso.
      pose proof (done_signalled s r I Hr (D r Hr) k Hk) as S. unfold signalled in S. destruct (Nat.eqb_spec (total c k) 0); [contradiction|]. destruct (Nat.eqb_spec (home c k) r); [contradiction|]. cbn [orb] in S.
      destruct (newsof s k r) eqn:En; try discriminate; [|tauto]. specialize (Stop (DeleteGate k r)). unfold step in Stop. rewrite En in Stop. destruct (gone s r k); discriminate.
    + intros (Hh & Ht). destruct (gone s r k); [|reflexivity]. exfalso. destruct (proj1 G eq_refl) as [E|(_ & E & _)]; [|congruence].
      destruct (v_news s I k r ltac:(congruence)) as (_ & _ & Hc). destruct (v_cell s I k ltac:(congruence)) as (_ & X & _). lia.
Qed.

(** ** Late tasks *)
Lemma runs_snoc m s0 s s' e : runs c m s0 s -> step c e s = Some (Ok s') -> runs c (S m) s0 s'.
Proof. intros. econstructor; eauto. Qed.

Lemma calm_mail e s s' r r' : ~ has_points_for c r r' -> calm e -> step c e s = Some (Ok s') ->
  mails s' r r' = mails s r r' \/ (e = Spawn r /\ at_ s r = Inited /\ at_ s' r = Waiting /\ r' <> r /\ mails s' r r' = MPending).
Proof.
  intros NP C H. destruct e as [q|q|q|q q'|q q'|k|k|k q|k q|k q|q|]; unfold step in H.
  - left. destruct (at_ s q); try discriminate. destruct (negb _); [discriminate|]. injection H as <-. reflexivity.
  - left. destruct (at_ s q); try discriminate. destruct (_ || _); [discriminate|]. injection H as <-. reflexivity.
  - destruct (at_ s q) eqn:Ea; try discriminate. destruct (negb _); [discriminate|]. injection H as <-. cbn [mails at_].
    destruct (Nat.eqb_spec r q); [|left; reflexivity]. subst q. destruct (Nat.eqb_spec r' r); [left; reflexivity|]. destruct (r' <? ranks c); [|left; reflexivity]. right. rewrite set1_eq. cbn [negb andb]. auto.
  - left. destruct (mails s q q'); try discriminate. destruct (_ || _); [discriminate|]. injection H as <-. cbn [mails]. apply set2_ne. destruct (Nat.eq_dec r q); [|auto]. destruct (Nat.eq_dec r' q'); [|auto]. subst. cbn in C. contradiction.
  - left. destruct (mails s q q'); try discriminate. destruct (destroyed s); [discriminate|]. destruct (negb _); [discriminate|]. injection H as <-. cbn [mails]. apply set2_ne. destruct (Nat.eq_dec r q); [|auto]. destruct (Nat.eq_dec r' q'); [|auto]. subst. cbn in C. contradiction.
  - left. destruct (cells s k); try discriminate. destruct (_ || _); [discriminate|]. destruct (_ && _); [discriminate|]. destruct (destroyed s); [discriminate|]. injection H as <-. reflexivity.
  - left. destruct (cells s k); try discriminate. destruct (_ || _); [discriminate|]. destruct (destroyed s); [discriminate|]. destruct (signal _ _); [|discriminate]. cbn [bind] in H. injection H as <-. reflexivity.
  - left. destruct (newsof s k q); try discriminate. destruct (_ || _); [discriminate|]. injection H as <-. reflexivity.
  - left. destruct (newsof s k q); try discriminate. destruct (_ || _); [discriminate|]. destruct (signal _ _); [|discriminate]. cbn [bind] in H. injection H as <-. reflexivity.
  - left. destruct (newsof s k q); try discriminate. destruct (gone _ _ _); [discriminate|]. injection H as <-. reflexivity.
  - left. destruct (at_ s q); try discriminate. destruct (left s q); [|discriminate]. injection H as <-. reflexivity.
  - left. destruct (_ || _); [discriminate|]. destruct (existsb _ _); [discriminate|]. injection H as <-. reflexivity.
Qed.

(** All other tasks can run to the end while the message of [r] to [r'] stays where it is. *)
Lemma run_without r r' : r < n -> r' < n -> r <> r' -> ~ has_points_for c r r' -> forall b m s, mu s <= b -> runs c m (start c) s -> mails s r r' <> MNone ->
  exists m' s', runs c m' (start c) s' /\ destroyed s' = true /\ mails s' r r' = mails s r r'.
Proof.
  intros Hr Hr' Hne NP. induction b as [|b IH]; intros m s Hb H HM; destruct (destroyed s) eqn:Ed; try solve [exists m, s; auto];
    destruct (progress s (inv_runs _ _ H) Ed) as (e & s1 & S & C); pose proof (mu_step e s s1 (inv_runs _ _ H) S); [lia|].
  assert (E : mails s1 r r' = mails s r r').
  { destruct (calm_mail e s s1 r r' NP C S) as [E|(_ & Ea & _ & _ & _)]; [assumption|]. exfalso. apply HM. apply (v_mail s (inv_runs _ _ H) r r' Hr Hr' Hne). now rewrite Ea. }
  destruct (IH (Datatypes.S m) s1 ltac:(lia) (runs_snoc _ _ _ _ _ H S) ltac:(congruence)) as (m' & s' & R & D & M). exists m', s'. split; [assumption|]. split; congruence.
Qed.

Lemma reach_pending r r' : r < n -> r' < n -> r <> r' -> ~ has_points_for c r r' -> forall b m s, mu s <= b -> runs c m (start c) s -> mails s r r' = MNone ->
  exists m' s', runs c m' (start c) s' /\ at_ s' r = Waiting /\ mails s' r r' = MPending.
Proof.
  intros Hr Hr' Hne NP. induction b as [|b IH]; intros m s Hb H HM; pose proof (inv_runs _ _ H) as I.
  all: assert (Ed : destroyed s = false) by (destruct (destroyed s) eqn:Ed; [|reflexivity]; pose proof (proj1 (v_mail s I r r' Hr Hr' Hne) HM) as X; rewrite (v_destr s I Ed r Hr) in X; discriminate).
  all: destruct (progress s I Ed) as (e & s1 & S & C); pose proof (mu_step e s s1 I S).
  { lia. }
  destruct (calm_mail e s s1 r r' NP C S) as [E|(_ & _ & Ew & _ & Em)].
  - apply (IH (Datatypes.S m) s1); [lia|apply (runs_snoc _ _ _ _ _ H S)|congruence].
  - exists (Datatypes.S m), s1. repeat split; [apply (runs_snoc _ _ _ _ _ H S)|assumption..].
Qed.
End Life.
