(** Rows, transactions and maps. *)
From Coq Require Import String Ascii ZArith List Bool Arith Lia Permutation Sorted.
From Verif Require Import Base ListFacts TraceModel TraceSpec TraceProofs ReadModel ReadSpec DbModel DbSpec.
Import ListNotations.
Open Scope Z_scope.

(** ** Tables *)
Definition lens {A} (get : tables -> list A) (set : tables -> list A -> tables) : Prop :=
  (forall t l, get (set t l) = l) /\ (forall t l l', set (set t l) l' = set t l') /\ forall t, set t (get t) = t.
Lemma lens_localities : lens localities set_localities. Proof. split; [reflexivity|split; [reflexivity|intros []; reflexivity]]. Qed.
Lemma lens_workers : lens workers set_workers. Proof. split; [reflexivity|split; [reflexivity|intros []; reflexivity]]. Qed.
Lemma lens_segment_types : lens segment_types set_segment_types. Proof. split; [reflexivity|split; [reflexivity|intros []; reflexivity]]. Qed.
Lemma lens_classes : lens classes set_classes. Proof. split; [reflexivity|split; [reflexivity|intros []; reflexivity]]. Qed.
Lemma lens_types : lens types set_types. Proof. split; [reflexivity|split; [reflexivity|intros []; reflexivity]]. Qed.
Lemma lens_events : lens events set_events. Proof. split; [reflexivity|split; [reflexivity|intros []; reflexivity]]. Qed.
Lemma lens_segments : lens segments set_segments. Proof. split; [reflexivity|split; [reflexivity|intros []; reflexivity]]. Qed.

Definition saved (t : tables) : db := mkDb t t false.
Lemma fresh_key {A} (key : A -> Z) l r : ~ In (key r) (map key l) -> existsb (fun r' => key r' =? key r) l = false.
Proof.
  intros N. apply not_true_is_false. intros E. apply existsb_exists in E. destruct E as (x & I & E). apply Z.eqb_eq in E. apply N. rewrite <- E. apply in_map, I.
Qed.
Lemma NoDup_snoc {A} (l : list A) a : NoDup (l ++ [a]) -> ~ In a l.
Proof. intros H I. apply NoDup_remove in H. rewrite app_nil_r in H. apply H, I. Qed.
Section Insert.
  Context {A : Type} (key : A -> Z) (get : tables -> list A) (set : tables -> list A -> tables) (L : lens get set).
  Lemma insert_ok t r : ~ In (key r) (map key (get t)) -> insert key get set r (saved t) = (saved (set t (get t ++ [r])), Ok tt).
  Proof. intros N. unfold insert. cbn [now saved open]. rewrite (fresh_key key _ r N). reflexivity. Qed.
  Lemma insert_each {B} (ok : B -> bool) (mk : B -> A) l : forall t, NoDup (map key (get t ++ map mk (filter ok l))) ->
    each (fun _ b => if ok b then insert key get set (mk b) else ret tt) l tt (saved t) = (saved (set t (get t ++ map mk (filter ok l))), Ok tt).
  Proof.
    destruct L as (L1 & L2 & L3). induction l as [|b l IH]; intros t N; [cbn; rewrite app_nil_r, L3; reflexivity|]. cbn [each filter]. destruct (ok b) eqn:Eb.
    - cbn [filter map] in N. rewrite Eb in N. cbn [map] in N. unfold andthen. rewrite insert_ok.
      + rewrite IH; [|rewrite L1, <- app_assoc; exact N]. rewrite L1, L2, <- app_assoc. reflexivity.
      + rewrite map_app in N. cbn [map] in N. apply NoDup_remove in N. destruct N as [_ N]. intros I. apply N, in_or_app. left. exact I.
    - cbn [filter] in N. rewrite Eb in N. unfold andthen, ret at 1. apply IH, N.
  Qed.
  Lemma insert_list {B} (mk : B -> A) l t : NoDup (map key (get t ++ map mk l)) ->
    each (fun _ b => insert key get set (mk b)) l tt (saved t) = (saved (set t (get t ++ map mk l)), Ok tt).
  Proof.
    intros N. assert (F : filter (fun _ : B => true) l = l) by (clear; induction l as [|b l IH]; [reflexivity|cbn; f_equal; exact IH]). pose proof (insert_each (fun _ => true) mk l t) as H. rewrite F in H. exact (H N).
  Qed.
End Insert.

(** ** Batches *)
Section Batch.
  Context {A : Type} (key : A -> Z) (get : tables -> list A) (set : tables -> list A -> tables) (L : lens get set) (T : tables).
  Definition full_batches (n : Z) : nat := Z.to_nat (10000 * (n / 10000)).
  Definition batched (rs : list A) (d : db) : Prop :=
    now d = set T rs /\ kept d = set T (firstn (full_batches (Z.of_nat (length rs))) rs) /\ open d = negb (Z.of_nat (length rs) mod 10000 =? 0).
  Definition in_batch (rs : list A) : db := mkDb (set T rs) (set T (firstn (full_batches (Z.of_nat (length rs))) rs)) true.
  Lemma begin_ok rs d : batched rs d -> begin_batch (Z.of_nat (length rs) mod 10000) d = (in_batch rs, Ok tt).
  Proof.
    intros (N & K & O). unfold begin_batch, in_batch. destruct d as [n k o]. cbn [now kept open] in *. subst. destruct (Z.of_nat (length rs) mod 10000 =? 0) eqn:E; cbn; reflexivity.
  Qed.
  Lemma full_same n : 0 <= n -> n mod 10000 = 0 -> full_batches n = Z.to_nat n.
  Proof. intros P E. unfold full_batches. f_equal. pose proof (Z.div_mod n 10000). lia. Qed.
  Lemma full_next n : 0 <= n -> (n + 1) mod 10000 <> 0 -> full_batches (n + 1) = full_batches n.
  Proof.
    intros P E. unfold full_batches. do 2 f_equal. pose proof (Z.div_mod n 10000 ltac:(lia)). pose proof (Z.mod_pos_bound n 10000 ltac:(lia)). pose proof (Z.div_mod (n + 1) 10000 ltac:(lia)). pose proof (Z.mod_pos_bound (n + 1) 10000 ltac:(lia)). lia.
  Qed.
  Lemma full_le n : 0 <= n -> (full_batches n <= Z.to_nat n)%nat.
  Proof. intros P. unfold full_batches. apply Z2Nat.inj_le; pose proof (Z.div_mod n 10000 ltac:(lia)); pose proof (Z.mod_pos_bound n 10000 ltac:(lia)); lia. Qed.
  Lemma mod_next n : 0 <= n -> (n + 1) mod 10000 = if n mod 10000 + 1 =? 10000 then 0 else n mod 10000 + 1.
  Proof.
    intros P. rewrite <- (Z.add_mod_idemp_l n 1 10000) by lia. pose proof (Z.mod_pos_bound n 10000 ltac:(lia)). destruct (n mod 10000 + 1 =? 10000) eqn:E.
    - apply Z.eqb_eq in E. rewrite E. reflexivity.
    - apply Z.eqb_neq in E. apply Z.mod_small. lia.
  Qed.
  Lemma insert_end {B} (f : Z -> io B) rs r : ~ In (key r) (map key rs) -> exists d, batched (rs ++ [r]) d /\
    andthen (insert key get set r) (fun _ => andthen (end_batch (Z.of_nat (length rs) mod 10000)) f) (in_batch rs) = f (Z.of_nat (length (rs ++ [r])) mod 10000) d.
  Proof.
    intros N. destruct L as (L1 & L2 & L3). unfold andthen at 1, insert. cbn [now in_batch open kept]. rewrite L1, (fresh_key key rs r N), L2. assert (Ln : Z.of_nat (length (rs ++ [r])) = Z.of_nat (length rs) + 1) by (rewrite app_length; cbn [length]; lia). rewrite Ln, mod_next by lia. unfold andthen, end_batch. destruct (Z.of_nat (length rs) mod 10000 + 1 =? 10000) eqn:E.
    - exists (saved (set T (rs ++ [r]))). split; [|reflexivity]. split; [reflexivity|]. cbn [kept open saved]. rewrite Ln, mod_next, E by lia. split; [|reflexivity]. f_equal. rewrite full_same by (try rewrite mod_next, E; lia). rewrite <- Ln, Nat2Z.id, firstn_all. reflexivity.
    - eexists. split; [|reflexivity]. split; [reflexivity|]. cbn [kept open]. assert (M : (Z.of_nat (length rs) + 1) mod 10000 <> 0). { rewrite mod_next, E by lia. pose proof (Z.mod_pos_bound (Z.of_nat (length rs)) 10000 ltac:(lia)). lia. } rewrite Ln. split; [|apply Z.eqb_neq in M; rewrite M; reflexivity]. f_equal. rewrite full_next by lia. pose proof (full_le (Z.of_nat (length rs)) ltac:(lia)) as F. rewrite Nat2Z.id in F. rewrite firstn_app. replace (full_batches (Z.of_nat (length rs)) - length rs)%nat with O by lia. cbn [firstn]. rewrite app_nil_r. reflexivity.
  Qed.
  Lemma last_ok rs d : batched rs d -> last_batch (Z.of_nat (length rs) mod 10000) d = (saved (set T rs), Ok tt).
  Proof.
    intros (N & K & O). pose proof (Z.mod_pos_bound (Z.of_nat (length rs)) 10000 ltac:(lia)) as B. unfold last_batch. rewrite (proj2 (Z.ltb_lt (Z.of_nat (length rs) mod 10000) 10000)) by lia. rewrite andb_true_r. destruct d as [n k o]. cbn [now kept open] in *. subst. destruct (Z.of_nat (length rs) mod 10000 =? 0) eqn:E.
    - apply Z.eqb_eq in E. rewrite E. cbn. unfold ret, saved. do 2 f_equal. rewrite full_same, Nat2Z.id, firstn_all by lia. reflexivity.
    - apply Z.eqb_neq in E. rewrite (proj2 (Z.ltb_lt 0 (Z.of_nat (length rs) mod 10000))) by lia. cbn. reflexivity.
  Qed.
  Lemma start_ok : set T [] = T -> batched [] (saved T).
  Proof. intros E. split; [symmetry; exact E|]. split; [cbn; symmetry; exact E|reflexivity]. Qed.
End Batch.

(** ** Maps of texts *)
Lemma same_eq a b : same_text a b = true <-> a = b.
Proof. unfold same_text. destruct (list_eq_dec ascii_dec a b); split; intros H; try congruence; reflexivity. Qed.
Lemma find_none {A} k (m : list (text * A)) : find_text k m = None <-> ~ In k (map fst m).
Proof.
  induction m as [|[k' a] m IH]; [split; [intros _ []|reflexivity]|]. cbn [find_text map fst In]. destruct (same_text k' k) eqn:E.
  - apply same_eq in E. subst. split; [discriminate|intros H; exfalso; apply H; left; reflexivity].
  - assert (N : k' <> k) by (intros Q; apply same_eq in Q; congruence). rewrite IH. tauto.
Qed.
Lemma find_some {A} k a (m : list (text * A)) : NoDup (map fst m) -> (find_text k m = Some a <-> In (k, a) m).
Proof.
  induction m as [|[k' a'] m IH]; intros N; [split; [discriminate|intros []]|]. cbn [map fst] in N. apply NoDup_cons_iff in N. destruct N as [N1 N2]. cbn [find_text In]. destruct (same_text k' k) eqn:E.
  - apply same_eq in E. subst. split; [intros H; injection H as <-; left; reflexivity|]. intros [H|H]; [injection H as <-; reflexivity|]. exfalso. apply N1, (in_map fst _ _ H).
  - assert (Nk : k' <> k) by (intros Q; apply same_eq in Q; congruence). rewrite IH by exact N2. split; [intros H; right; exact H|]. intros [H|H]; [congruence|exact H].
Qed.
Lemma store_new {A} k (a : A) m : ~ In k (map fst m) -> Permutation (store_text k a m) ((k, a) :: m).
Proof.
  induction m as [|[k' a'] m IH]; intros N; [apply Permutation_refl|]. cbn [store_text]. destruct (same_text k' k) eqn:E; [apply same_eq in E; exfalso; apply N; left; exact E|]. destruct (before k k'); [apply Permutation_refl|]. eapply Permutation_trans; [apply perm_skip, IH; intros H; apply N; right; exact H|apply perm_swap].
Qed.
Lemma store_nodup {A} k (a : A) m : ~ In k (map fst m) -> NoDup (map fst m) -> NoDup (map fst (store_text k a m)).
Proof. intros N D. eapply Permutation_NoDup; [apply Permutation_map, Permutation_sym, store_new, N|]. cbn [map fst]. constructor; assumption. Qed.

(** The entries noted for a list of events *)
Definition noted {A} (name : entry -> text) (val : entry -> A) (es : list entry) (m : list (text * A)) : Prop :=
  NoDup (map fst m) /\ (forall n v, In (n, v) m -> exists e, In e es /\ n = name e /\ v = val e) /\ forall e, In e es -> exists v, In (name e, v) m.
Lemma note_all {A} (name : entry -> text) (val : entry -> A) es : noted name val es (fold_left (note name val) es []).
Proof.
  induction es as [|e es IH] using rev_ind; [split; [constructor|split; [intros n v []|intros e []]]|]. rewrite fold_left_app. cbn [fold_left]. set (m := fold_left _ es []) in *. destruct IH as (D & F & C). unfold note. destruct (find_text (name e) m) as [v|] eqn:E.
  - split; [exact D|]. split; [intros n x H; destruct (F n x H) as (e' & I & Q); exists e'; split; [apply in_or_app; left; exact I|exact Q]|]. intros e' I. apply in_app_or in I. destruct I as [I|[<-|[]]]; [apply C, I|]. exists v. apply find_some; [exact D|exact E].
  - apply find_none in E. pose proof (store_new (name e) (val e) m E) as P. split; [apply store_nodup; assumption|]. split.
    + intros n x H. apply (Permutation_in _ P) in H. destruct H as [H|H]; [injection H as <- <-; exists e; split; [apply in_or_app; right; left; reflexivity|split; reflexivity]|]. destruct (F n x H) as (e' & I & Q). exists e'. split; [apply in_or_app; left; exact I|exact Q].
    + intros e' I. apply in_app_or in I. destruct I as [I|[<-|[]]]; [destruct (C e' I) as [v H]; exists v|exists (val e)]; apply (Permutation_in _ (Permutation_sym P)); [right; exact H|left; reflexivity].
Qed.
Lemma note_classes es : let s := fold_left note_class es ([], 0) in
  NoDup (map fst (fst s)) /\ NoDup (map snd (fst s)) /\ (forall n v, In (n, v) (fst s) -> v < snd s) /\ (forall e, In e es -> exists v, In (event_class (e_kind e), v) (fst s)).
Proof.
  induction es as [|e es IH] using rev_ind; [cbn; split; [constructor|split; [constructor|split; [intros n v []|intros e []]]]|]. cbv zeta in *. rewrite fold_left_app. cbn [fold_left]. destruct (fold_left note_class es ([], 0)) as [m next]. cbn [fst snd] in IH. destruct IH as (D & D' & F & C). unfold note_class. destruct (find_text (event_class (e_kind e)) m) as [v|] eqn:E.
  - cbn [fst snd]. split; [exact D|]. split; [exact D'|]. split; [exact F|]. intros e' I. apply in_app_or in I. destruct I as [I|[<-|[]]]; [apply C, I|]. exists v. apply find_some; [exact D|exact E].
  - apply find_none in E. pose proof (store_new (event_class (e_kind e)) next m E) as P. cbn [fst snd]. split; [apply store_nodup; assumption|]. split; [|split].
    + eapply Permutation_NoDup; [apply Permutation_map, Permutation_sym, P|]. cbn [map snd]. constructor; [|exact D']. intros I. apply in_map_iff in I. destruct I as ([n v] & Q & I). cbn in Q. subst. apply F in I. lia.
    + intros n v H. apply (Permutation_in _ P) in H. destruct H as [H|H]; [injection H as _ <-; lia|apply F in H; lia].
    + intros e' I. apply in_app_or in I. destruct I as [I|[<-|[]]]; [destruct (C e' I) as [v H]; exists v|exists next]; apply (Permutation_in _ (Permutation_sym P)); [right; exact H|left; reflexivity].
Qed.

(** ** Names *)
Lemma type_injective k k' : event_type k = event_type k' -> k = k'.
Proof. destruct k as [[]|[]|], k' as [[]|[]|]; intros H; try reflexivity; discriminate H. Qed.
Lemma type_spoken k : event_type k = spoken k.
Proof. destruct k as [[]|[]|]; reflexivity. Qed.
Lemma class_spoken k : event_class k = in_lower (class_name k).
Proof. destruct k as [[]|[]|]; reflexivity. Qed.
Lemma segment_spoken e : segment_name (segment_of e) = work_name (work_of (e_kind e)).
Proof. destruct e as [[[]|[]|] s]; reflexivity. Qed.
Lemma stored s : as_stored s (bind_text s).
Proof. reflexivity. Qed.

(** ** Numbers *)
Lemma int64_time s : signed_time s (int64 s).
Proof.
  unfold int64, signed_time. pose proof (Z.mod_pos_bound s (2 ^ 64) ltac:(lia)) as B. pose proof (Z.div_mod s (2 ^ 64) ltac:(lia)) as D. set (m := s mod 2 ^ 64) in *. set (q := s / 2 ^ 64) in *. change (2 ^ 64) with 18446744073709551616 in *. change (2 ^ 63) with 9223372036854775808. destruct (m <? 9223372036854775808) eqn:E.
  - apply Z.ltb_lt in E. split; [lia|]. exists q. lia.
  - apply Z.ltb_ge in E. split; [lia|]. exists (q + 1). lia.
Qed.
Lemma int64_small z : 0 <= z < 2 ^ 63 -> int64 z = z.
Proof. intros H. unfold int64. rewrite Z.mod_small by lia. rewrite (proj2 (Z.ltb_lt z (2 ^ 63))) by lia. reflexivity. Qed.
Lemma int32_small z : 0 <= z < 2 ^ 31 -> int32 z = z.
Proof. intros H. unfold int32. rewrite Z.mod_small by lia. rewrite (proj2 (Z.ltb_lt z (2 ^ 31))) by lia. reflexivity. Qed.
Lemma time_unique s v v' : signed_time s v -> signed_time s v' -> v = v'.
Proof. unfold signed_time. change (2 ^ 64) with 18446744073709551616. change (2 ^ 63) with 9223372036854775808. intros [A [k E]] [B [k' E']]. lia. Qed.
