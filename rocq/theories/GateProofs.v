(** Proofs about completion detection. *)
From Coq Require Import ZArith List Bool Arith Lia Permutation.
From Verif Require Import Base ListFacts TreeModel TreeFacts GateModel GateSpec.
Import ListNotations.
Open Scope nat_scope.

(** ** Paths of a branch *)
Fixpoint paths (t : tree bool) (p : path) : list path :=
  match t with
  | T _ cs => p :: (fix go (w : nat) (cs : list (option (tree bool))) : list path :=
      match cs with [] => [] | None :: r => go (S w) r | Some c :: r => paths c (w :: p) ++ go (S w) r end) 0 cs
  end.
Fixpoint kpaths (p : path) (w : nat) (cs : list (option (tree bool))) : list path :=
  match cs with [] => [] | None :: r => kpaths p (S w) r | Some c :: r => paths c (w :: p) ++ kpaths p (S w) r end.
Lemma paths_eq : forall t p, paths t p = p :: kpaths p 0 (kids t).
Proof.
  intros [a cs] p. cbn [paths kids]. f_equal. generalize 0. induction cs as [|[c|] cs IH]; intros w; cbn [kpaths]; [reflexivity| |apply IH].
  rewrite IH. reflexivity.
Qed.

Lemma kpaths_in : forall p cs w q, In q (kpaths p w cs) <-> exists k c, nth_error cs k = Some (Some c) /\ In q (paths c (w + k :: p)).
Proof.
  intros p cs. induction cs as [|[c|] cs IH]; intros w q; cbn [kpaths].
  - split; [contradiction|]. intros (k & c & H & _). destruct k; discriminate.
  - rewrite in_app_iff, IH. split.
    + intros [H|(k & d & H & Hq)]; [exists 0, c|exists (S k), d]; rewrite ?Nat.add_0_r, ?Nat.add_succ_r; auto.
    + intros ([|k] & d & H & Hq); cbn [nth_error] in H; [injection H as ->; rewrite Nat.add_0_r in Hq; auto|].
      right. exists k, d. rewrite Nat.add_succ_r in Hq. auto.
  - rewrite IH. split.
    + intros (k & d & H & Hq). exists (S k), d. rewrite Nat.add_succ_r. auto.
    + intros ([|k] & d & H & Hq); cbn [nth_error] in H; [discriminate|]. exists k, d. rewrite Nat.add_succ_r in Hq. auto.
Qed.

Lemma kid_nth : forall A (t : tree A) w c, kid t w = Some c <-> nth_error (kids t) w = Some (Some c).
Proof. intros A t w c. unfold kid. destruct (nth_error (kids t) w) as [[d|]|]; split; intros H; inversion H; reflexivity. Qed.

Lemma paths_in : forall t p q, In q (paths t p) <-> exists l n, q = rev l ++ p /\ sub t l = Some n.
Proof.
  intros t. induction t as [a cs IH] using tree_ind'. intros p q. rewrite paths_eq. cbn [In]. rewrite kpaths_in. cbn [kids]. split.
  - intros [<-|(k & c & Hk & Hq)]; [exists [], (T a cs); auto|].
    apply (IH c (nth_error_In _ _ Hk)) in Hq. destruct Hq as (l & n & -> & Hs). exists (k :: l), n. cbn [rev]. rewrite <- app_assoc. cbn [app]. split; [rewrite Nat.add_0_l; reflexivity|].
    cbn [sub]. replace (kid (T a cs) k) with (Some c) by (symmetry; apply kid_nth; assumption). assumption.
  - intros ([|k l] & n & -> & Hs); [left; reflexivity|]. right. cbn [sub] in Hs. destruct (kid (T a cs) k) as [c|] eqn:K; [|discriminate].
    apply kid_nth in K. cbn [kids] in K. exists k, c. split; [assumption|]. apply (IH c (nth_error_In _ _ K)). exists l, n. cbn [rev]. rewrite <- app_assoc. auto.
Qed.

Lemma paths_below : forall t p q, In q (paths t p) -> below p q.
Proof. intros t p q H. apply paths_in in H. destruct H as (l & _ & -> & _). exists (rev l). reflexivity. Qed.

Lemma below_inj : forall (l m : path) a b p, a <> b -> l ++ a :: p <> m ++ b :: p.
Proof.
  intros l m a b p H E. apply (f_equal (@rev nat)) in E. rewrite !rev_app_distr in E. cbn [rev] in E. rewrite <- !app_assoc in E. apply app_inv_head in E. cbn [app] in E. congruence.
Qed.
Lemma below_strict : forall (l : path) a p, l ++ a :: p <> p.
Proof. intros l a p E. apply (f_equal (@length nat)) in E. rewrite app_length in E. cbn in E. lia. Qed.

Lemma NoDup_app_intro : forall A (l m : list A), NoDup l -> NoDup m -> (forall x, In x l -> In x m -> False) -> NoDup (l ++ m).
Proof.
  intros A l m Hl Hm D. induction l as [|a l IH]; [assumption|]. inversion Hl; subst. cbn. constructor.
  - rewrite in_app_iff. intros [X|X]; [contradiction|]. apply (D a); [left; reflexivity|assumption].
  - apply IH; [assumption|]. intros x X Y. apply (D x); [right; assumption|assumption].
Qed.

Lemma NoDup_app_disj : forall A (l m : list A), NoDup (l ++ m) -> forall x, In x l -> In x m -> False.
Proof.
  intros A l m H x X Y. induction l as [|a l IH]; [contradiction|]. inversion H; subst. destruct X as [->|X]; [apply H2; apply in_app_iff; auto|apply IH; assumption].
Qed.

Lemma kpaths_nodup : forall p cs w, (forall c, In (Some c) cs -> forall q, NoDup (paths c q)) -> NoDup (kpaths p w cs).
Proof.
  intros p cs. induction cs as [|[c|] cs IH]; intros w H; cbn [kpaths]; [constructor| |apply IH; intros; apply H; right; assumption].
  apply NoDup_app_intro; [apply H; left; reflexivity|apply IH; intros; apply H; right; assumption|].
  intros x X Y. apply kpaths_in in Y. destruct Y as (k & d & _ & Y). apply paths_below in X. apply paths_below in Y. destruct X as [l ->], Y as [m E].
  apply below_inj in E; [assumption|lia].
Qed.
Lemma paths_nodup : forall t p, NoDup (paths t p).
Proof.
  intros t. induction t as [a cs IH] using tree_ind'. intros p. rewrite paths_eq. constructor; [|apply kpaths_nodup; intros; apply IH; assumption].
  intros H. apply kpaths_in in H. destruct H as (k & d & _ & H). apply paths_below in H. destruct H as [l E]. symmetry in E. apply below_strict in E. assumption.
Qed.

(** ** Sums over pending actions *)
Definition sumf (f : act -> nat) (l : list act) : nat := list_sum (map f l).
Lemma sumf_app : forall f l m, sumf f (l ++ m) = sumf f l + sumf f m.
Proof. intros. unfold sumf. rewrite map_app, list_sum_app. reflexivity. Qed.
Lemma sumf_cons : forall f a l, sumf f (a :: l) = f a + sumf f l. Proof. reflexivity. Qed.
Lemma sumf_in : forall f a l, In a l -> f a <= sumf f l.
Proof. intros f a l. induction l as [|b l IH]; [contradiction|]. intros [<-|H]; rewrite sumf_cons; [lia|]. apply IH in H. lia. Qed.
Lemma sumf_pos : forall f l, 0 < sumf f l -> exists a, In a l /\ 0 < f a.
Proof.
  intros f l. induction l as [|b l IH]; [cbn; lia|]. rewrite sumf_cons. intros H. destruct (f b) eqn:E; [|exists b; split; [left; reflexivity|lia]].
  destruct IH as (a & Ha & Hf); [lia|]. exists a. split; [right; assumption|assumption].
Qed.

Definition waits (s : state) (p : path) : list act := match gates s p with Some g => waiting g | None => [] end.
Definition leftof (s : state) (p : path) : nat := match gates s p with Some g => left g | None => 0 end.
Definition goneof (s : state) (p : path) : nat := match gates s p with Some g => if gone g then 1 else 0 | None => 0 end.
Definition tot (f : act -> nat) (s : state) : nat := sumf f (acts s) + list_sum (map (fun p => sumf f (waits s p)) (created s)).

Lemma list_sum_le : forall A (f g : A -> nat) l, (forall x, In x l -> f x = g x) -> list_sum (map f l) = list_sum (map g l).
Proof. intros A f g l H. f_equal. apply map_ext_in. assumption. Qed.

Lemma list_sum_one : forall (f g : path -> nat) p l, NoDup l -> In p l -> (forall x, x <> p -> f x = g x) -> list_sum (map f l) + g p = list_sum (map g l) + f p.
Proof.
  intros f g p l Nd Hp H. induction l as [|a l IH]; [contradiction|]. inversion Nd; subst. change (f a + list_sum (map f l) + g p = g a + list_sum (map g l) + f p). destruct Hp as [->|Hp].
  - rewrite (list_sum_le _ f g l); [lia|]. intros x Hx. apply H. intros ->. contradiction.
  - specialize (IH H3 Hp). assert (a <> p) by (intros ->; contradiction). rewrite (H a) by assumption. lia.
Qed.

Lemma sum_pos_in : forall (f : path -> nat) l, 0 < list_sum (map f l) -> exists p, In p l /\ 0 < f p.
Proof.
  intros f l. induction l as [|a l IH]; [cbn; lia|]. change (0 < f a + list_sum (map f l) -> exists p, In p (a :: l) /\ 0 < f p). intros H.
  destruct (f a) eqn:E; [|exists a; split; [left; reflexivity|lia]]. destruct IH as (p & Hp & Hf); [lia|]. exists p. split; [right; assumption|assumption].
Qed.
Lemma sum_in : forall (f : path -> nat) p l, In p l -> f p <= list_sum (map f l).
Proof.
  intros f p l. induction l as [|a l IH]; [contradiction|]. change (list_sum (map f (a :: l))) with (f a + list_sum (map f l)). intros [<-|H]; [lia|]. apply IH in H. lia.
Qed.

Lemma tot_pos : forall f s, 0 < tot f s -> exists a, 0 < f a /\ (In a (acts s) \/ exists p, In p (created s) /\ In a (waits s p)).
Proof.
  intros f s H. unfold tot in H. destruct (sumf f (acts s)) eqn:E.
  - destruct (sum_pos_in (fun p => sumf f (waits s p)) (created s)) as (p & Hp & Hf); [lia|]. apply sumf_pos in Hf. destruct Hf as (a & Ha & Hf). exists a. split; [assumption|]. right. eauto.
  - destruct (sumf_pos f (acts s)) as (a & Ha & Hf); [lia|]. exists a. auto.
Qed.
Lemma tot_acts : forall f s a, In a (acts s) -> f a <= tot f s.
Proof. intros f s a H. apply (sumf_in f) in H. unfold tot. lia. Qed.
Lemma tot_waits : forall f s a p, In p (created s) -> In a (waits s p) -> f a <= tot f s.
Proof. intros f s a p Hp H. apply (sumf_in f) in H. pose proof (sum_in (fun q => sumf f (waits s q)) p (created s) Hp) as X. cbn beta in X. unfold tot. lia. Qed.

Lemma tot_push : forall f l s, tot f (push l s) = tot f s + sumf f l.
Proof.
  intros. change (tot f (push l s)) with (sumf f (acts s ++ l) + list_sum (map (fun p => sumf f (waits s p)) (created s))). rewrite sumf_app. unfold tot. lia.
Qed.
Lemma tot_take : forall f s l1 a l2, acts s = l1 ++ a :: l2 -> tot f s = tot f (take s (l1 ++ l2)) + f a.
Proof.
  intros f s l1 a l2 E. change (tot f (take s (l1 ++ l2))) with (sumf f (l1 ++ l2) + list_sum (map (fun p => sumf f (waits s p)) (created s))).
  unfold tot. rewrite E, !sumf_app, sumf_cons. lia.
Qed.
Lemma tot_put : forall f p g s, NoDup (created s) -> In p (created s) -> tot f (put p g s) + sumf f (waits s p) = tot f s + sumf f (waiting g).
Proof.
  intros f p g s Nd Hp. unfold tot. cbn [acts put created].
  pose proof (list_sum_one (fun q => sumf f (waits (put p g s) q)) (fun q => sumf f (waits s q)) p (created s) Nd Hp) as X. cbn beta in X.
  assert (E : waits (put p g s) p = waiting g) by (unfold waits; cbn [gates put]; destruct (path_dec p p); [reflexivity|congruence]). rewrite E in X.
  specialize (X ltac:(intros x Hx; unfold waits; cbn [gates put]; destruct (path_dec x p); [congruence|reflexivity])). lia.
Qed.
Lemma tot_new : forall f p s, ~ In p (created s) -> waits s p = [] -> tot f (note_created p (put p new_gate s)) = tot f s.
Proof.
  intros f p s Hp W. unfold tot. cbn [acts note_created put created]. rewrite map_app, list_sum_app. cbn [map list_sum fold_right].
  assert (E : waits (note_created p (put p new_gate s)) p = []) by (unfold waits; cbn [gates note_created put]; destruct (path_dec p p); [reflexivity|congruence]). rewrite E. cbn.
  rewrite (list_sum_le _ (fun q => sumf f (waits (note_created p (put p new_gate s)) q)) (fun q => sumf f (waits s q))).
  - lia.
  - intros x Hx. unfold waits. cbn [gates note_created put]. destruct (path_dec x p) as [->|]; [contradiction|reflexivity].
Qed.

(** ** The invariant *)
Definition one (p q : path) : nat := if path_dec p q then 1 else 0.
Lemma one_refl : forall p, one p p = 1. Proof. intros p. unfold one. destruct (path_dec p p); congruence. Qed.
Lemma one_neq : forall p q, p <> q -> one p q = 0. Proof. intros p q H. unfold one. destruct (path_dec p q); congruence. Qed.
Definition parent_one (p q : path) : nat := match p with [] => 0 | _ :: r => one r q end.

(** Inputs the action will still give to the gate of [q], also through what it starts. *)
Definition w (q : path) (a : act) : nat :=
  match a with
  | Run p _ => 8 * one p q + parent_one p q
  | Loop p _ todo => length todo * one p q
  | SetN p n => n * one p q
  | Signal c => parent_one c q
  | _ => 0
  end.
(** The one signal-then-delete of [c]. *)
Definition tk (c : path) (a : act) : nat :=
  match a with Run [] _ => 0 | Run p _ => one p c | Signal p | Delete p => one p c | _ => 0 end.
Definition sd (a : act) : nat := match a with WaitRoot | Send => 1 | _ => 0 end.
(** The nodes the action will still make, also through what it starts. *)
Definition future (a : act) : list path :=
  match a with Run p t => kpaths p 0 (kids t) | Loop p w todo => kpaths p w todo | _ => [] end.

Definition act_ok (s : state) (a : act) : Prop :=
  match a with
  | Run p t => branch t
  | Loop p w todo => forall c, In (Some c) todo -> branch c
  | SetN _ n => 0 < n
  | Signal c | Delete c => leftof s c = 0
  | Send => leftof s [] = 0
  | WaitRoot => True
  end.

Record Inv (R : tree bool) (s : state) : Prop := {
  v_nd : NoDup (created s);
  v_root : In [] (created s);
  v_par : forall x q, In (x :: q) (created s) -> In q (created s);
  v_gate : forall p, gates s p <> None <-> In p (created s);
  v_owed : forall q, tot (w q) s = leftof s q;
  v_tok : forall c, tot (tk c) s + goneof s c = if path_dec c [] then 0 else if in_dec path_dec c (created s) then 1 else 0;
  v_sd : tot sd s + sent s = 1;
  v_acts : forall a, In a (acts s) -> act_ok s a;
  v_gone : forall c, goneof s c = 1 -> leftof s c = 0;
  v_sent : 0 < sent s -> leftof s [] = 0;
  v_waits : forall p a, In a (waits s p) -> 0 < leftof s p /\ (a = Signal p \/ a = Send /\ p = []);
  v_future : Permutation (created s ++ flat_map future (acts s)) (paths R []);
  v_fnd : NoDup (fired s);
  v_fired : forall p, In p (fired s) <-> In p (created s) /\ leftof s p = 0 }.

Lemma flat_map_app' : forall A B (f : A -> list B) l m, flat_map f (l ++ m) = flat_map f l ++ flat_map f m.
Proof. intros. induction l; cbn; [reflexivity|]. rewrite IHl, app_assoc. reflexivity. Qed.

(** Replace one action by others. *)
Lemma inv_acts : forall R s l1 a l2 m, Inv R s -> acts s = l1 ++ a :: l2 ->
  (forall q, w q a = sumf (w q) m) -> (forall c, tk c a = sumf (tk c) m) -> sd a = sumf sd m ->
  Permutation (future a) (flat_map future m) -> (forall b, In b m -> act_ok s b) ->
  Inv R (push m (take s (l1 ++ l2))).
Proof.
  intros R s l1 a l2 m I E Hw Ht Hs Hf Ho. destruct I as [A1 A2 A3 A4 A5 A6 A7 A8 A9 A10 A11 A12 A13 A14].
  assert (T : forall f, tot f s = tot f (take s (l1 ++ l2)) + f a) by (intros; apply tot_take; assumption).
  constructor; try assumption.
  - intros q. rewrite tot_push. change (leftof (push m (take s (l1 ++ l2))) q) with (leftof s q). rewrite <- A5, T, Hw. reflexivity.
  - intros c. rewrite tot_push. change (goneof (push m (take s (l1 ++ l2))) c) with (goneof s c). cbn [created push take]. rewrite <- A6, T, Ht. reflexivity.
  - rewrite tot_push. cbn [sent push take]. rewrite <- A7, T, Hs. reflexivity.
  - intros b Hb. change (act_ok s b). cbn [acts push take] in Hb. apply in_app_iff in Hb. destruct Hb as [Hb|Hb]; [|apply Ho; assumption].
    apply A8. rewrite E. apply in_app_iff in Hb. apply in_app_iff. cbn [In]. tauto.
  - cbn [created acts push take]. etransitivity; [|exact A12]. apply Permutation_app_head. rewrite E, !flat_map_app'. cbn [flat_map].
    rewrite <- app_assoc. apply Permutation_app_head. rewrite Permutation_app_comm. apply Permutation_app_tail. symmetry. assumption.
Qed.

(** Attach one action to a gate that has not fired. *)
Lemma inv_wait : forall R s l1 a l2 m p g b, Inv R s -> acts s = l1 ++ a :: l2 -> gates s p = Some g -> 0 < left g -> gone g = false ->
  b = Signal p \/ b = Send /\ p = [] ->
  (forall q, w q a = w q b + sumf (w q) m) -> (forall c, tk c a = tk c b + sumf (tk c) m) -> sd a = sd b + sumf sd m ->
  Permutation (future a) (flat_map future m) -> (forall b, In b m -> act_ok s b) ->
  Inv R (push m (put p {| left := left g; waiting := waiting g ++ [b]; gone := false |} (take s (l1 ++ l2)))).
Proof.
  intros R s l1 a l2 m p g b I E G Hl Hg Hb Hw Ht Hs Hf Ho. destruct I as [A1 A2 A3 A4 A5 A6 A7 A8 A9 A10 A11 A12 A13 A14].
  assert (Hp : In p (created s)) by (apply A4; congruence).
  set (s1 := take s (l1 ++ l2)). set (g' := {| left := left g; waiting := waiting g ++ [b]; gone := false |}).
  assert (T : forall f, tot f s = tot f s1 + f a) by (intros; apply tot_take; assumption).
  assert (P : forall f, tot f (put p g' s1) = tot f s1 + f b).
  { intros f. pose proof (tot_put f p g' s1 A1 Hp) as X. unfold waits in X. change (gates s1 p) with (gates s p) in X. rewrite G in X. cbn [waiting g'] in X. rewrite sumf_app, sumf_cons in X. change (sumf f []) with 0 in X. lia. }
  assert (L : forall q, leftof (push m (put p g' s1)) q = leftof s q).
  { intros q. unfold leftof. cbn [gates push put]. destruct (path_dec q p) as [->|]; [rewrite G; reflexivity|reflexivity]. }
  assert (K : forall b, act_ok s b -> act_ok (push m (put p g' s1)) b) by (intros []; cbn [act_ok]; rewrite ?L; auto).
  constructor; try assumption.
  - intros q. cbn [gates push put created]. destruct (path_dec q p) as [->|]; [split; [intros; assumption|discriminate]|apply A4].
  - intros q. rewrite tot_push, P, L, <- A5, T, Hw. lia.
  - intros c. rewrite tot_push, P. replace (goneof (push m (put p g' s1)) c) with (goneof s c). { cbn [created push put]. rewrite <- A6, T, Ht. cbn [created s1 take]. lia. }
    unfold goneof. cbn [gates push put]. destruct (path_dec c p) as [->|]; [rewrite G, Hg; reflexivity|reflexivity].
  - rewrite tot_push, P. cbn [sent push put]. rewrite <- A7, T, Hs. cbn [sent s1 take]. lia.
  - intros d Hd. apply K. cbn [acts push put s1 take] in Hd. apply in_app_iff in Hd. destruct Hd as [Hd|Hd]; [|apply Ho; assumption].
    apply A8. rewrite E. apply in_app_iff in Hd. apply in_app_iff. cbn [In]. tauto.
  - intros c. rewrite L. unfold goneof. cbn [gates push put]. destruct (path_dec c p) as [->|]; [discriminate|]. apply A9.
  - rewrite L. assumption.
  - intros q d. rewrite L. unfold waits. cbn [gates push put]. destruct (path_dec q p) as [->|]; [|apply A11]. cbn [waiting g']. rewrite in_app_iff. cbn [In]. intros [Hd|[<-|[]]].
    + apply A11. unfold waits. rewrite G. assumption.
    + unfold leftof. rewrite G. auto.
  - cbn [created acts push put s1 take]. etransitivity; [|exact A12]. apply Permutation_app_head. rewrite E, !flat_map_app'. cbn [flat_map].
    rewrite <- app_assoc. apply Permutation_app_head. rewrite Permutation_app_comm. apply Permutation_app_tail. symmetry. assumption.
  - intros q. rewrite L. apply A14.
Qed.

(** Inputs to a gate. *)
Lemma inv_set : forall R s l1 a l2 m p n s', Inv R s -> acts s = l1 ++ a :: l2 -> 0 < n ->
  (forall q, w q a = n * one p q + sumf (w q) m) -> (forall c, tk c a = sumf (tk c) m) -> sd a = sumf sd m ->
  future a = [] -> flat_map future m = [] -> (forall b, In b m -> act_ok s b) ->
  (forall b, In b m -> match b with Delete _ => True | _ => False end) ->
  gate_set p n (take s (l1 ++ l2)) = Ok s' -> Inv R (push m s').
Proof.
  intros R s l1 a l2 m p n s' I E Hn Hw Ht Hs Hfa Hf Ho Hd H. destruct I as [A1 A2 A3 A4 A5 A6 A7 A8 A9 A10 A11 A12 A13 A14].
  set (s1 := take s (l1 ++ l2)) in *. unfold gate_set in H. change (gates s1 p) with (gates s p) in H. destruct (gates s p) as [g|] eqn:G; [|discriminate].
  destruct (gone g) eqn:Gg; [discriminate|]. destruct (Nat.ltb_spec (left g) n) as [|Hl]; [discriminate|].
  assert (Hp : In p (created s)) by (apply A4; congruence). assert (Lp : leftof s p = left g) by (unfold leftof; rewrite G; reflexivity).
  assert (T : forall f, tot f s = tot f s1 + f a) by (intros; apply tot_take; assumption).
  assert (F : Permutation (created s ++ flat_map future (l1 ++ l2)) (paths R [])).
  { etransitivity; [|exact A12]. rewrite E, !flat_map_app'. cbn [flat_map]. rewrite Hfa. reflexivity. }
  destruct (Nat.eqb_spec (left g) n) as [Eq|Ne]; injection H as <-.
  - set (g' := {| left := 0; waiting := []; gone := false |}). set (s2 := push m _).
    assert (P : forall f, tot f s2 = tot f s1 + sumf f m).
    { intros f. unfold s2. rewrite tot_push. change (tot f (note_fired p (push (waiting g) (put p g' s1)))) with (tot f (push (waiting g) (put p g' s1))). rewrite tot_push.
      pose proof (tot_put f p g' s1 A1 Hp) as X. unfold waits in X. change (gates s1 p) with (gates s p) in X. rewrite G in X. change (sumf f (waiting g')) with 0 in X. lia. }
    assert (L : forall q, leftof s2 q = if path_dec q p then 0 else leftof s q).
    { intros q. unfold leftof. cbn [gates s2 push put note_fired]. destruct (path_dec q p); reflexivity. }
    assert (K : forall b, act_ok s b -> act_ok s2 b) by (intros []; cbn [act_ok]; rewrite ?L; try destruct (path_dec _ p); auto).
    assert (W : forall b, In b (waiting g) -> act_ok s2 b /\ future b = []).
    { intros b Hb. destruct (A11 p b) as (X & [->|(-> & ->)]); [unfold waits; rewrite G; assumption| |]; cbn [act_ok future]; rewrite L; destruct (path_dec _ _); (split; [congruence|reflexivity]). }
    constructor; try assumption.
    + intros q. cbn [gates s2 push put note_fired created]. destruct (path_dec q p) as [->|]; [split; [intros; assumption|discriminate]|apply A4].
    + intros q. rewrite P, L. pose proof (A5 q) as X. rewrite T, Hw in X. destruct (path_dec q p) as [->|Nq]; [rewrite one_refl, Lp in X; lia|rewrite one_neq in X by congruence; lia].
    + intros c. rewrite P. replace (goneof s2 c) with (goneof s c). { cbn [created s2 push put note_fired]. specialize (A6 c). rewrite T, Ht in A6. exact A6. }
      unfold goneof. cbn [gates s2 push put note_fired]. destruct (path_dec c p) as [->|]; [rewrite G, Gg; reflexivity|reflexivity].
    + rewrite P. rewrite T, Hs in A7. exact A7.
    + intros d Hd'. cbn [acts s2 push put note_fired s1 take] in Hd'. apply in_app_iff in Hd'. destruct Hd' as [Hd'|Hd']; [|apply K; apply Ho; assumption].
      apply in_app_iff in Hd'. destruct Hd' as [Hd'|Hd']; [|apply W; assumption]. apply K. apply A8. rewrite E. apply in_app_iff in Hd'. apply in_app_iff. cbn [In]. tauto.
    + intros c. rewrite L. unfold goneof. cbn [gates s2 push put note_fired]. destruct (path_dec c p) as [->|]; [discriminate|]. apply A9.
    + cbn [sent s2 push put note_fired s1 take]. rewrite L. intros X. destruct (path_dec [] p); auto.
    + intros q d. rewrite L. unfold waits. cbn [gates s2 push put note_fired]. destruct (path_dec q p) as [->|]; [contradiction|]. apply A11.
    + cbn [created acts s2 push put note_fired s1 take]. rewrite !flat_map_app', Hf, app_nil_r. rewrite flat_map_app' in F. rewrite <- flat_map_app' in F |- *.
      assert (Z : flat_map future (waiting g) = []). { clear -W. induction (waiting g) as [|b l IH]; [reflexivity|]. cbn [flat_map]. rewrite (proj2 (W b (or_introl eq_refl))). apply IH. intros c Hc. apply W. right. assumption. }
      rewrite Z, app_nil_r. exact F.
    + cbn [fired s2 push put note_fired s1 take]. apply NoDup_app_intro; [assumption|constructor; [intros []|constructor]|]. intros x X [<-|[]]. apply A14 in X. destruct X as [_ X]. rewrite Lp in X. lia.
    + intros q. rewrite L. cbn [fired created s2 push put note_fired s1 take]. rewrite in_app_iff, A14. cbn [In]. destruct (path_dec q p) as [->|Nq]; [tauto|]. split; [intros [X|[X|[]]]; [assumption|congruence]|tauto].
  - set (g' := {| left := left g - n; waiting := waiting g; gone := false |}). set (s2 := push m _).
    assert (P : forall f, tot f s2 = tot f s1 + sumf f m).
    { intros f. unfold s2. rewrite tot_push. pose proof (tot_put f p g' s1 A1 Hp) as X. unfold waits in X. change (gates s1 p) with (gates s p) in X. rewrite G in X. cbn [waiting g'] in X. lia. }
    assert (L : forall q, leftof s2 q = if path_dec q p then left g - n else leftof s q).
    { intros q. unfold leftof. cbn [gates s2 push put]. destruct (path_dec q p); reflexivity. }
    assert (Z : forall q, leftof s q = 0 -> leftof s2 q = 0) by (intros q X; rewrite L; destruct (path_dec q p) as [->|]; [lia|assumption]).
    assert (K : forall b, act_ok s b -> act_ok s2 b) by (intros []; cbn [act_ok]; auto).
    constructor; try assumption.
    + intros q. cbn [gates s2 push put created]. destruct (path_dec q p) as [->|]; [split; [intros; assumption|discriminate]|apply A4].
    + intros q. rewrite P, L. pose proof (A5 q) as X. rewrite T, Hw in X. destruct (path_dec q p) as [->|Nq]; [rewrite one_refl, Lp in X; lia|rewrite one_neq in X by congruence; lia].
    + intros c. rewrite P. replace (goneof s2 c) with (goneof s c). { cbn [created s2 push put]. specialize (A6 c). rewrite T, Ht in A6. exact A6. }
      unfold goneof. cbn [gates s2 push put]. destruct (path_dec c p) as [->|]; [rewrite G, Gg; reflexivity|reflexivity].
    + rewrite P. rewrite T, Hs in A7. exact A7.
    + intros d Hd'. cbn [acts s2 push put s1 take] in Hd'. apply in_app_iff in Hd'. destruct Hd' as [Hd'|Hd']; [|apply K; apply Ho; assumption].
      apply K. apply A8. rewrite E. apply in_app_iff in Hd'. apply in_app_iff. cbn [In]. tauto.
    + intros c X. apply Z. apply A9. unfold goneof in *. cbn [gates s2 push put] in X. destruct (path_dec c p) as [->|]; [discriminate|]. exact X.
    + cbn [sent s2 push put s1 take]. auto.
    + intros q d. rewrite L. unfold waits. cbn [gates s2 push put]. destruct (path_dec q p) as [->|]; [|apply A11]. cbn [waiting g']. intros X. split; [lia|]. apply (A11 p d). unfold waits. rewrite G. assumption.
    + cbn [created acts s2 push put s1 take]. rewrite flat_map_app', Hf, app_nil_r. exact F.
    + intros q. rewrite L. cbn [fired created s2 push put s1 take]. rewrite A14. destruct (path_dec q p) as [->|Nq]; [rewrite Lp; split; intros [_ X]; lia|tauto].
Qed.

(** A new child. *)
Lemma inv_child : forall R s l1 l2 p k c todo, Inv R s -> acts s = l1 ++ Loop p k (Some c :: todo) :: l2 ->
  Inv R (push [Run (k :: p) c; Loop p (S k) todo] (note_created (k :: p) (put (k :: p) new_gate (take s (l1 ++ l2))))).
Proof.
  intros R s l1 l2 p k c todo I E. destruct I as [A1 A2 A3 A4 A5 A6 A7 A8 A9 A10 A11 A12 A13 A14].
  set (a := Loop p k (Some c :: todo)) in *. set (s1 := take s (l1 ++ l2)). set (s2 := push _ _). set (ch := k :: p).
  assert (T : forall f, tot f s = tot f s1 + f a) by (intros; apply tot_take; assumption).
  assert (Ha : In a (acts s)) by (rewrite E; apply in_app_iff; right; left; reflexivity).
  assert (Np : NoDup (created s ++ flat_map future (acts s))) by (eapply Permutation_NoDup; [symmetry; exact A12|apply paths_nodup]).
  assert (Fr : ~ In ch (created s)).
  { intros X. apply (NoDup_app_disj _ _ _ Np ch X). apply in_flat_map. exists a. split; [assumption|]. cbn [future a]. apply kpaths_in. exists 0, c. split; [reflexivity|]. rewrite Nat.add_0_r, paths_eq. left. reflexivity. }
  assert (Gn : gates s ch = None) by (destruct (gates s ch) eqn:G; [exfalso; apply Fr; apply A4; congruence|reflexivity]).
  assert (Wn : waits s1 ch = []) by (unfold waits; change (gates s1 ch) with (gates s ch); rewrite Gn; reflexivity).
  assert (Hp : In p (created s)).
  { apply A4. pose proof (A5 p) as X. pose proof (tot_acts (w p) s a Ha) as Y. cbn [w a length] in Y. rewrite one_refl in Y. unfold leftof in X. destruct (gates s p); [discriminate|lia]. }
  assert (P : forall f, tot f s2 = tot f s1 + f (Run ch c) + f (Loop p (S k) todo)).
  { intros f. unfold s2. rewrite tot_push. rewrite tot_new by assumption. rewrite !sumf_cons. change (sumf f []) with 0. fold ch. lia. }
  assert (L : forall q, leftof s2 q = if path_dec q ch then 8 else leftof s q).
  { intros q. unfold leftof. cbn [gates s2 push put note_created]. fold ch. destruct (path_dec q ch); reflexivity. }
  assert (L0 : leftof s ch = 0) by (unfold leftof; rewrite Gn; reflexivity).
  assert (B : branch c) by (apply (A8 a Ha); left; reflexivity).
  assert (Tk0 : tot (tk ch) s = 0). { pose proof (A6 ch) as X. destruct (path_dec ch []); [discriminate|]. destruct (in_dec path_dec ch (created s)); [contradiction|]. lia. }
  assert (K : forall b, In b (acts s) -> act_ok s2 b).
  { intros b Hb. pose proof (A8 b Hb) as X. destruct b; cbn [act_ok] in *; auto; rewrite L.
    - destruct (path_dec c0 ch) as [->|]; [|assumption]. pose proof (tot_acts (tk ch) s _ Hb) as Y. cbn [tk] in Y. rewrite one_refl in Y. lia.
    - destruct (path_dec c0 ch) as [->|]; [|assumption]. pose proof (tot_acts (tk ch) s _ Hb) as Y. cbn [tk] in Y. rewrite one_refl in Y. lia. }
  constructor; try assumption.
  - cbn [created s2 push put note_created s1 take]. fold ch. apply NoDup_app_intro; [assumption|constructor; [intros []|constructor]|]. intros x X [<-|[]]. contradiction.
  - cbn [created s2 push put note_created s1 take]. apply in_app_iff. left. assumption.
  - intros x q. cbn [created s2 push put note_created s1 take]. fold ch. rewrite !in_app_iff. cbn [In]. intros [X|[X|[]]]; [left; eapply A3; eassumption|]. injection X as <- <-. left. assumption.
  - intros q. cbn [gates s2 push put note_created created s1 take]. fold ch. rewrite in_app_iff. cbn [In]. destruct (path_dec q ch) as [->|N]; [split; [tauto|discriminate]|]. rewrite A4. split; [tauto|]. intros [X|[X|[]]]; [assumption|congruence].
  - intros q. rewrite P, L. pose proof (A5 q) as X. rewrite T in X. unfold a in X. cbn [w length] in *. change (parent_one ch q) with (one p q). destruct (path_dec q ch) as [->|Nq].
    + rewrite one_refl. rewrite L0 in X. rewrite (one_neq p ch) by (unfold ch; intros Y; apply (f_equal (@length nat)) in Y; cbn in Y; lia). lia.
    + rewrite (one_neq ch q) by congruence. lia.
  - intros q. rewrite P. cbn [created s2 push put note_created s1 take]. fold ch. pose proof (A6 q) as X. rewrite T in X. unfold a in X. cbn [tk] in X. change (tk q (Run ch c)) with (one ch q). cbn [tk].
    assert (Gq : goneof s2 q = goneof s q). { unfold goneof. cbn [gates s2 push put note_created]. fold ch. destruct (path_dec q ch) as [->|]; [rewrite Gn; reflexivity|reflexivity]. }
    rewrite Gq. revert X. destruct (path_dec q []) as [->|Nn]; [rewrite one_neq by discriminate; lia|].
    destruct (path_dec q ch) as [->|Nq].
    + rewrite one_refl. destruct (in_dec path_dec ch (created s)); [contradiction|]. match goal with |- context [if ?b then 1 else 0] => destruct b as [|Z] end; [lia|]. exfalso. apply Z. apply in_app_iff. right. left. reflexivity.
    + rewrite one_neq by congruence. destruct (in_dec path_dec q (created s)) as [Y|Y]; match goal with |- context [if ?b then 1 else 0] => destruct b as [Z|Z] end; try lia.
      * exfalso. apply Z. apply in_app_iff. tauto.
      * exfalso. apply in_app_iff in Z. destruct Z as [Z|[Z|[]]]; [contradiction|congruence].
  - rewrite P. rewrite T in A7. cbn [sd a] in A7. cbn [sd sent s2 push put note_created s1 take]. fold s1. lia.
  - intros b Hb. cbn [acts s2 push put note_created s1 take] in Hb. apply in_app_iff in Hb. destruct Hb as [Hb|[<-|[<-|[]]]].
    + apply K. rewrite E. apply in_app_iff in Hb. apply in_app_iff. cbn [In]. tauto.
    + exact B.
    + intros d Hd. apply (A8 a Ha). right. assumption.
  - intros q. rewrite L. unfold goneof. cbn [gates s2 push put note_created]. fold ch. destruct (path_dec q ch) as [->|]; [discriminate|]. apply A9.
  - intros q b. rewrite L. unfold waits. cbn [gates s2 push put note_created]. fold ch. destruct (path_dec q ch) as [->|]; [contradiction|]. apply A11.
  - cbn [created acts s2 push put note_created s1 take]. fold ch. etransitivity; [|exact A12]. rewrite E, !flat_map_app'. cbn [flat_map future a kpaths]. rewrite app_nil_r, paths_eq. fold ch.
    rewrite <- !app_assoc. apply Permutation_app_head. cbn [app].
    etransitivity; [|apply Permutation_middle]. constructor. apply Permutation_app_head.
    set (x := flat_map future l2). set (y := kpaths ch 0 (kids c)). set (z := kpaths p (S k) todo). rewrite (Permutation_app_comm x (y ++ z)). rewrite <- app_assoc. reflexivity.
  - intros q. rewrite L. cbn [fired created s2 push put note_created s1 take]. fold ch. rewrite in_app_iff, A14. cbn [In]. destruct (path_dec q ch) as [->|N]; [split; [intros [X _]; contradiction|intros [_ X]; lia]|].
    split; [tauto|]. intros [[X|[X|[]]] Y]; [tauto|congruence].
Qed.

(** The continuation that deletes the gate. *)
Lemma inv_delete : forall R s l1 c l2 g, Inv R s -> acts s = l1 ++ Delete c :: l2 -> gates s c = Some g -> gone g = false ->
  Inv R (put c {| left := left g; waiting := waiting g; gone := true |} (take s (l1 ++ l2))).
Proof.
  intros R s l1 c l2 g I E G Gg. destruct I as [A1 A2 A3 A4 A5 A6 A7 A8 A9 A10 A11 A12 A13 A14].
  set (s1 := take s (l1 ++ l2)). set (g' := {| left := left g; waiting := waiting g; gone := true |}). set (s2 := put c g' s1).
  assert (T : forall f, tot f s = tot f s1 + f (Delete c)) by (intros; apply tot_take; assumption).
  assert (Hc : In c (created s)) by (apply A4; congruence).
  assert (P : forall f, tot f s2 = tot f s1).
  { intros f. pose proof (tot_put f c g' s1 A1 Hc) as X. unfold waits in X. change (gates s1 c) with (gates s c) in X. rewrite G in X. cbn [waiting g'] in X. fold s2 in X. lia. }
  assert (L : forall q, leftof s2 q = leftof s q).
  { intros q. unfold leftof. cbn [gates s2 put]. destruct (path_dec q c) as [->|]; [rewrite G; reflexivity|reflexivity]. }
  assert (Ha : In (Delete c) (acts s)) by (rewrite E; apply in_app_iff; right; left; reflexivity).
  assert (K : forall b, act_ok s b -> act_ok s2 b) by (intros []; cbn [act_ok]; rewrite ?L; auto).
  constructor; try assumption.
  - intros q. cbn [gates s2 put created]. destruct (path_dec q c) as [->|]; [split; [intros; assumption|discriminate]|apply A4].
  - intros q. rewrite P, L, <- A5, T. cbn [w]. lia.
  - intros q. rewrite P. cbn [created s2 put s1 take]. rewrite <- A6, T. cbn [tk]. fold s1. unfold goneof. cbn [gates s2 put]. destruct (path_dec q c) as [->|N]; [rewrite G, Gg, one_refl; cbn [gone g']; lia|rewrite one_neq by congruence; change (gates s1 q) with (gates s q); lia].
  - rewrite P. rewrite T in A7. cbn [sd] in A7. cbn [sent s2 put s1 take]. fold s1. lia.
  - intros b Hb. apply K. apply A8. rewrite E. cbn [acts s2 put s1 take] in Hb. apply in_app_iff in Hb. apply in_app_iff. cbn [In]. tauto.
  - intros q. rewrite L. intros X. unfold goneof in X. cbn [gates s2 put] in X. destruct (path_dec q c) as [->|]; [exact (A8 _ Ha)|]. apply A9. exact X.
  - rewrite L. assumption.
  - intros q b. rewrite L. unfold waits. cbn [gates s2 put]. destruct (path_dec q c) as [->|]; [|apply A11]. cbn [waiting g']. intros X. apply A11. unfold waits. rewrite G. assumption.
  - cbn [created acts s2 put s1 take]. etransitivity; [|exact A12]. rewrite E, !flat_map_app'. reflexivity.
  - intros q. rewrite L. apply A14.
Qed.

Lemma inv_send : forall R s l1 l2, Inv R s -> acts s = l1 ++ Send :: l2 ->
  Inv R {| acts := l1 ++ l2; gates := gates s; created := created s; fired := fired s; sent := S (sent s) |}.
Proof.
  intros R s l1 l2 I E. destruct I as [A1 A2 A3 A4 A5 A6 A7 A8 A9 A10 A11 A12 A13 A14].
  assert (T : forall f, tot f s = tot f (take s (l1 ++ l2)) + f Send) by (intros; apply tot_take; assumption).
  set (s2 := {| acts := l1 ++ l2; gates := gates s; created := created s; fired := fired s; sent := S (sent s) |}).
  assert (P : forall f, tot f s2 = tot f (take s (l1 ++ l2))) by reflexivity.
  assert (Ha : In Send (acts s)) by (rewrite E; apply in_app_iff; right; left; reflexivity).
  constructor; try assumption.
  - intros q. rewrite P. change (leftof s2 q) with (leftof s q). rewrite <- A5, T. cbn [w]. lia.
  - intros q. rewrite P. change (goneof s2 q) with (goneof s q). change (created s2) with (created s). rewrite <- A6, T. cbn [tk]. lia.
  - rewrite P. rewrite T in A7. cbn [sd] in A7. cbn [sent s2]. lia.
  - intros b Hb. change (act_ok s b). apply A8. rewrite E. cbn [acts s2] in Hb. apply in_app_iff in Hb. apply in_app_iff. cbn [In]. tauto.
  - intros _. exact (A8 _ Ha).
  - cbn [created acts s2]. etransitivity; [|exact A12]. rewrite E, !flat_map_app'. reflexivity.
Qed.

Lemma inv_start : forall t, branch t -> Inv t (start t).
Proof.
  intros t B. constructor; cbn [start created acts fired sent].
  - constructor; [intros []|constructor].
  - left. reflexivity.
  - intros x q [X|[]]. discriminate.
  - intros p. cbn [gates start In]. destruct (path_dec p []) as [->|N]; split; auto; try discriminate; try congruence. intros [X|[]]; congruence.
  - intros q. unfold tot, leftof, waits. cbn [gates start acts created map]. destruct (path_dec [] []); [|congruence]. cbn [waiting new_gate]. unfold sumf. cbn [map w list_sum fold_right parent_one]. destruct (path_dec q []) as [->|N]; [rewrite one_refl|rewrite one_neq by congruence]; reflexivity.
  - intros c. unfold tot, goneof, waits. cbn [gates start acts created map]. destruct (path_dec [] []); [|congruence]. cbn [waiting new_gate]. unfold sumf. cbn [map tk list_sum fold_right].
    destruct (path_dec c []) as [->|N]; [reflexivity|]. destruct (in_dec path_dec c [[]]) as [[X|[]]|]; [congruence|reflexivity].
  - reflexivity.
  - intros a [<-|[<-|[]]]; [exact B|exact I].
  - intros c. unfold goneof. cbn [gates start]. destruct (path_dec c []); discriminate.
  - lia.
  - intros p a. unfold waits. cbn [gates start]. destruct (path_dec p []); contradiction.
  - cbn [app flat_map future]. rewrite app_nil_r, paths_eq. reflexivity.
  - constructor.
  - intros p. split; [contradiction|]. intros [[<-|[]] X]. unfold leftof in X. cbn [gates start] in X. destruct (path_dec [] []); [discriminate|congruence].
Qed.

Lemma branch_kid : forall t c, branch t -> In (Some c) (kids t) -> branch c.
Proof. intros t c B H p n S. apply in_kid in H. destruct H as [k K]. apply (B (k :: p) n). cbn [sub]. rewrite K. assumption. Qed.

(** Every pending action can be executed, and keeps the invariant. *)
Theorem inv_exec : forall R s l1 a l2, Inv R s -> acts s = l1 ++ a :: l2 -> exists s', exec a (take s (l1 ++ l2)) = Ok s' /\ Inv R s'.
Proof.
  intros R s l1 a l2 I E. set (s1 := take s (l1 ++ l2)).
  assert (Ha : In a (acts s)) by (rewrite E; apply in_app_iff; right; left; reflexivity).
  assert (Live : forall p n, 0 < n -> n <= w p a -> exists g, gates s p = Some g /\ gone g = false /\ n <= left g).
  { intros p n Hn Hw. pose proof (tot_acts (w p) s a Ha) as X. rewrite (v_owed _ _ I) in X. destruct (gates s p) as [g|] eqn:G; unfold leftof in X; rewrite G in X; [|lia]. exists g. split; [reflexivity|]. split; [|lia].
    destruct (gone g) eqn:Gg; [|reflexivity]. pose proof (v_gone _ _ I p) as Y. unfold goneof, leftof in Y. rewrite G, Gg in Y. specialize (Y eq_refl). lia. }
  pose proof (v_acts _ _ I a Ha) as Ok_. destruct a as [p t|p k todo|p n|c|c| |].
  - (* Run *) cbn [exec act_ok] in *. destruct p as [|x q].
    + cbn [attach bind]. destruct (Ok_ [] t eq_refl) as [H8 Hleaf]. destruct (info t) eqn:F; eexists; (split; [reflexivity|]); eapply inv_acts; try eassumption.
      * intros q. unfold sumf. cbn [map w list_sum fold_right parent_one]. lia.
      * intros c. reflexivity.
      * reflexivity.
      * cbn [future flat_map]. rewrite Hleaf by reflexivity. reflexivity.
      * intros b [<-|[]]. cbn. lia.
      * intros q. unfold sumf. cbn [map w list_sum fold_right parent_one]. rewrite H8. lia.
      * intros c. reflexivity.
      * reflexivity.
      * cbn [future flat_map]. rewrite app_nil_r. reflexivity.
      * intros b [<-|[]] c Hc. eapply branch_kid; eassumption.
    + destruct (Live q 1) as (gq & Gq & _); [lia|cbn [w parent_one]; rewrite one_refl; lia|].
      destruct (Live (x :: q) 8) as (g & G & Gg & Gl); [lia|cbn [w]; rewrite one_refl; lia|].
      cbn [attach]. change (gates s1 q) with (gates s q). rewrite Gq. unfold gate_wait. change (gates s1 (x :: q)) with (gates s (x :: q)). rewrite G, Gg. destruct (Nat.eqb_spec (left g) 0); [lia|]. cbn [bind].
      destruct (Ok_ [] t eq_refl) as [H8 Hleaf]. destruct (info t) eqn:F; eexists; (split; [reflexivity|]); eapply inv_wait; try eassumption; try lia.
      * left. reflexivity.
      * intros r. unfold sumf. cbn [map w list_sum fold_right parent_one]. lia.
      * intros c. unfold sumf. cbn [map tk list_sum fold_right]. lia.
      * reflexivity.
      * cbn [future flat_map]. rewrite Hleaf by reflexivity. reflexivity.
      * intros b [<-|[]]. cbn. lia.
      * left. reflexivity.
      * intros r. unfold sumf. cbn [map w list_sum fold_right parent_one]. rewrite H8. lia.
      * intros c. unfold sumf. cbn [map tk list_sum fold_right]. lia.
      * reflexivity.
      * cbn [future flat_map]. rewrite app_nil_r. reflexivity.
      * intros b [<-|[]] c Hc. eapply branch_kid; eassumption.
  - (* Loop *) destruct todo as [|[c|] todo].
    + exists s1. split; [reflexivity|]. replace s1 with (push [] s1) by (unfold push; rewrite app_nil_r; reflexivity). eapply inv_acts; try eassumption; try reflexivity. intros b [].
    + eexists. split; [reflexivity|]. apply inv_child; assumption.
    + eexists. split; [reflexivity|]. eapply inv_acts; try eassumption.
      * intros q. unfold sumf. cbn [map w list_sum fold_right length]. lia.
      * intros c. reflexivity.
      * reflexivity.
      * cbn [future flat_map kpaths]. rewrite app_nil_r. reflexivity.
      * intros b [<-|[<-|[]]]; cbn; [lia|]. intros c Hc. apply Ok_. right. assumption.
  - (* SetN *) cbn [act_ok] in Ok_. destruct (Live p n) as (g & G & Gg & Gl); [assumption|cbn [w]; rewrite one_refl; lia|]. cbn [exec].
    assert (X : exists s', gate_set p n s1 = Ok s').
    { unfold gate_set. change (gates s1 p) with (gates s p). rewrite G, Gg. destruct (Nat.ltb_spec (left g) n); [lia|]. destruct (left g =? n); eexists; reflexivity. }
    destruct X as [s' X]. exists s'. split; [assumption|]. replace s' with (push [] s') by (destruct s'; unfold push; cbn; rewrite app_nil_r; reflexivity).
    eapply inv_set; try eassumption; try reflexivity.
    + intros q. unfold sumf. cbn [map w list_sum fold_right]. lia.
    + intros b [].
    + intros b [].
  - (* Signal *) destruct c as [|x q].
    { pose proof (v_tok _ _ I []) as X. destruct (path_dec [] []); [|congruence]. pose proof (tot_acts (tk []) s _ Ha) as Y. cbn [tk] in Y. rewrite one_refl in Y. lia. }
    destruct (Live q 1) as (g & G & Gg & Gl); [lia|cbn [w parent_one]; rewrite one_refl; lia|]. cbn [exec].
    assert (X : exists s', gate_set q 1 s1 = Ok s').
    { unfold gate_set. change (gates s1 q) with (gates s q). rewrite G, Gg. destruct (Nat.ltb_spec (left g) 1); [lia|]. destruct (left g =? 1); eexists; reflexivity. }
    destruct X as [s' X]. rewrite X. cbn [bind]. eexists. split; [reflexivity|]. eapply (inv_set R s l1 (Signal (x :: q)) l2 [Delete (x :: q)] q 1); try eassumption; try reflexivity; try lia.
    + intros r. unfold sumf. cbn [map w list_sum fold_right parent_one]. lia.
    + intros r. unfold sumf. cbn [map tk list_sum fold_right]. lia.
    + intros b [<-|[]]. exact Ok_.
    + intros b [<-|[]]. exact Logic.I.
  - (* Delete *) pose proof (v_tok _ _ I c) as X. pose proof (tot_acts (tk c) s _ Ha) as Y. cbn [tk] in Y. rewrite one_refl in Y.
    destruct (path_dec c []); [lia|]. destruct (in_dec path_dec c (created s)) as [Hc|]; [|lia]. apply (v_gate _ _ I) in Hc. destruct (gates s c) as [g|] eqn:G; [|congruence].
    cbn [exec]. change (gates s1 c) with (gates s c). rewrite G. destruct (gone g) eqn:Gg; [unfold goneof in X; rewrite G, Gg in X; lia|].
    eexists. split; [reflexivity|]. eapply inv_delete; eassumption.
  - (* WaitRoot *) pose proof (v_root _ _ I) as Hr. apply (v_gate _ _ I) in Hr. destruct (gates s []) as [g|] eqn:G; [|congruence].
    pose proof (v_tok _ _ I []) as X. destruct (path_dec [] []); [|congruence]. cbn [exec]. unfold gate_wait. change (gates s1 []) with (gates s []). rewrite G.
    destruct (gone g) eqn:Gg; [unfold goneof in X; rewrite G, Gg in X; lia|]. destruct (Nat.eqb_spec (left g) 0) as [Z|Z].
    + eexists. split; [reflexivity|]. eapply inv_acts; try eassumption; try reflexivity. intros b [<-|[]]. cbn [act_ok]. unfold leftof. rewrite G. assumption.
    + eexists. split; [reflexivity|]. replace (put [] _ s1) with (push [] (put [] {| left := left g; waiting := waiting g ++ [Send]; gone := false |} s1)) by (unfold push; cbn [acts]; rewrite app_nil_r; reflexivity).
      apply (inv_wait R s l1 WaitRoot l2 [] [] g Send); try assumption; try reflexivity; try lia; try (intros b []); try (right; auto).
  - (* Send *) eexists. split; [reflexivity|]. exact (inv_send R s l1 l2 I E).
Qed.

Theorem inv_runs : forall t n s, branch t -> gruns n (start t) s -> Inv t s.
Proof.
  intros t n s B H. remember (start t) as s0 eqn:E0. induction H as [|n s0 s s' H IH St]; subst; [apply inv_start; assumption|].
  specialize (IH eq_refl). destruct St as [s s' l1 a l2 E X]. destruct (inv_exec t s l1 a l2 IH E) as (s2 & Y & Z). rewrite X in Y. injection Y as <-. assumption.
Qed.

(** ** Consequences *)
Section Conseq.
Variable R : tree bool.
Variable s : state.
Hypothesis I : Inv R s.

Lemma waits_created : forall p a, In a (waits s p) -> In p (created s).
Proof. intros p a H. apply (v_gate _ _ I). unfold waits in H. destruct (gates s p); [discriminate|contradiction]. Qed.

(** A node that is not complete keeps its parent from being complete. *)
Lemma incomplete_up : forall x q, In (x :: q) (created s) -> 0 < leftof s (x :: q) -> 0 < leftof s q.
Proof.
  intros x q Hc Hl. pose proof (v_tok _ _ I (x :: q)) as T. destruct (path_dec (x :: q) []); [discriminate|]. destruct (in_dec path_dec (x :: q) (created s)); [|contradiction].
  assert (G : goneof s (x :: q) = 0). { destruct (goneof s (x :: q)) as [|[|n']] eqn:E; [reflexivity| |lia]. apply (v_gone _ _ I) in E. lia. }
  destruct (tot_pos (tk (x :: q)) s) as (a & Ha & W); [lia|]. rewrite <- (v_owed _ _ I q).
  assert (D : forall c, 0 < one c (x :: q) -> c = x :: q) by (intros c; unfold one; destruct (path_dec c (x :: q)); [auto|lia]).
  assert (P : 0 < w q a \/ leftof s (x :: q) = 0).
  { destruct W as [W|(p & Hp & W)].
    - pose proof (v_acts _ _ I a W) as O. destruct a as [[|y p] t| | |c|c| |]; cbn [tk act_ok w] in *; try lia; try (apply D in Ha; subst).
      + injection Ha as -> ->. left. cbn [parent_one]. rewrite one_refl. lia.
      + right. assumption.
      + right. assumption.
    - destruct (v_waits _ _ I p a W) as (_ & [->|(-> & _)]); [|cbn in Ha; lia]. cbn [tk] in Ha. apply D in Ha. subst. left. cbn [w parent_one]. rewrite one_refl. lia. }
  destruct P as [P|P]; [|lia]. destruct W as [W|(p & Hp & W)]; [pose proof (tot_acts (w q) s a W)|pose proof (tot_waits (w q) s a p Hp W)]; lia.
Qed.

Lemma created_up : forall l q, In (l ++ q) (created s) -> In q (created s).
Proof. induction l as [|x l IH]; intros q H; [assumption|]. apply IH. eapply (v_par _ _ I). exact H. Qed.

Lemma complete_down : forall l q, In (l ++ q) (created s) -> leftof s q = 0 -> leftof s (l ++ q) = 0.
Proof.
  induction l as [|x l IH]; intros q Hc Hq; [assumption|]. cbn [app] in *. pose proof (v_par _ _ I _ _ Hc) as Hp. specialize (IH q Hp Hq).
  destruct (leftof s (x :: l ++ q)) eqn:E; [reflexivity|]. pose proof (incomplete_up x (l ++ q) Hc) as X. lia.
Qed.

Lemma busy : forall p a, In a (acts s) -> partitioning p a -> 0 < leftof s p /\ In p (created s).
Proof.
  intros p a Ha Hp. assert (L : 0 < leftof s p).
  { rewrite <- (v_owed _ _ I). pose proof (tot_acts (w p) s a Ha) as X. destruct a; cbn [partitioning] in Hp; try contradiction.
    - subst. cbn [w] in X. rewrite one_refl in X. lia.
    - destruct Hp as [-> Hp]. cbn [w] in X. rewrite one_refl in X. destruct todo; [congruence|]. cbn [length] in X. lia. }
  split; [assumption|]. apply (v_gate _ _ I). unfold leftof in L. destruct (gates s p); [discriminate|lia].
Qed.

Lemma future_of : forall a q, In q (future a) -> exists p, partitioning p a /\ exists l x, q = l ++ x :: p.
Proof.
  intros a q H. destruct a as [p t|p k todo| | | | |]; cbn [future] in H; try contradiction; exists p; (split; [cbn [partitioning]|]).
  - reflexivity.
  - apply kpaths_in in H. destruct H as (k & c & _ & H). apply paths_below in H. destruct H as [l ->]. eauto.
  - split; [reflexivity|]. intros ->. contradiction.
  - apply kpaths_in in H. destruct H as (j & c & _ & H). apply paths_below in H. destruct H as [l ->]. eauto.
Qed.

(** A future node's ancestors below the working node are future too. *)
Lemma future_mid : forall a p q r, partitioning p a -> In q (future a) -> below r q -> (exists l x, r = l ++ x :: p) -> In r (future a).
Proof.
  assert (M : forall p k cs q r, In q (kpaths p k cs) -> below r q -> (exists l x, r = l ++ x :: p) -> In r (kpaths p k cs)).
  { intros p k cs q r H (m & ->) (l & x & ->). apply kpaths_in in H. destruct H as (j & c & Hj & H). apply kpaths_in. exists j, c. split; [assumption|].
    apply paths_in in H. destruct H as (l' & n & E & Hs). assert (X : x = k + j).
    { destruct (Nat.eq_dec x (k + j)) as [|N]; [assumption|]. rewrite app_assoc in E. exfalso. exact (below_inj _ _ _ _ _ N E). }
    subst x. rewrite app_assoc in E. apply app_inv_tail in E. apply paths_in. exists (rev l). rewrite rev_involutive.
    assert (E' : l' = rev l ++ rev m) by (rewrite <- rev_app_distr, E, rev_involutive; reflexivity). rewrite E', sub_app in Hs. destruct (sub c (rev l)) as [n'|]; [|discriminate]. exists n'. auto. }
  intros a p q r Hp Hq Hb Hr. destruct a; cbn [partitioning future] in *; try contradiction; [subst; eapply M; eassumption|destruct Hp as [-> _]; eapply M; eassumption].
Qed.

Lemma below_comparable : forall (p r q : path), below p q -> below r q -> below p r \/ (exists l x, p = l ++ x :: r).
Proof.
  intros p r q (l & ->) (m & E). revert m E. induction l as [|x l IH]; intros m E.
  - cbn [app] in E. subst. destruct m as [|y m] using rev_ind; [left; exists []; reflexivity|]. right. exists m, y. rewrite <- app_assoc. reflexivity.
  - destruct m as [|y m]; cbn [app] in E; [subst; left; exists (x :: l); reflexivity|]. injection E as -> E. apply (IH m). assumption.
Qed.

(** Complete means: the whole branch below is there and nothing of it is in progress. *)
Theorem complete_all : forall p, In p (created s) -> leftof s p = 0 -> forall q, node_of R q -> below p q ->
  In q (created s) /\ leftof s q = 0 /\ forall a, In a (acts s) -> ~ partitioning q a.
Proof.
  intros p Hp Hl q Hq Hb.
  assert (Hc : In q (created s)).
  { assert (X : In q (created s ++ flat_map future (acts s))).
    { apply (Permutation_in q (Permutation_sym (v_future _ _ I))). apply paths_in. destruct Hq as [n Hq]. exists (rev q), n. rewrite rev_involutive, app_nil_r. auto. }
    apply in_app_iff in X. destruct X as [X|X]; [assumption|]. exfalso. apply in_flat_map in X. destruct X as (a & Ha & X).
    destruct (future_of a q X) as (r & Hr & Sr). destruct (busy r a Ha Hr) as [Lr Cr].
    assert (Br : below r q) by (destruct Sr as (l & x & ->); exists (l ++ [x]); rewrite <- app_assoc; reflexivity).
    destruct (below_comparable p r q Hb Br) as [Q|Q].
    - destruct Q as [l ->]. rewrite (complete_down l p) in Lr by assumption. lia.
    - apply (NoDup_app_disj _ (created s) (flat_map future (acts s))) with (x := p); [|assumption|].
      + eapply Permutation_NoDup; [symmetry; exact (v_future _ _ I)|apply paths_nodup].
      + apply in_flat_map. exists a. split; [assumption|]. eapply future_mid; eassumption. }
  split; [assumption|]. destruct Hb as [l ->]. assert (L : leftof s (l ++ p) = 0) by (apply complete_down; assumption). split; [assumption|].
  intros a Ha Hw. destruct (busy _ a Ha Hw). lia.
Qed.

Lemma created_nodes : forall q, In q (created s) -> node_of R q.
Proof.
  intros q H. assert (X : In q (paths R [])) by (apply (Permutation_in q (v_future _ _ I)); apply in_app_iff; left; assumption).
  apply paths_in in X. destruct X as (l & n & -> & Hs). exists n. rewrite app_nil_r, rev_involutive. assumption.
Qed.

Hypothesis Fin : acts s = [].

Lemma final_left : forall q, leftof s q = 0.
Proof.
  assert (H : forall n q, list_max (map (@length nat) (created s)) < length q + n -> leftof s q = 0).
  { induction n as [|n IH]; intros q Hn.
    - destruct (leftof s q) eqn:E; [reflexivity|]. assert (Hq : In q (created s)) by (apply (v_gate _ _ I); unfold leftof in E; destruct (gates s q); [discriminate|lia]).
      pose proof (proj1 (list_max_le (map (@length nat) (created s)) _) (le_n _)) as X. rewrite Forall_forall in X. specialize (X (length q) (in_map _ _ _ Hq)). lia.
    - destruct (leftof s q) eqn:E; [reflexivity|]. rewrite <- (v_owed _ _ I q) in E. destruct (tot_pos (w q) s) as (a & Ha & [W|(p & Hp & W)]); [lia|rewrite Fin in W; contradiction|].
      destruct (v_waits _ _ I p a W) as (L & [->|(-> & _)]); [|cbn in Ha; lia]. cbn [w] in Ha. destruct p as [|x r]; cbn [parent_one] in Ha; [lia|].
      assert (r = q) by (unfold one in Ha; destruct (path_dec r q); [assumption|lia]). subst r. rewrite (IH (x :: q)) in L; [lia|cbn [length]; lia]. }
  intros q. apply (H (S (list_max (map (@length nat) (created s))))). lia.
Qed.

Lemma final_tot : forall f, tot f s = 0.
Proof.
  intros f. destruct (tot f s) eqn:E; [reflexivity|]. destruct (tot_pos f s) as (a & Ha & [W|(p & Hp & W)]); [lia|rewrite Fin in W; contradiction|].
  apply (v_waits _ _ I) in W. rewrite final_left in W. lia.
Qed.

Theorem final_all : Permutation (fired s) (created s) /\ (forall q, In q (created s) <-> node_of R q) /\ sent s = 1 /\ (forall q, In q (created s) -> q <> [] -> goneof s q = 1).
Proof.
  split; [|split; [|split]].
  - apply NoDup_Permutation; [apply (v_fnd _ _ I)|apply (v_nd _ _ I)|]. intros q. rewrite (v_fired _ _ I). split; [tauto|]. intros H. split; [assumption|apply final_left].
  - intros q. split; [apply created_nodes|]. intros H. apply (complete_all [] (v_root _ _ I) (final_left _) q H). exists q. rewrite app_nil_r. reflexivity.
  - pose proof (v_sd _ _ I) as X. rewrite final_tot in X. lia.
  - intros q Hq Hn. pose proof (v_tok _ _ I q) as X. rewrite final_tot in X. destruct (path_dec q []); [congruence|]. destruct (in_dec path_dec q (created s)); [lia|contradiction].
Qed.
End Conseq.

(** ** Every schedule is finite *)
Fixpoint tweight (t : tree bool) : nat :=
  match t with T _ cs => 4 + list_sum (map (fun o => match o with None => 2 | Some c => S (tweight c) end) cs) end.
Definition kweight (cs : list (option (tree bool))) : nat := list_sum (map (fun o => match o with None => 2 | Some c => S (tweight c) end) cs).
Lemma tweight_eq : forall t, tweight t = 4 + kweight (kids t). Proof. intros []. reflexivity. Qed.
Definition weight (a : act) : nat :=
  match a with
  | Run _ t => tweight t
  | Loop _ _ todo => 1 + kweight todo
  | SetN _ _ => 1 | Signal _ => 2 | Delete _ => 1 | WaitRoot => 2 | Send => 1
  end.

Lemma gate_set_tot : forall R f s p n s1 l s', Inv R s -> s1 = take s l -> gate_set p n s1 = Ok s' -> tot f s' = tot f s1.
Proof.
  intros R f s p n s1 l s' I -> H. unfold gate_set in H. change (gates (take s l) p) with (gates s p) in H. destruct (gates s p) as [g|] eqn:G; [|discriminate].
  destruct (gone g); [discriminate|]. destruct (left g <? n); [discriminate|].
  assert (Hp : In p (created s)) by (apply (v_gate _ _ I); congruence).
  assert (X : forall g', tot f (put p g' (take s l)) + sumf f (waiting g) = tot f (take s l) + sumf f (waiting g')).
  { intros g'. pose proof (tot_put f p g' (take s l) (v_nd _ _ I) Hp) as X. unfold waits in X. change (gates (take s l) p) with (gates s p) in X. rewrite G in X. exact X. }
  destruct (left g =? n); injection H as <-.
  - set (g' := {| left := 0; waiting := []; gone := false |}). change (tot f (note_fired p (push (waiting g) (put p g' (take s l))))) with (tot f (push (waiting g) (put p g' (take s l)))). rewrite tot_push. specialize (X g'). change (sumf f (waiting g')) with 0 in X. lia.
  - set (g' := {| left := left g - n; waiting := waiting g; gone := false |}). specialize (X g'). cbn [waiting g'] in X. lia.
Qed.

Lemma gate_wait_tot : forall R f s p a s1 l s', Inv R s -> s1 = take s l -> gate_wait p a s1 = Ok s' -> tot f s' = tot f s1 + f a.
Proof.
  intros R f s p a s1 l s' I -> H. unfold gate_wait in H. change (gates (take s l) p) with (gates s p) in H. destruct (gates s p) as [g|] eqn:G; [|discriminate].
  destruct (gone g); [discriminate|]. assert (Hp : In p (created s)) by (apply (v_gate _ _ I); congruence).
  destruct (left g =? 0); injection H as <-.
  - rewrite tot_push. unfold sumf. cbn. lia.
  - set (g' := {| left := left g; waiting := waiting g ++ [a]; gone := false |}). pose proof (tot_put f p g' (take s l) (v_nd _ _ I) Hp) as X. unfold waits in X. change (gates (take s l) p) with (gates s p) in X. rewrite G in X. cbn [waiting g'] in X. rewrite sumf_app, sumf_cons in X. change (sumf f []) with 0 in X. lia.
Qed.

Lemma step_weight : forall R s s', Inv R s -> gstep s s' -> tot weight s' < tot weight s.
Proof.
  intros R s s' I St. destruct St as [s s' l1 a l2 E H]. rewrite (tot_take weight s l1 a l2 E). remember (take s (l1 ++ l2)) as s1 eqn:E1.
  assert (Gs : forall p n s2, gate_set p n s1 = Ok s2 -> tot weight s2 = tot weight s1) by (intros; eapply gate_set_tot; eassumption).
  assert (Gw : forall p b s2, gate_wait p b s1 = Ok s2 -> tot weight s2 = tot weight s1 + weight b) by (intros; eapply gate_wait_tot; eassumption).
  destruct a as [p t|p k todo|p n|c|c| |]; cbn [exec] in H.
  - destruct (attach p s1) as [s2|] eqn:A; [|discriminate]. cbn [bind] in H.
    assert (T : tot weight s2 <= tot weight s1 + 2).
    { unfold attach in A. destruct p as [|x q]; [injection A as <-; lia|]. destruct (gates s1 q); [|injection A as <-; lia]. rewrite (Gw _ _ _ A). cbn. lia. }
    cbn [weight]. rewrite tweight_eq. destruct (info t); injection H as <-; rewrite tot_push; unfold sumf; cbn [map weight list_sum fold_right]; lia.
  - destruct todo as [|[c|] todo]; injection H as <-.
    + cbn. lia.
    + assert (Ch : In (Loop p k (Some c :: todo)) (acts s)) by (rewrite E; apply in_app_iff; right; left; reflexivity).
      assert (Np : NoDup (created s ++ flat_map future (acts s))) by (eapply Permutation_NoDup; [symmetry; exact (v_future _ _ I)|apply paths_nodup]).
      assert (Fr : ~ In (k :: p) (created s)).
      { intros X. apply (NoDup_app_disj _ _ _ Np (k :: p) X). apply in_flat_map. eexists. split; [exact Ch|]. cbn [future]. apply kpaths_in. exists 0, c. split; [reflexivity|]. rewrite Nat.add_0_r, paths_eq. left. reflexivity. }
      rewrite tot_push, tot_new.
      * unfold sumf. cbn [map weight list_sum fold_right kweight]. unfold kweight. cbn [map list_sum fold_right]. unfold list_sum. lia.
      * subst s1. exact Fr.
      * subst s1. unfold waits. cbn [gates take]. destruct (gates s (k :: p)) eqn:G; [|reflexivity]. exfalso. apply Fr. apply (v_gate _ _ I). congruence.
    + rewrite tot_push. unfold sumf. cbn [map weight list_sum fold_right kweight]. unfold kweight. cbn [map list_sum fold_right]. unfold list_sum. lia.
  - rewrite (Gs _ _ _ H). cbn. lia.
  - destruct c as [|x q]; [discriminate|]. destruct (gate_set q 1 s1) as [s2|] eqn:G; [|discriminate]. cbn [bind] in H. injection H as <-. rewrite tot_push, (Gs _ _ _ G). unfold sumf. cbn. lia.
  - destruct (gates s1 c) as [g|] eqn:G; [|discriminate]. destruct (gone g) eqn:Gg; [discriminate|]. injection H as <-.
    assert (G' : gates s c = Some g) by (subst s1; exact G). assert (Hp : In c (created s1)) by (subst s1; apply (v_gate _ _ I); congruence).
    pose proof (tot_put weight c {| left := left g; waiting := waiting g; gone := true |} s1) as X. unfold waits in X. rewrite G in X. cbn [waiting] in X. specialize (X ltac:(subst s1; exact (v_nd _ _ I)) Hp). cbn [weight]. lia.
  - rewrite (Gw _ _ _ H). cbn. lia.
  - injection H as <-. cbn [weight]. match goal with |- tot weight ?x < _ => change (tot weight x) with (tot weight s1) end. lia.
Qed.

Theorem runs_bounded : forall t n s, branch t -> gruns n (start t) s -> n + tot weight s <= tot weight (start t).
Proof.
  intros t n s B H. remember (start t) as s0 eqn:E0. induction H as [|n s0 s s' H IH St]; subst; [lia|].
  specialize (IH eq_refl). pose proof (step_weight t s s' (inv_runs t n s B H) St). lia.
Qed.
