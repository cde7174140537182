(** The values an evaluation computes; orders of acyclic graphs. *)
From Coq Require Import ZArith List Bool Arith Lia Permutation ListDec.
From Verif Require Import Base ListFacts LookupModel DagModel DagSpec EdgeGroupModel EdgeGroupSpec LinkModel LinkSpec EvalModel EvalSpec EvalProofs.
Import ListNotations.
Open Scope Z_scope.

(** ** Acyclic graphs have an order *)
Section Order.
Context (E : list edge).
Lemma chain_join : forall l1 a l2 b, chain E a (l1 ++ l2) b <-> exists c, chain E a l1 c /\ chain E c l2 b.
Proof.
  induction l1 as [|e l1 IH]; intros a l2 b; cbn [app chain]; [split; [intros H; exists a; auto|intros (c & -> & H); exact H]|]. split.
  - intros (H1 & H2 & H3). apply IH in H3. destruct H3 as (c & A & B). exists c. auto.
  - intros (c & (H1 & H2 & H3) & H4). split; [exact H1|]. split; [exact H2|]. apply IH. eauto.
Qed.
Lemma chain_incl : forall es a b, chain E a es b -> incl es E.
Proof. induction es as [|e es IH]; intros a b H x J; [destruct J|]. destruct H as (H1 & _ & H3). destruct J as [<-|J]; [exact H1|exact (IH _ _ H3 x J)]. Qed.
Lemma twice : forall l : list edge, ~ NoDup l -> exists x l1 l2 l3, l = l1 ++ x :: l2 ++ x :: l3.
Proof.
  induction l as [|x l IH]; intros N; [destruct N; constructor|]. destruct (in_dec edge_dec x l) as [J|J].
  - apply in_split in J. destruct J as (a & b & ->). exists x, [], a, b. reflexivity.
  - destruct IH as (y & l1 & l2 & l3 & ->); [intros U; apply N; constructor; assumption|]. exists y, (x :: l1), l2, l3. reflexivity.
Qed.
Lemma chain_bound : no_cycle E -> forall es a b, chain E a es b -> (length es <= length E)%nat.
Proof.
  intros N es a b C. destruct (NoDup_dec edge_dec es) as [U|U]; [apply NoDup_incl_length; [exact U|exact (chain_incl _ _ _ C)]|]. exfalso. apply twice in U. destruct U as (x & l1 & l2 & l3 & ->).
  apply chain_join in C. destruct C as (c & _ & C). change (x :: l2 ++ x :: l3) with ((x :: l2) ++ x :: l3) in C. apply chain_join in C. destruct C as (d & C1 & C2). destruct C1 as (I1 & <- & C1). destruct C2 as (_ & <- & _). assert (X : x :: l2 = []) by (eapply N; cbn; eauto). discriminate.
Qed.
Fixpoint depth (k : nat) (v : dnode) : nat := match k with O => 0 | S k' => list_max (map (fun e => S (depth k' (efrom e))) (into v E)) end.
Lemma list_max_in : forall l, l <> [] -> In (list_max l) l.
Proof. induction l as [|x l IH]; intros N; [contradiction|]. destruct l as [|y l]; [cbn; left; lia|]. assert (M := IH ltac:(discriminate)). change (list_max (x :: y :: l)) with (Nat.max x (list_max (y :: l))). destruct (Nat.max_spec x (list_max (y :: l))) as [[_ ->]|[_ ->]]; [right; exact M|left; reflexivity]. Qed.
Lemma depth_chain : forall k v, exists a es, chain E a es v /\ length es = depth k v.
Proof.
  induction k as [|k IH]; intros v; [exists v, []; split; reflexivity|]. cbn [depth]. destruct (into v E) as [|e l] eqn:Q; [exists v, []; split; reflexivity|]. rewrite <- Q. assert (J := list_max_in (map (fun e => S (depth k (efrom e))) (into v E))). rewrite Q in J at 1. specialize (J ltac:(discriminate)). apply in_map_iff in J. destruct J as (x & Ex & Jx). rewrite <- Ex. destruct (IH (efrom x)) as (a & es & C & L). exists a, (es ++ [x]). split; [|rewrite app_length; cbn; lia]. apply chain_join. exists (efrom x). split; [exact C|]. apply filter_In in Jx. destruct Jx as [J1 J2]. cbn. destruct (dnode_dec (eto x) v); [auto|discriminate].
Qed.
Lemma depth_ge : forall k v a es, chain E a es v -> (length es <= k)%nat -> (length es <= depth k v)%nat.
Proof.
  induction k as [|k IH]; intros v a es C L; [lia|]. destruct es as [|e es _] using rev_ind; [cbn; lia|]. apply chain_join in C. destruct C as (c & C1 & (I1 & <- & C2)). cbn in C2. subst v. rewrite app_length in *. cbn [length] in *. cbn [depth]. specialize (IH _ _ _ C1 ltac:(lia)).
  assert (G : In (S (depth k (efrom e))) (map (fun e => S (depth k (efrom e))) (into (eto e) E))) by (apply (in_map (fun e => S (depth k (efrom e)))); apply filter_In; split; [exact I1|destruct (dnode_dec (eto e) (eto e)); congruence]).
  pose proof (proj1 (list_max_le (map (fun e => S (depth k (efrom e))) (into (eto e) E)) _) (le_n _)) as F. rewrite Forall_forall in F. specialize (F _ G). lia.
Qed.
Lemma order_exists : no_cycle E -> exists rk : dnode -> nat, forall e, In e E -> (rk (efrom e) < rk (eto e))%nat.
Proof.
  intros N. exists (depth (length E)). intros e I. destruct (depth_chain (length E) (efrom e)) as (a & es & C & L). assert (C' : chain E a (es ++ [e]) (eto e)) by (apply chain_join; exists (efrom e); cbn; auto). pose proof (chain_bound N _ _ _ C') as B. pose proof (depth_ge (length E) _ _ _ C' B) as G. rewrite app_length in G. cbn in G. lia.
Qed.
End Order.

(** ** Solutions *)
Section Sol.
Context {M : Type} (zero : M) (add : M -> M -> M) (op_val : edge -> M -> M) (sources : dnode -> M) (E : list edge).
Fixpoint vf (k : nat) (v : dnode) : M :=
  match k with O => zero | S k' => if is_source v then sources v else sum zero add (map (fun e => op_val e (vf k' (efrom e))) (into v E)) end.
Lemma into_in : forall v e, In e (into v E) <-> In e E /\ eto e = v.
Proof. intros. unfold into. rewrite filter_In. destruct (dnode_dec (eto e) v); intuition congruence. Qed.
Lemma solution_exists : no_cycle E -> exists val, solves zero add op_val sources E val.
Proof.
  intros N. destruct (order_exists E N) as (rk & H). assert (St : forall n v k, (rk v < n)%nat -> (rk v < k)%nat -> vf k v = vf n v).
  { induction n as [|n IH]; intros v k A B; [lia|]. destruct k as [|k]; [lia|]. cbn [vf]. destruct (is_source v); [reflexivity|]. f_equal. apply map_ext_in. intros e J. apply into_in in J. destruct J as [J <-]. specialize (H e J). f_equal. apply IH; lia. }
  exists (fun v => vf (S (rk v)) v). intros v. cbn [vf]. destruct (is_source v); [reflexivity|]. f_equal. apply map_ext_in. intros e J. apply into_in in J. destruct J as [J <-]. specialize (H e J). f_equal. apply (St (S (rk (efrom e))) (efrom e) (rk (eto e))); lia.
Qed.
Lemma solution_unique : no_cycle E -> forall val val', solves zero add op_val sources E val -> solves zero add op_val sources E val' -> forall v, val v = val' v.
Proof.
  intros N val val' S1 S2. destruct (order_exists E N) as (rk & H). assert (G : forall n v, (rk v < n)%nat -> val v = val' v).
  { induction n as [|n IH]; intros v L; [lia|]. rewrite (S1 v), (S2 v). destruct (is_source v); [reflexivity|]. f_equal. apply map_ext_in. intros e J. apply into_in in J. destruct J as [J <-]. specialize (H e J). f_equal. apply IH. lia. }
  intros v. apply (G (S (rk v))). lia.
Qed.
End Sol.

(** ** The values along a run *)
Section Val.
Context {M : Type} (zero : M) (add : M -> M -> M) (op_val : edge -> M -> M) (sources : dnode -> M).
Context (loc : dnode -> Z) (num_ranks : Z) (inc : dnode -> nat) (outs : dnode -> list edge).
Context (leaves lcos : list dnode) (E : list edge).
Context (D : is_dag loc num_ranks inc outs leaves lcos E).
Context (Mon : monoid zero add) (val : dnode -> M) (Sv : solves zero add op_val sources E val).
(** What the expansions and the targets held at the start. *)
Context (d0 : dnode -> option M) (t0 : dnode -> M) (Clean : forall v, outs v <> [] -> d0 v = None).

Definition g (e : edge) : M := op_val e (val (efrom e)).
Definition vals (v : dnode) (l : list (edge * M)) : list M := map snd (filter (fun x => if dnode_dec (eto (fst x)) v then true else false) l).
Definition obs (d : option M) (ms : list M) : option M := match ms with [] => d | _ => Some (fold_left add ms (match d with Some x => x | None => zero end)) end.
Lemma vals_snoc : forall v l e m, vals v (l ++ [(e, m)]) = vals v l ++ if dnode_dec (eto e) v then [m] else [].
Proof. intros. unfold vals. rewrite filter_app, map_app. f_equal. cbn [filter fst]. destruct (dnode_dec (eto e) v); reflexivity. Qed.
Lemma obs_snoc : forall d ms m, obs d (ms ++ [m]) = Some (add (match obs d ms with Some x => x | None => zero end) m).
Proof. intros d ms m. unfold obs. destruct ms as [|a ms]; [reflexivity|]. cbn [app]. change (a :: ms ++ [m]) with ((a :: ms) ++ [m]). rewrite fold_left_app. reflexivity. Qed.
Lemma fold_sum : forall ms a, fold_left add ms a = add a (sum zero add ms).
Proof. destruct Mon as (C & A & Z). induction ms as [|m ms IH]; intros a; cbn; [rewrite C, Z; reflexivity|]. rewrite IH, A. reflexivity. Qed.
Lemma sum_perm : forall a b, Permutation a b -> sum zero add a = sum zero add b.
Proof. destruct Mon as (C & A & Z). intros a b P. induction P; cbn; [reflexivity|unfold sum in *; rewrite IHP; reflexivity| |etransitivity; eassumption]. rewrite !A, (C y x). reflexivity. Qed.
Lemma vals_g : forall v l, (forall e m, In (e, m) l -> m = g e) -> vals v l = map g (into v (map fst l)).
Proof.
  intros v l. induction l as [|[e m] l IH]; intros H; [reflexivity|]. unfold vals in *. cbn [filter map fst]. rewrite into_cons. destruct (dnode_dec (eto e) v); cbn [map snd]; rewrite IH by (intros; apply H; right; assumption); [|reflexivity]. rewrite (H e m (or_introl eq_refl)). reflexivity.
Qed.
Lemma full_sum : forall v l, is_source v = false -> (forall e m, In (e, m) l -> m = g e) -> Permutation (into v (map fst l)) (into v E) -> sum zero add (vals v l) = val v.
Proof. intros v l S H P. rewrite (vals_g v l H). rewrite (Sv v), S. apply sum_perm. apply Permutation_map. exact P. Qed.

Record InvV (hand : list (edge * M)) (s : est M) : Prop := {
  v_log : forall e m, In (e, m) (log s ++ parcels s ++ hand) -> m = g e;
  v_pay : forall t d e, In t (threads s) -> payload t = Some d -> In e (cedges (code t)) -> d = val (efrom e);
  v_data : forall v, is_target v = false -> (trig s v = false \/ (0 < nfs v (threads s))%nat \/ outs v = []) -> data s v = obs (d0 v) (vals v (log s));
  v_freed : forall v, trig s v = true -> outs v <> [] -> nfs v (threads s) = 0%nat -> data s v = None;
  v_live : forall v, (0 < nfs v (threads s))%nat -> outs v <> [];
  v_tgt : forall v, is_target v = true -> tval s v = fold_left add (vals v (log s)) (t0 v) }.

Notation InvH := (InvH inc E).
Notation Inv := (InvH []).
Lemma deliver_val : forall e m s s', InvH [e] s -> InvV [(e, m)] s -> deliver zero add loc num_ranks outs e m s = Ok s' -> InvV [] s'.
Proof.
  intros e m s s' I V H. destruct (inv_pend zero add op_val inc E [e] s e I) as [_ Ie]; [right; right; left; reflexivity|].
  destruct (deliver_eq zero add op_val loc num_ranks inc outs leaves lcos E D e m s I Ie) as (ts & H1 & H2 & H3). rewrite H3 in H. injection H as <-.
  pose proof (yta_pos zero add op_val loc num_ranks inc outs leaves lcos E D e s I) as Y. set (v := eto e) in *. assert (Tr : trig s v = false) by (destruct (trig s v) eqn:T; [apply (i_trig _ _ _ _ I) in T; lia|reflexivity]).
  assert (Nt : nfs v (threads s) = 0%nat \/ outs v = [] \/ True) by auto.
  assert (L : forall e' m', In (e', m') ((log s ++ [(e, m)]) ++ parcels s ++ []) -> m' = g e') by (intros e' m' J; apply (v_log _ _ V); rewrite app_nil_r in J; rewrite !in_app_iff in *; tauto).
  assert (Dn : forall u, is_target u = false -> (trig s u = false \/ (0 < nfs u (threads s))%nat \/ outs u = []) -> data (set_op zero add e m s) u = obs (d0 u) (vals u (log s ++ [(e, m)]))).
  { intros u Tu Hu. pose proof (v_data _ _ V u Tu Hu) as X. unfold set_op. cbn [data]. fold v. rewrite vals_snoc. fold v. destruct (dnode_dec v u) as [<-|Nv].
    - rewrite Tu, upd_eq, obs_snoc, X. reflexivity.
    - rewrite app_nil_r. destruct (is_target v); [exact X|rewrite upd_ne by congruence; exact X]. }
  assert (Tn : forall u, is_target u = true -> tval (set_op zero add e m s) u = fold_left add (vals u (log s ++ [(e, m)])) (t0 u)).
  { intros u Tu. pose proof (v_tgt _ _ V u Tu) as X. unfold set_op. cbn [tval]. fold v. rewrite vals_snoc. fold v. destruct (dnode_dec v u) as [<-|Nv].
    - rewrite Tu, upd_eq, fold_left_app, X. reflexivity.
    - rewrite app_nil_r. destruct (is_target v); [rewrite upd_ne by congruence; exact X|exact X]. }
  assert (Fr : forall u, trig s u = true -> outs u <> [] -> nfs u (threads s) = 0%nat -> data (set_op zero add e m s) u = None).
  { intros u A B C. unfold set_op. cbn [data]. fold v. destruct (is_target v); [apply (v_freed _ _ V); assumption|]. rewrite upd_ne by congruence. apply (v_freed _ _ V); assumption. }
  destruct (Z.eqb_spec (yta s v - 1) 0) as [Q|Q].
  - unfold fire. constructor; cbn [yta trig data tval threads parcels waits remaining log fired]; change (threads (set_op zero add e m s)) with (threads s).
    + exact L.
    + intros t d x J P C. apply in_app_or in J. destruct J as [J|J]; [exact (v_pay _ _ V t d x J P C)|]. destruct H1 as [->|(c & -> & _)]; [destruct J|]. destruct J as [<-|[]]. discriminate P.
    + intros u Tu Hu. apply (Dn u Tu). destruct (dnode_dec u v) as [->|Nv]; [left; exact Tr|]. rewrite upd_ne in Hu by congruence. rewrite nfs_app in Hu. destruct Hu as [Hu|[Hu|Hu]]; [left; exact Hu| |right; right; exact Hu]. right. left. destruct H1 as [->|(c & -> & (_ & _ & _ & G) & _)]; [change (nfs u []) with 0%nat in Hu; lia|]. rewrite nfs_cons in Hu. cbn [code] in Hu. rewrite nf_app, G in Hu. unfold nf in Hu. cbn [filter isfree] in Hu. destruct (dnode_dec v u); [congruence|]. change (nfs u []) with 0%nat in Hu. cbn [length] in Hu. lia.
    + intros u A B C. rewrite nfs_app in C. destruct (dnode_dec u v) as [->|Nv].
      * exfalso. destruct H1 as [->|(c & -> & _)]; [apply B; apply H2; reflexivity|]. rewrite nfs_cons in C. cbn [code] in C. rewrite nf_app in C. unfold nf at 2 in C. cbn [filter isfree] in C. destruct (dnode_dec v v); [cbn [length] in C; lia|congruence].
      * rewrite upd_ne in A by congruence. apply Fr; [exact A|exact B|lia].
    + intros u Hu. rewrite nfs_app in Hu. destruct (dnode_dec u v) as [->|Nv].
      * destruct H1 as [->|(c & -> & _)]; [change (nfs v []) with 0%nat in Hu; apply (v_live _ _ V); lia|]. intros X. apply H2 in X. discriminate.
      * apply (v_live _ _ V). destruct H1 as [->|(c & -> & (_ & _ & _ & G) & _)]; [change (nfs u []) with 0%nat in Hu; lia|]. rewrite nfs_cons in Hu. cbn [code] in Hu. rewrite nf_app, G in Hu. unfold nf in Hu. cbn [filter isfree] in Hu. destruct (dnode_dec v u); [congruence|]. change (nfs u []) with 0%nat in Hu. cbn [length] in Hu. lia.
    + exact Tn.
  - constructor.
    + exact L.
    + exact (v_pay _ _ V).
    + exact Dn.
    + exact Fr.
    + exact (v_live _ _ V).
    + exact Tn.
Qed.

(** What a thread reads is the value of the node. *)
Lemma holds_val : forall s t v d, Inv s -> InvV [] s -> In t (threads s) -> (payload t = None -> is_source v = true \/ (0 < nf v (code t))%nat) -> outs v <> [] -> is_target v = false ->
  (forall d', payload t = Some d' -> d' = val v) -> holds sources t v s = Some d -> d = val v.
Proof.
  intros s t v d I V J H O Tv Py Hd. unfold holds in Hd. destruct (payload t) as [d'|] eqn:P; [injection Hd as <-; apply Py; reflexivity|]. destruct (is_source v) eqn:S; [injection Hd as <-; rewrite (Sv v), S; reflexivity|]. destruct (H eq_refl) as [X|X]; [discriminate|].
  pose proof (nfs_in add op_val sources v t _ J) as Nf. pose proof (i_free _ _ _ _ I v) as F. assert (T : trig s v = true) by (destruct (trig s v); [reflexivity|lia]).
  rewrite (v_data _ _ V v Tv) in Hd by (right; left; lia). rewrite (Clean v O) in Hd. assert (L : forall e m, In (e, m) (log s) -> m = g e) by (intros e m K; apply (v_log _ _ V); rewrite in_app_iff; left; exact K).
  pose proof (inv_full zero add op_val sources loc num_ranks inc outs leaves lcos E D [] s v I T) as Pf. apply (i_trig _ _ _ _ I) in T. destruct T as [Ne _].
  unfold obs in Hd. destruct (vals v (log s)) as [|a l] eqn:Q; [discriminate|]. rewrite <- Q in Hd. injection Hd as <-. rewrite fold_sum. destruct Mon as (_ & _ & Z0). rewrite Z0. apply full_sum; assumption.
Qed.

Lemma step_val : forall s s', Inv s -> InvV [] s -> estep zero add op_val sources loc num_ranks outs s (Ok s') -> InvV [] s'.
Proof.
  intros s s' I V St. inversion St as [s0 a t b i c Ht Hc Es Er|s0 a e m b Hp Es Er|s0 a r n b Hw Es Er|s0 a r v b Hw Hv Es Er]; clear St; subst s0.
  - assert (Jt : In t (threads s)) by (rewrite Ht; apply in_elt). pose proof (i_thr _ _ _ _ I t Jt) as Ot. set (s1 := with_threads (a ++ mkThr (payload t) c :: b) s) in *.
    assert (Ju : forall u, In u (threads s1) -> In u (threads s) \/ u = mkThr (payload t) c) by (intros u J; unfold s1, with_threads in J; cbn [threads] in J; rewrite Ht; apply in_app_or in J; destruct J as [J|[J|J]]; [left; apply in_or_app; left; exact J|right; symmetry; exact J|left; apply in_or_app; right; right; exact J]).
    assert (Pay1 : forall u d x, In u (threads s1) -> payload u = Some d -> In x (cedges (code u)) -> d = val (efrom x)) by (intros u d x J P C; destruct (Ju u J) as [K| ->]; [exact (v_pay _ _ V u d x K P C)|]; cbn [payload code] in P, C; apply (v_pay _ _ V t d x Jt P); rewrite Hc; unfold cedges; cbn [flat_map]; apply in_or_app; right; exact C).
    assert (Nf : forall v, nfs v (threads s) = ((if isfree v i then 1 else 0) + nfs v (threads s1))%nat) by (intros v; rewrite Ht; unfold s1; cbn [with_threads threads]; rewrite !nfs_app, !nfs_cons, Hc, nf_cons; cbn [code]; lia).
    (* the value read *)
    assert (Rd : forall v d es, In v (reads i) -> tedges i = es -> es <> [] -> (forall e, In e es -> efrom e = v) -> holds sources t v s1 = Some d -> d = val v).
    { intros v d es Jv Te Ne Fv Hd. destruct es as [|x es]; [contradiction|]. assert (Jx : In x E /\ awake s (efrom x) = true).
      { destruct (inv_pend zero add op_val inc E [] s x I) as [A B]; [|auto]. right. left. rewrite Ht, pend_app, pend_cons, Hc. apply in_or_app. right. apply in_or_app. left. unfold cedges. cbn [flat_map]. rewrite Te. left. reflexivity. }
      assert (Ev : efrom x = v) by (apply Fv; left; reflexivity). apply (holds_val s t v d I V Jt).
      - intros P. unfold okthr in Ot. rewrite P, Hc in Ot. cbn [covered] in Ot. destruct Ot as (_ & R & _). destruct (R v Jv) as [Z|Z]; [left; exact Z|right; rewrite Hc, nf_cons; lia].
      - intros X. assert (K : In x (outs v)) by (apply (outs_in _ _ _ _ _ _ _ D); split; [apply Jx|exact Ev]). rewrite X in K. destruct K.
      - rewrite <- Ev. apply (d_tgt _ _ _ _ _ _ _ D). apply Jx.
      - intros d' P. rewrite <- Ev. apply (v_pay _ _ V t d' x Jt P). rewrite Hc. unfold cedges. cbn [flat_map]. rewrite Te. left. reflexivity.
      - exact Hd. }
    destruct i as [e|v es|v]; cbn [perform] in Er.
    + pose proof (hand_thread zero add op_val sources inc E s a t b e c I Ht Hc) as H1. fold s1 in H1. destruct (assert_ (served e)) as [[]|]; [|discriminate]. cbn [bind] in Er. destruct (holds sources t (efrom e) s1) as [d|] eqn:Hd; [|discriminate]. cbv zeta in Er.
      assert (Ed : d = val (efrom e)) by (apply (Rd (efrom e) d [e] (or_introl eq_refl) eq_refl ltac:(discriminate)); [intros x [<-|[]]; reflexivity|exact Hd]). subst d.
      assert (V1 : InvV [(e, op_val e (val (efrom e)))] s1).
      { constructor.
        - intros e' m' J. change (log s1) with (log s) in J. change (parcels s1) with (parcels s) in J. rewrite !in_app_iff in J. destruct J as [J|[J|[J|[]]]]; [apply (v_log _ _ V); rewrite !in_app_iff; tauto|apply (v_log _ _ V); rewrite !in_app_iff; tauto|injection J as <- <-; reflexivity].
        - exact Pay1.
        - intros u Tu Hu. apply (v_data _ _ V u Tu). rewrite Nf. exact Hu.
        - intros u A B C. apply (v_freed _ _ V u A B). rewrite Nf. exact C.
        - intros u Hu. apply (v_live _ _ V). rewrite Nf. exact Hu.
        - exact (v_tgt _ _ V). }
      destruct (t_op (eop e)).
      * eapply deliver_val; [exact H1|exact V1|exact Er].
      * injection Er as <-. destruct V1. constructor; try assumption. intros e' m' J. cbn [log parcels] in J. apply v_log0. rewrite app_nil_r in J. rewrite !in_app_iff in *. tauto.
    + destruct (holds sources t v s1) as [d|] eqn:Hd; [|discriminate]. injection Er as <-.
      assert (Sh : forall e, In e es -> efrom e = v). { unfold okthr in Ot. rewrite Hc in Ot. destruct (payload t); [destruct (Ot (Ship v es) (or_introl eq_refl)); discriminate|]. apply Ot. }
      constructor; unfold with_threads; cbn [yta trig data tval threads parcels waits remaining log fired].
      * exact (v_log _ _ V).
      * intros u d' x J P C. apply in_app_or in J. destruct J as [J|[<-|[]]]; [exact (Pay1 u d' x J P C)|]. cbn [payload code] in P, C. injection P as <-. rewrite cedges_emits in C. rewrite (Sh x C). apply (Rd v d es (or_introl eq_refl) eq_refl); [intros ->; destruct C|exact Sh|exact Hd].
      * intros u Tu Hu. apply (v_data _ _ V u Tu). rewrite Nf. rewrite nfs_app, nfs_cons in Hu. cbn [code] in Hu. replace (nf u (map Emit es)) with 0%nat in Hu by (clear; unfold nf; induction es; [reflexivity|assumption]). change (nfs u []) with 0%nat in Hu. rewrite !Nat.add_0_r in Hu. exact Hu.
      * intros u A B C. apply (v_freed _ _ V u A B). rewrite Nf. rewrite nfs_app in C. cbn [isfree]. apply Nat.eq_add_0 in C. destruct C as [C _]. exact C.
      * intros u Hu. apply (v_live _ _ V). rewrite Nf. rewrite nfs_app, nfs_cons in Hu. cbn [code] in Hu. replace (nf u (map Emit es)) with 0%nat in Hu by (clear; unfold nf; induction es; [reflexivity|assumption]). change (nfs u []) with 0%nat in Hu. rewrite !Nat.add_0_r in Hu. exact Hu.
      * exact (v_tgt _ _ V).
    + injection Er as <-. assert (Fv : nfs v (threads s) = S (nfs v (threads s1))) by (rewrite Nf; cbn [isfree]; destruct (dnode_dec v v); [lia|congruence]). pose proof (i_free _ _ _ _ I v) as Fr. constructor; cbn [yta trig data tval threads parcels waits remaining log fired].
      * exact (v_log _ _ V).
      * exact Pay1.
      * intros u Tu Hu. destruct (dnode_dec u v) as [->|Nv].
        -- exfalso. destruct Hu as [Hu|[Hu|Hu]]; [change (trig s v = false) in Hu; rewrite Hu in Fr; lia|change (0 < nfs v (threads s1))%nat in Hu; destruct (trig s v); lia|]. apply (v_live _ _ V v); [lia|exact Hu].
        -- rewrite upd_ne by assumption. apply (v_data _ _ V u Tu). rewrite Nf. cbn [isfree]. destruct (dnode_dec v u); [congruence|]. exact Hu.
      * intros u A B C. destruct (dnode_dec u v) as [->|Nv]; [apply upd_eq|]. rewrite upd_ne by assumption. apply (v_freed _ _ V u A B). rewrite Nf. cbn [isfree]. destruct (dnode_dec v u); [congruence|exact C].
      * intros u Hu. change (0 < nfs u (threads s1))%nat in Hu. apply (v_live _ _ V). rewrite Nf. lia.
      * exact (v_tgt _ _ V).
  - pose proof (hand_parcel add op_val inc E s a e m b I Hp) as H1. eapply deliver_val; [exact H1| |exact Er]. destruct V. constructor; try assumption. intros e' m' J. apply v_log0. rewrite Hp. unfold with_parcels in J. cbn [log parcels] in J. rewrite !in_app_iff in *. cbn [In] in *. tauto.
  - try injection Er as <-; try subst s'. destruct V. constructor; assumption.
  - try injection Er as <-; try subst s'. destruct V. constructor; assumption.
Qed.

Lemma runs_val : forall n s s', eruns zero add op_val sources loc num_ranks outs n s s' -> Inv s -> InvW loc num_ranks lcos s -> InvV [] s -> InvV [] s'.
Proof.
  intros n s s' R. induction R as [|n s s1 s2 R IH St]; intros I W V; [exact V|]. destruct (runs_inv zero add op_val sources loc num_ranks inc outs leaves lcos E D n s s1 R I W) as (I1 & _). exact (step_val s1 s2 I1 (IH I W V) St).
Qed.
Lemma launch_val : forall s, Inv s -> log s = [] -> parcels s = [] -> data s = d0 -> tval s = t0 -> (forall t, In t (threads s) -> payload t = None \/ code t = []) -> InvV [] s.
Proof.
  intros s I L P Dd Tt Py. assert (Tr : forall v, trig s v = false).
  { intros v. destruct (trig s v) eqn:T; [|reflexivity]. apply (i_trig _ _ _ _ I) in T. destruct T as [A B]. pose proof (i_yta _ _ _ _ I v) as Y. rewrite L, B in Y. cbn in Y. rewrite (d_inc _ _ _ _ _ _ _ D) in Y. destruct (into v E); [contradiction|cbn in Y; lia]. }
  constructor.
  - rewrite L, P. intros e m [].
  - intros t d e J Pd C. destruct (Py t J) as [X|X]; [congruence|]. rewrite X in C. destruct C.
  - intros v _ _. rewrite L, Dd. reflexivity.
  - intros v T. rewrite Tr in T. discriminate.
  - intros v H. pose proof (i_free _ _ _ _ I v) as F. rewrite Tr in F. lia.
  - intros v _. rewrite L, Tt. reflexivity.
Qed.
End Val.
