(** The invariants of DAG execution. *)
From Coq Require Import ZArith List Bool Arith Lia Permutation Sorted.
From Verif Require Import Base ListFacts LookupModel DagModel DagSpec EdgeGroupModel EdgeGroupSpec EdgeGroupProofs LinkModel LinkSpec EvalModel EvalSpec.
Import ListNotations.
Open Scope Z_scope.

Notation cnt := (count_occ edge_dec).
(** ** Multisets of edges *)
Lemma sub_multi : forall a b, (forall e, (cnt a e <= cnt b e)%nat) -> exists c, Permutation b (a ++ c).
Proof.
  induction a as [|x a IH]; intros b H; [exists b; reflexivity|].
  assert (I : In x b). { apply (count_occ_In edge_dec). specialize (H x). rewrite count_occ_cons_eq in H by reflexivity. lia. }
  apply in_split in I. destruct I as (b1 & b2 & ->). destruct (IH (b1 ++ b2)) as (c & P).
  - intros e. specialize (H e). rewrite count_occ_app in *. cbn [count_occ] in H. destruct (edge_dec x e); lia.
  - exists c. rewrite <- Permutation_middle. cbn. constructor. exact P.
Qed.
Lemma into_app : forall v a b, into v (a ++ b) = into v a ++ into v b. Proof. intros. apply filter_app. Qed.
Lemma into_cons : forall v e l, into v (e :: l) = if dnode_dec (eto e) v then e :: into v l else into v l. Proof. intros. unfold into. cbn [filter]. destruct (dnode_dec (eto e) v); reflexivity. Qed.
Lemma into_perm : forall v a b, Permutation a b -> Permutation (into v a) (into v b).
Proof. intros v a b P. induction P; cbn; [constructor|destruct (dnode_dec (eto x) v); [constructor|]; assumption| |etransitivity; eassumption]. destruct (dnode_dec (eto x) v), (dnode_dec (eto y) v); try reflexivity. apply perm_swap. Qed.
Lemma sub_into : forall v a b, (forall e, (cnt a e <= cnt b e)%nat) -> (length (into v a) <= length (into v b))%nat /\ (length (into v a) = length (into v b) -> Permutation (into v a) (into v b)).
Proof.
  intros v a b H. destruct (sub_multi a b H) as (c & P). apply (into_perm v) in P. rewrite into_app in P. pose proof (Permutation_length P) as L. rewrite app_length in L. split; [lia|]. intros Eq. assert (into v c = []) as R by (destruct (into v c); [reflexivity|cbn in L; lia]). rewrite R, app_nil_r in P. symmetry. exact P.
Qed.
Lemma sub_into_lt : forall e a b, (forall x, (cnt a x <= cnt b x)%nat) -> (cnt a e < cnt b e)%nat -> (length (into (eto e) a) < length (into (eto e) b))%nat.
Proof.
  intros e a b H L. destruct (sub_multi (e :: a) b) as (c & P).
  - intros x. cbn [count_occ]. destruct (edge_dec e x) as [<-|]; [lia|apply H].
  - apply (into_perm (eto e)) in P. apply Permutation_length in P. rewrite into_app, app_length, into_cons in P. destruct (dnode_dec (eto e) (eto e)); [|congruence]. cbn [length] in P. lia.
Qed.

(** ** Programs *)
Definition tedges (i : todo) : list edge := match i with Emit e => [e] | Ship _ es => es | Free _ => [] end.
Definition cedges (c : list todo) : list edge := flat_map tedges c.
Definition isfree (v : dnode) (i : todo) : bool := match i with Free u => if dnode_dec u v then true else false | _ => false end.
Definition nf (v : dnode) (c : list todo) : nat := length (filter (isfree v) c).
(** Each read of the data of an LCO is followed by its Free. *)
Definition reads (i : todo) : list dnode := match i with Emit e => [efrom e] | Ship v es => v :: map efrom es | Free _ => [] end.
Fixpoint covered (c : list todo) : Prop :=
  match c with
  | [] => True
  | i :: c' => (match i with Ship v es => forall e, In e es -> efrom e = v | _ => True end) /\
               (forall v, In v (reads i) -> is_source v = true \/ (0 < nf v c')%nat) /\ covered c'
  end.
Lemma nf_app : forall v a b, nf v (a ++ b) = (nf v a + nf v b)%nat. Proof. intros. unfold nf. rewrite filter_app, app_length. reflexivity. Qed.
Lemma nf_cons : forall v i c, nf v (i :: c) = ((if isfree v i then 1 else 0) + nf v c)%nat. Proof. intros. unfold nf. cbn. destruct (isfree v i); reflexivity. Qed.
Lemma cedges_app : forall a b, cedges (a ++ b) = cedges a ++ cedges b. Proof. intros. apply flat_map_app. Qed.
Lemma cedges_emits : forall es, cedges (map Emit es) = es. Proof. induction es; cbn; [reflexivity|f_equal; assumption]. Qed.

Definition acode (v : dnode) (acts : list (action edge)) : list todo := flat_map (do_action v) acts.
Lemma acode_edges : forall v acts, cedges (acode v acts) = concat (map act_edges acts).
Proof. induction acts as [|[es|r es] acts IH]; [reflexivity| |]; unfold acode in *; cbn [flat_map map concat do_action act_edges]; rewrite cedges_app, IH; f_equal; [apply cedges_emits|]. cbn. apply app_nil_r. Qed.
Lemma acode_in : forall v acts i, In i (acode v acts) -> (exists e, i = Emit e /\ In e (concat (map act_edges acts))) \/ (exists es, i = Ship v es /\ forall e, In e es -> In e (concat (map act_edges acts))).
Proof.
  intros v acts i I. unfold acode in I. apply in_flat_map in I. destruct I as (a & Ia & Ii).
  assert (S : forall e, In e (act_edges a) -> In e (concat (map act_edges acts))) by (intros; apply in_concat; exists (act_edges a); split; [apply in_map; assumption|assumption]).
  destruct a as [es|r es]; cbn in Ii.
  - apply in_map_iff in Ii. destruct Ii as (e & <- & Ie). left. exists e. split; [reflexivity|apply S; assumption].
  - destruct Ii as [<-|[]]. right. exists es. split; [reflexivity|exact S].
Qed.
Lemma nf_acode : forall u v acts, nf u (acode v acts) = 0%nat.
Proof. intros. unfold nf. replace (filter (isfree u) (acode v acts)) with (@nil todo); [reflexivity|]. symmetry. assert (G : forall i, In i (acode v acts) -> isfree u i = false) by (intros i I; apply acode_in in I; destruct I as [(e & -> & _)|(es & -> & _)]; reflexivity). induction (acode v acts) as [|i c IH]; [reflexivity|]. cbn. rewrite (G i (or_introl eq_refl)). apply IH. intros; apply G; right; assumption. Qed.
Lemma covered_app : forall a b, (forall i v, In i a -> In v (reads i) -> is_source v = true \/ (0 < nf v b)%nat) -> (forall v es e, In (Ship v es) a -> In e es -> efrom e = v) -> covered b -> covered (a ++ b).
Proof.
  induction a as [|i a IH]; intros b H Hs B; [exact B|]. cbn [app covered]. split; [destruct i; auto; intros e I; eapply Hs; [left; reflexivity|assumption]|]. split.
  - intros v I. destruct (H i v (or_introl eq_refl) I); [left; assumption|right]. rewrite nf_app. lia.
  - apply IH; [intros; eapply H; [right; eassumption|assumption]|intros; eapply Hs; [right; eassumption|assumption]|exact B].
Qed.

Section Inv.
Context {M : Type} (zero : M) (add : M -> M -> M) (op_val : edge -> M -> M) (sources : dnode -> M).
Context (loc : dnode -> Z) (num_ranks : Z) (inc : dnode -> nat) (outs : dnode -> list edge).
Context (leaves lcos : list dnode) (E : list edge).
Context (D : is_dag loc num_ranks inc outs leaves lcos E).
Lemma NoTargetOuts : forall x, In x E -> is_target (efrom x) = true -> False.
Proof. intros x I H. rewrite (d_tgt _ _ _ _ _ _ _ D x I) in H. discriminate. Qed.

Lemma outs_in : forall v e, In e (outs v) <-> In e E /\ efrom e = v.
Proof.
  intros v e. destruct (d_outs _ _ _ _ _ _ _ D v) as [P _]. split; intros H.
  - apply (Permutation_in e (Permutation_sym P)) in H. unfold out_of in H. apply filter_In in H. destruct H as [H1 H2]. destruct (dnode_dec (efrom e) v); [auto|discriminate].
  - apply (Permutation_in e P). apply filter_In. destruct H as [H1 H2]. destruct (dnode_dec (efrom e) v); [auto|contradiction].
Qed.
Lemma outs_cnt : forall v e, cnt (outs v) e = if dnode_dec (efrom e) v then cnt E e else 0%nat.
Proof.
  intros v e. destruct (d_outs _ _ _ _ _ _ _ D v) as [P _]. rewrite <- (proj1 (Permutation_count_occ edge_dec _ _) P e). unfold out_of. clear. induction E as [|x l IH]; [destruct (dnode_dec (efrom e) v); reflexivity|]. cbn [filter].
  destruct (dnode_dec (efrom x) v) as [Hx|Hx]; cbn [count_occ]; destruct (edge_dec x e) as [->|N].
  - rewrite IH. destruct (dnode_dec (efrom e) v); [reflexivity|contradiction].
  - exact IH.
  - rewrite IH. destruct (dnode_dec (efrom e) v); [contradiction|reflexivity].
  - exact IH.
Qed.
Lemma no_outs_outside : forall v, outs v <> [] -> In v (leaves ++ lcos).
Proof. intros v H. destruct (outs v) as [|e l] eqn:Q; [contradiction|]. assert (I : In e (outs v)) by (rewrite Q; left; reflexivity). apply outs_in in I. destruct I as [I <-]. apply (d_from _ _ _ _ _ _ _ D). exact I. Qed.

Definition good_code (v : dnode) (c : list todo) : Prop :=
  cedges c = outs v /\ (forall i u, In i c -> In u (reads i) -> u = v) /\ (forall u es e, In (Ship u es) c -> In e es -> efrom e = u) /\ (forall u, nf u c = 0%nat).
Lemma good_acode : forall v acts, concat (map act_edges acts) = outs v -> good_code v (acode v acts).
Proof.
  intros v acts C. split; [rewrite acode_edges; exact C|]. assert (O : forall e, In e (concat (map act_edges acts)) -> efrom e = v) by (intros e I; rewrite C in I; apply outs_in in I; apply I). split; [|split; [|intros; apply nf_acode]].
  - intros i u I R. apply acode_in in I. destruct I as [(e & -> & Ie)|(es & -> & Ie)]; cbn in R.
    + destruct R as [<-|[]]. auto.
    + destruct R as [<-|R]; [reflexivity|]. apply in_map_iff in R. destruct R as (e & <- & J). auto.
  - intros u es e I J. apply acode_in in I. destruct I as [(e' & Q & _)|(es' & Q & Ie)]; [discriminate|]. injection Q as -> ->. auto.
Qed.
Lemma source_prog_ok : forall v, exists c, source_prog loc outs v = Ok c /\ good_code v c.
Proof.
  intros v. destruct (d_outs _ _ _ _ _ _ _ D v) as [_ S]. unfold source_prog, instigate_split. destruct (group_loop_ok (fun e => loc (eto e)) (loc v) (length (outs v)) (outs v) (le_n _) S) as (acts & Ok_ & C & _). rewrite Ok_. cbn [bind]. exists (acode v acts). split; [reflexivity|]. apply good_acode. exact C.
Qed.
Lemma lco_prog_ok : forall v, exists c, lco_prog loc num_ranks outs v = Ok (c ++ [Free v]) /\ good_code v c.
Proof.
  intros v. destruct (d_outs _ _ _ _ _ _ _ D v) as [_ S]. unfold lco_prog, out_edges_split. destruct (num_ranks =? 1).
  - cbn [bind]. exists (acode v [Work (outs v)]). split; [reflexivity|]. apply good_acode. cbn. apply app_nil_r.
  - destruct (group_loop_ok (fun e => loc (eto e)) (loc v) (length (outs v)) (outs v) (le_n _) S) as (acts & Ok_ & C & _). rewrite Ok_. cbn [bind]. exists (acode v acts). split; [reflexivity|]. apply good_acode. exact C.
Qed.
Lemma lco_covered : forall v c, good_code v c -> covered (c ++ [Free v]).
Proof.
  intros v c (_ & R & Sh & _). apply covered_app; [|exact Sh|cbn; repeat split; intros; contradiction]. intros i u I J. right. rewrite (R i u I J). unfold nf. cbn. destruct (dnode_dec v v); [cbn; lia|contradiction].
Qed.

(** ** The states *)
Definition pend (ts : list (thr M)) : list edge := flat_map (fun t => cedges (code t)) ts.
Definition nfs (v : dnode) (ts : list (thr M)) : nat := list_sum (map (fun t => nf v (code t)) ts).
Lemma pend_app : forall a b, pend (a ++ b) = pend a ++ pend b. Proof. intros. apply flat_map_app. Qed.
Lemma nfs_app : forall v a b, nfs v (a ++ b) = (nfs v a + nfs v b)%nat. Proof. intros. unfold nfs. rewrite map_app, list_sum_app. reflexivity. Qed.
Lemma nfs_cons : forall v t b, nfs v (t :: b) = (nf v (code t) + nfs v b)%nat. Proof. reflexivity. Qed.
Lemma pend_cons : forall t b, pend (t :: b) = cedges (code t) ++ pend b. Proof. reflexivity. Qed.
Lemma nfs_in : forall v t ts, In t ts -> (nf v (code t) <= nfs v ts)%nat.
Proof. induction ts as [|u ts IH]; intros I; [destruct I|]. rewrite nfs_cons. destruct I as [->|I]; [lia|]. specialize (IH I). lia. Qed.

Definition okthr (t : thr M) : Prop :=
  match payload t with Some _ => forall i, In i (code t) -> exists e, i = Emit e | None => covered (code t) end.
Definition awake (s : est M) (v : dnode) : bool := is_source v || trig s v.
Notation elog s := (map fst (log s)).

Record InvH (hand : list edge) (s : est M) : Prop := {
  i_cnt : forall e, (cnt (elog s) e + cnt (map fst (parcels s)) e + cnt (pend (threads s)) e + cnt hand e = if awake s (efrom e) then cnt E e else 0)%nat;
  i_yta : forall v, yta s v + Z.of_nat (length (into v (elog s))) = Z.of_nat (inc v);
  i_trig : forall v, trig s v = true <-> into v E <> [] /\ yta s v = 0;
  i_fired : forall v, In v (fired s) <-> trig s v = true;
  i_once : NoDup (fired s);
  i_free : forall v, (nfs v (threads s) + (if trig s v then 0 else 1) <= 1)%nat;
  i_data : forall v, (0 < nfs v (threads s))%nat -> data s v <> None;
  i_thr : forall t, In t (threads s) -> okthr t;
  i_order : forall l1 x l2, log s = l1 ++ x :: l2 -> is_source (efrom (fst x)) = true \/ Permutation (into (efrom (fst x)) (map fst l1)) (into (efrom (fst x)) E) }.
Notation Inv := (InvH []).

Lemma inv_sub : forall hand s, InvH hand s -> forall e, (cnt (elog s) e + cnt hand e <= cnt E e)%nat.
Proof. intros hand s I e. pose proof (i_cnt _ _ I e). destruct (awake s (efrom e)); lia. Qed.
Lemma inv_pend : forall hand s e, InvH hand s -> (In e (map fst (parcels s)) \/ In e (pend (threads s)) \/ In e hand) -> awake s (efrom e) = true /\ In e E.
Proof.
  intros hand s e I H. pose proof (i_cnt _ _ I e) as C. assert (L : (0 < cnt (map fst (parcels s)) e + cnt (pend (threads s)) e + cnt hand e)%nat) by (destruct H as [H|[H|H]]; apply (count_occ_In edge_dec) in H; lia). destruct (awake s (efrom e)); [|lia]. split; [reflexivity|]. apply (count_occ_In edge_dec). lia.
Qed.
Lemma inv_full : forall hand s v, InvH hand s -> trig s v = true -> Permutation (into v (elog s)) (into v E).
Proof.
  intros hand s v I T. apply (i_trig _ _ I) in T. destruct T as [_ Y]. pose proof (i_yta _ _ I v) as H. rewrite (d_inc _ _ _ _ _ _ _ D v) in H. apply sub_into; [|lia]. intros e. pose proof (inv_sub _ _ I e). lia.
Qed.

(** ** A set operation *)
Definition set_op (e : edge) (m : M) (s : est M) : est M :=
  let v := eto e in
  mkEst (upd dnode_dec (yta s) v (yta s v - 1)) (trig s)
    (if is_target v then data s else upd dnode_dec (data s) v (Some (add (match data s v with Some d => d | None => zero end) m)))
    (if is_target v then upd dnode_dec (tval s) v (add (tval s v) m) else tval s)
    (threads s) (parcels s) (waits s) (remaining s) (log s ++ [(e, m)]) (fired s).
Definition fire (v : dnode) (ts : list (thr M)) (s : est M) : est M :=
  mkEst (yta s) (upd dnode_dec (trig s) v true) (data s) (tval s) (threads s ++ ts) (parcels s) (waits s) (remaining s) (log s) (fired s ++ [v]).

Lemma upd_eq : forall K V dec (f : K -> V) k v, upd dec f k v k = v. Proof. intros. unfold upd. destruct (dec k k); congruence. Qed.
Lemma upd_ne : forall K V dec (f : K -> V) k v x, x <> k -> upd dec f k v x = f x. Proof. intros. unfold upd. destruct (dec x k); congruence. Qed.

Lemma yta_pos : forall e s, InvH [e] s -> 1 <= yta s (eto e).
Proof.
  intros e s I. pose proof (i_yta _ _ I (eto e)) as Y. rewrite (d_inc _ _ _ _ _ _ _ D) in Y. assert (L : (length (into (eto e) (elog s)) < length (into (eto e) E))%nat).
  { apply sub_into_lt; [intros x; pose proof (inv_sub _ _ I x); lia|]. pose proof (inv_sub _ _ I e) as H. rewrite count_occ_cons_eq in H by reflexivity. lia. }
  lia.
Qed.

(** The result of a set operation, and of the trigger it may cause. *)
Lemma deliver_eq : forall e m s, InvH [e] s -> In e E ->
  exists ts, (ts = [] \/ exists c, ts = [mkThr None (c ++ [Free (eto e)])] /\ good_code (eto e) c /\ lco_prog loc num_ranks outs (eto e) = Ok (c ++ [Free (eto e)])) /\ (ts = [] <-> outs (eto e) = []) /\
  deliver zero add loc num_ranks outs e m s = Ok (if yta s (eto e) - 1 =? 0 then fire (eto e) ts (set_op e m s) else set_op e m s).
Proof.
  intros e m s I Ie. pose proof (yta_pos e s I) as Y. destruct (d_ops _ _ _ _ _ _ _ D e Ie) as (_ & _ & To).
  unfold deliver. rewrite To, eqb_reflx. cbn [bind]. replace (0 <=? yta s (eto e) - 1) with true by (symmetry; apply Z.leb_le; lia). cbn [assert_ bind].
  fold (set_op e m s). destruct (lco_prog_ok (eto e)) as (c & Hc & Gc). destruct (outs (eto e)) as [|x l] eqn:Q.
  - exists []. split; [left; reflexivity|]. split; [tauto|]. destruct (yta s (eto e) - 1 =? 0); [|reflexivity]. unfold trigger. rewrite Q. unfold fire. rewrite app_nil_r. reflexivity.
  - exists [mkThr None (c ++ [Free (eto e)])]. split; [right; exists c; split; [reflexivity|split; [exact Gc|exact Hc]]|]. split; [split; discriminate|]. destruct (yta s (eto e) - 1 =? 0); [|reflexivity]. unfold trigger. rewrite Q, Hc. reflexivity.
Qed.

Lemma into_snoc : forall v l e, into v (l ++ [e]) = into v l ++ (if dnode_dec (eto e) v then [e] else []).
Proof. intros. rewrite into_app, into_cons. reflexivity. Qed.
Lemma map_fst_snoc : forall (l : list (edge * M)) e m, map fst (l ++ [(e, m)]) = map fst l ++ [e]. Proof. intros. rewrite map_app. reflexivity. Qed.

Lemma order_snoc : forall e m s, InvH [e] s -> forall l1 x l2, log s ++ [(e, m)] = l1 ++ x :: l2 -> is_source (efrom (fst x)) = true \/ Permutation (into (efrom (fst x)) (map fst l1)) (into (efrom (fst x)) E).
Proof.
  intros e m s I l1 x l2 Q. destruct l2 as [|y l2 _] using rev_ind.
  - apply app_inj_tail in Q. destruct Q as [<- <-]. cbn [fst]. destruct (inv_pend _ _ e I) as [A _]; [right; right; left; reflexivity|]. unfold awake in A. apply orb_true_iff in A. destruct A as [A|A]; [left; exact A|right]. eapply inv_full; eassumption.
  - change (l1 ++ x :: l2 ++ [y]) with (l1 ++ (x :: l2) ++ [y]) in Q. rewrite app_assoc in Q. apply app_inj_tail in Q. destruct Q as [Q _]. exact (i_order _ _ I l1 x l2 Q).
Qed.
Lemma set_op_inv : forall e m s, InvH [e] s -> In e E -> yta s (eto e) - 1 <> 0 -> Inv (set_op e m s).
Proof.
  intros e m s I Ie N. pose proof (yta_pos e s I) as Y. assert (Tr : trig s (eto e) = false) by (destruct (trig s (eto e)) eqn:T; [apply (i_trig _ _ I) in T; lia|reflexivity]).
  constructor; unfold set_op; cbn [yta trig data tval threads parcels waits remaining log fired].
  - intros x. pose proof (i_cnt _ _ I x) as C. rewrite map_fst_snoc, count_occ_app. change (awake _ (efrom x)) with (awake s (efrom x)). cbn [count_occ] in *. destruct (edge_dec e x); lia.
  - intros v. rewrite map_fst_snoc, into_snoc, app_length. pose proof (i_yta _ _ I v) as H. destruct (dnode_dec (eto e) v) as [<-|Nv]; [rewrite upd_eq|rewrite upd_ne by congruence]; cbn [length]; lia.
  - intros v. rewrite (i_trig _ _ I v). destruct (dnode_dec v (eto e)) as [->|Nv]; [rewrite upd_eq|rewrite upd_ne by congruence; reflexivity]. split; intros [A B]; split; auto; lia.
  - apply (i_fired _ _ I).
  - apply (i_once _ _ I).
  - apply (i_free _ _ I).
  - intros v Hv. pose proof (i_data _ _ I v Hv). destruct (is_target (eto e)); [assumption|]. destruct (dnode_dec v (eto e)) as [->|Nv]; [rewrite upd_eq; discriminate|rewrite upd_ne by congruence; assumption].
  - apply (i_thr _ _ I).
  - apply order_snoc. exact I.
Qed.

Lemma fire_inv : forall e m s ts, InvH [e] s -> In e E -> yta s (eto e) - 1 = 0 ->
  (ts = [] \/ exists c, ts = [mkThr None (c ++ [Free (eto e)])] /\ good_code (eto e) c /\ lco_prog loc num_ranks outs (eto e) = Ok (c ++ [Free (eto e)])) -> (ts = [] <-> outs (eto e) = []) -> Inv (fire (eto e) ts (set_op e m s)).
Proof.
  intros e m s ts I Ie Y0 Hts Ho. set (v := eto e) in *. assert (Tr : trig s v = false) by (destruct (trig s v) eqn:T; [apply (i_trig _ _ I) in T; lia|reflexivity]).
  assert (Lv : is_source v = false) by (apply (d_lco _ _ _ _ _ _ _ D); apply (d_to _ _ _ _ _ _ _ D); exact Ie).
  assert (Pts : pend ts = outs v) by (destruct Hts as [->|(c & -> & (C & _) & _)]; [symmetry; apply Ho; reflexivity|unfold pend; cbn [flat_map code]; rewrite app_nil_r, cedges_app, C; cbn; apply app_nil_r]).
  assert (Fts : forall u, (nfs u ts <= if dnode_dec u v then 1 else 0)%nat).
  { intros u. destruct Hts as [->|(c & -> & (_ & _ & _ & C) & _)]; [cbn; lia|]. rewrite nfs_cons. cbn [code]. rewrite nf_app, C. unfold nfs, nf. cbn. destruct (dnode_dec v u) as [<-|]; [destruct (dnode_dec v v); [cbn; lia|congruence]|cbn; lia]. }
  constructor; unfold fire, set_op; cbn [yta trig data tval threads parcels waits remaining log fired]; fold v.
  - intros x. pose proof (i_cnt _ _ I x) as C. rewrite map_fst_snoc, pend_app, !count_occ_app, Pts, outs_cnt. unfold awake in *. cbn [trig]. cbn [count_occ] in *. destruct (dnode_dec (efrom x) v) as [Q|Q].
    + rewrite Q in *. rewrite upd_eq, orb_true_r. rewrite Tr, Lv in C. cbn [orb] in C. destruct (edge_dec e x); lia.
    + rewrite upd_ne by assumption. destruct (edge_dec e x); lia.
  - intros u. rewrite map_fst_snoc, into_snoc, app_length. pose proof (i_yta _ _ I u) as H. fold v. destruct (dnode_dec v u) as [<-|Nv]; [rewrite upd_eq|rewrite upd_ne by congruence]; cbn [length]; lia.
  - intros u. destruct (dnode_dec u v) as [->|Nv]; [rewrite !upd_eq|rewrite !upd_ne by congruence; apply (i_trig _ _ I)]. split; [intros _|reflexivity]. split; [|exact Y0]. intros X. assert (J : In e (into v E)) by (apply filter_In; split; [exact Ie|]; destruct (dnode_dec (eto e) v); [reflexivity|contradiction]). rewrite X in J. destruct J.
  - intros u. rewrite in_app_iff, (i_fired _ _ I). cbn [In]. destruct (dnode_dec u v) as [->|Nv]; [rewrite upd_eq; tauto|rewrite upd_ne by congruence]. intuition congruence.
  - assert (N : ~ In v (fired s)) by (intros J; apply (i_fired _ _ I) in J; congruence). pose proof (i_once _ _ I) as O. clear - N O. induction (fired s) as [|a l IH]; [constructor; [intros []|constructor]|]. inversion O; subst. cbn. constructor; [rewrite in_app_iff; cbn; cbn in N; intuition congruence|apply IH; [cbn in N; tauto|assumption]].
  - intros u. rewrite nfs_app. pose proof (i_free _ _ I u) as F. specialize (Fts u). destruct (dnode_dec u v) as [->|Nv]; [rewrite upd_eq; rewrite Tr in F; lia|rewrite upd_ne by congruence; lia].
  - intros u. rewrite nfs_app. intros H. specialize (Fts u). destruct (dnode_dec u v) as [->|Nv].
    + destruct (is_target v) eqn:Tv; [|rewrite upd_eq; discriminate]. pose proof (i_free _ _ I v) as F. rewrite Tr in F. assert (T0 : (0 < nfs v ts)%nat) by lia. exfalso.
      (* a target leaf has no out edges *)
      destruct (outs v) as [|x l] eqn:Q; [destruct Ho as [_ Ho]; rewrite (Ho eq_refl) in T0; cbn in T0; lia|]. assert (J : In x (outs v)) by (rewrite Q; left; reflexivity). apply outs_in in J. destruct J as [Jx Jv]. destruct (NoTargetOuts x Jx). rewrite Jv. exact Tv.
    + assert (0 < nfs u (threads s))%nat by lia. pose proof (i_data _ _ I u H0). destruct (is_target v); [assumption|rewrite upd_ne by congruence; assumption].
  - intros t J. apply in_app_or in J. destruct J as [J|J]; [apply (i_thr _ _ I); exact J|]. destruct Hts as [->|(c & -> & G & _)]; [destruct J|]. destruct J as [<-|[]]. unfold okthr. cbn [payload code]. apply lco_covered. exact G.
  - apply order_snoc. exact I.
Qed.

(** ** The steps *)
Lemma deliver_inv : forall e m s, InvH [e] s -> exists s', deliver zero add loc num_ranks outs e m s = Ok s' /\ Inv s'.
Proof.
  intros e m s I. destruct (inv_pend _ _ e I) as [_ Ie]; [right; right; left; reflexivity|]. destruct (deliver_eq e m s I Ie) as (ts & H1 & H2 & H3). eexists. split; [exact H3|]. destruct (Z.eqb_spec (yta s (eto e) - 1) 0) as [Q|Q].
  - apply fire_inv; assumption.
  - apply set_op_inv; assumption.
Qed.

(** What a step reads, it finds. *)
Lemma holds_ok : forall s t v, Inv s -> In t (threads s) -> (payload t = None -> is_source v = true \/ (0 < nf v (code t))%nat) -> holds sources t v s <> None.
Proof.
  intros s t v I J H. unfold holds. destruct (payload t); [discriminate|]. destruct (is_source v); [discriminate|]. destruct (H eq_refl) as [X|X]; [discriminate|]. apply (i_data _ _ I). pose proof (nfs_in v t _ J). lia.
Qed.

Lemma step_inv : forall s r, Inv s -> estep zero add op_val sources loc num_ranks outs s r -> exists s', r = Ok s' /\ Inv s'.
Proof.
  intros s r I St. destruct St as [s a t b i c Ht Hc|s a e m b Hp|s a r n b Hw|s a r v b Hw Hv].
  - assert (Jt : In t (threads s)) by (rewrite Ht; apply in_elt). pose proof (i_thr _ _ I t Jt) as Ot. set (t' := mkThr (payload t) c). set (s1 := with_threads (a ++ t' :: b) s).
    assert (Ot' : okthr t') by (unfold okthr in *; unfold t'; cbn [payload code]; destruct (payload t); [intros j Jj; apply Ot; rewrite Hc; right; exact Jj|rewrite Hc in Ot; apply Ot]).
    assert (Pe : pend (threads s) = pend a ++ (tedges i ++ cedges c) ++ pend b) by (rewrite Ht, pend_app, pend_cons, Hc; reflexivity).
    assert (Pe1 : pend (threads s1) = pend a ++ cedges c ++ pend b) by (unfold s1; cbn [with_threads threads]; rewrite pend_app, pend_cons; reflexivity).
    assert (Nf : forall v, nfs v (threads s) = ((if isfree v i then 1 else 0) + nfs v (threads s1))%nat) by (intros v; rewrite Ht; unfold s1; cbn [with_threads threads]; rewrite !nfs_app, !nfs_cons, Hc, nf_cons; cbn [code t']; lia).
    assert (Th1 : forall u, In u (threads s1) -> okthr u) by (intros u Ju; unfold s1 in Ju; cbn [with_threads threads] in Ju; apply in_app_or in Ju; destruct Ju as [Ju|[<-|Ju]]; [apply (i_thr _ _ I); rewrite Ht; apply in_or_app; left; exact Ju|exact Ot'|apply (i_thr _ _ I); rewrite Ht; apply in_or_app; right; right; exact Ju]).
    (* the read of the instruction *)
    assert (Rd : forall v, In v (reads i) -> holds sources t v s1 <> None).
    { intros v Jv. assert (X := holds_ok s t v I Jt). unfold holds in *. unfold s1. cbn [with_threads data]. apply X. intros P. unfold okthr in Ot. rewrite P, Hc in Ot. cbn [covered] in Ot. destruct Ot as (_ & R & _). destruct (R v Jv) as [Z|Z]; [left; exact Z|right; rewrite Hc, nf_cons; lia]. }
    assert (H1 : (forall v, isfree v i = false) -> InvH (tedges i) s1).
    { intros NF. constructor.
      - intros x. pose proof (i_cnt _ _ I x) as C. rewrite Pe in C. rewrite Pe1. change (elog s1) with (elog s). change (parcels s1) with (parcels s). change (awake s1) with (awake s). rewrite !count_occ_app in *. cbn [count_occ] in C. lia.
      - apply (i_yta _ _ I).
      - apply (i_trig _ _ I).
      - apply (i_fired _ _ I).
      - apply (i_once _ _ I).
      - intros v. pose proof (i_free _ _ I v) as F. rewrite Nf, NF in F. change (trig s1 v) with (trig s v). lia.
      - intros v Hv. apply (i_data _ _ I). rewrite Nf. lia.
      - exact Th1.
      - apply (i_order _ _ I). }
    destruct i as [e|v es|v]; cbn [perform].
    + destruct (inv_pend _ _ e I) as [_ Ie]; [right; left; rewrite Pe; apply in_or_app; right; apply in_or_app; left; left; reflexivity|].
      destruct (d_ops _ _ _ _ _ _ _ D e Ie) as (N0 & So & To). unfold served. rewrite So, eqb_reflx. replace (is_nop (eop e)) with false by (destruct (eop e); try reflexivity; congruence). cbn [negb andb assert_ bind].
      specialize (Rd (efrom e) (or_introl eq_refl)). fold t' s1. destruct (holds sources t (efrom e) s1) as [d|]; [|contradiction]. cbv zeta. specialize (H1 (fun _ => eq_refl)). cbn [tedges] in H1. destruct (t_op (eop e)).
      * apply deliver_inv. exact H1.
      * eexists. split; [reflexivity|]. destruct H1. constructor; try assumption. intros x. specialize (i_cnt0 x). cbn [log parcels threads]. rewrite map_fst_snoc, count_occ_app. cbn [count_occ] in *. unfold awake in *. cbn [trig]. lia.
    + specialize (Rd v (or_introl eq_refl)). fold t' s1. destruct (holds sources t v s1) as [d|]; [|contradiction]. eexists. split; [reflexivity|]. specialize (H1 (fun _ => eq_refl)). cbn [tedges] in H1. destruct H1. constructor; try assumption.
      * intros x. specialize (i_cnt0 x). unfold with_threads, awake in *. cbn [threads log parcels trig]. rewrite pend_app, count_occ_app, pend_cons. cbn [code]. rewrite cedges_emits. change (pend []) with (@nil edge). rewrite app_nil_r. cbn [count_occ]. lia.
      * intros u. specialize (i_free0 u). unfold with_threads. cbn [threads trig]. rewrite nfs_app, nfs_cons. cbn [code]. replace (nf u (map Emit es)) with 0%nat by (clear; unfold nf; induction es; [reflexivity|assumption]). change (nfs u []) with 0%nat. lia.
      * intros u Hu. apply i_data0. unfold with_threads in Hu. cbn [threads] in Hu. rewrite nfs_app, nfs_cons in Hu. cbn [code] in Hu. replace (nf u (map Emit es)) with 0%nat in Hu by (clear; unfold nf; induction es; [reflexivity|assumption]). change (nfs u []) with 0%nat in Hu. lia.
      * intros u Ju. unfold with_threads in Ju. cbn [threads] in Ju. apply in_app_or in Ju. destruct Ju as [Ju|[<-|[]]]; [apply i_thr0; exact Ju|]. unfold okthr. cbn [payload code]. intros j Jj. apply in_map_iff in Jj. destruct Jj as (e & <- & _). eauto.
    + eexists. split; [reflexivity|]. fold t' s1. constructor; cbn [yta trig data tval threads parcels waits remaining log fired].
      * intros x. pose proof (i_cnt _ _ I x) as C. rewrite Pe in C. rewrite Pe1. cbn [tedges app] in C. exact C.
      * apply (i_yta _ _ I).
      * apply (i_trig _ _ I).
      * apply (i_fired _ _ I).
      * apply (i_once _ _ I).
      * intros u. pose proof (i_free _ _ I u) as F. rewrite Nf in F. change (trig s1 u) with (trig s u). lia.
      * intros u Hu. pose proof (i_free _ _ I u) as F. rewrite Nf in F. cbn [isfree] in F. destruct (dnode_dec u v) as [->|Nv]; [destruct (dnode_dec v v); [|congruence]; lia|]. rewrite upd_ne by assumption. apply (i_data _ _ I). rewrite Nf. lia.
      * exact Th1.
      * apply (i_order _ _ I).
  - apply deliver_inv. destruct I. constructor; try assumption. intros x. specialize (i_cnt0 x). rewrite Hp in i_cnt0. unfold with_parcels, awake in *. cbn [log parcels threads trig]. rewrite map_app in *. cbn [map fst] in i_cnt0. rewrite !count_occ_app in *. cbn [count_occ] in *. destruct (edge_dec e x); lia.
  - eexists. split; [reflexivity|]. destruct I. constructor; assumption.
  - eexists. split; [reflexivity|]. destruct I. constructor; assumption.
Qed.

(** ** The start *)
Definition quiet (s : est M) : Prop := (forall t, In t (threads s) -> code t = []) /\ parcels s = [].
Lemma mapM_source : forall ch, exists ps, mapM (source_prog loc outs) ch = Ok ps /\ cedges (concat ps) = flat_map outs ch /\ (forall v, nf v (concat ps) = 0%nat) /\ ((forall v, In v ch -> is_source v = true) -> covered (concat ps)).
Proof.
  induction ch as [|v ch (ps & H1 & H2 & H3 & H4)]; [exists []; cbn; auto|]. destruct (source_prog_ok v) as (c & Hc & (G1 & G2 & G3 & G4)). exists (c :: ps). cbn [mapM]. rewrite Hc. cbn [bind]. rewrite H1. cbn [bind]. split; [reflexivity|]. cbn [concat flat_map]. split; [rewrite cedges_app, G1, H2; reflexivity|]. split; [intros u; rewrite nf_app, G4, H3; reflexivity|].
  intros S. apply covered_app; [intros i u Ii Iu; left; rewrite (G2 i u Ii Iu); apply S; left; reflexivity|exact G3|apply H4; intros; apply S; right; assumption].
Qed.
Lemma quiet_pend : forall ts : list (thr M), (forall t, In t ts -> code t = []) -> pend ts = [] /\ (forall v, nfs v ts = 0%nat) /\ (forall t, In t ts -> okthr t).
Proof.
  intros ts H. split; [|split].
  - induction ts as [|t ts IH]; [reflexivity|]. rewrite pend_cons, (H t (or_introl eq_refl)), IH by (intros; apply H; right; assumption). reflexivity.
  - intros v. induction ts as [|t ts IH]; [reflexivity|]. rewrite nfs_cons, (H t (or_introl eq_refl)), IH by (intros; apply H; right; assumption). reflexivity.
  - intros t J. unfold okthr. rewrite (H t J). destruct (payload t); [intros i []|exact I].
Qed.
Lemma leaves_cnt : forall e, cnt (flat_map outs leaves) e = if is_source (efrom e) then cnt E e else 0%nat.
Proof.
  intros e. assert (G : forall l, NoDup l -> cnt (flat_map outs l) e = if in_dec dnode_dec (efrom e) l then cnt E e else 0%nat).
  { induction l as [|v l IH]; intros N; [reflexivity|]. inversion N; subst. cbn [flat_map]. rewrite count_occ_app, outs_cnt, IH by assumption. destruct (in_dec dnode_dec (efrom e) (v :: l)) as [J|J], (dnode_dec (efrom e) v) as [Q|Q], (in_dec dnode_dec (efrom e) l) as [K|K]; try lia; try (rewrite Q in K; contradiction); exfalso; cbn in J; intuition congruence. }
  rewrite G by apply (d_leaves _ _ _ _ _ _ _ D). destruct (in_dec dnode_dec (efrom e) leaves) as [J|J].
  - rewrite (d_leaf _ _ _ _ _ _ _ D _ J). reflexivity.
  - destruct (is_source (efrom e)) eqn:S; [|reflexivity]. destruct (cnt E e) eqn:C; [reflexivity|]. assert (K : In e E) by (apply (count_occ_In edge_dec); lia). apply (d_from _ _ _ _ _ _ _ D) in K. apply in_app_or in K. destruct K as [K|K]; [contradiction|]. rewrite (d_lco _ _ _ _ _ _ _ D _ K) in S. discriminate.
Qed.

(** ** Waiting for the end *)
Definition weight (r : Z) (w : wait) : Z := match w with Skip r' n => if r =? r' then Z.of_nat n else 0 | When r' _ => if r =? r' then 1 else 0 end.
Definition zsum (l : list Z) : Z := fold_right Z.add 0 l.
Lemma zsum_app : forall a b, zsum (a ++ b) = zsum a + zsum b. Proof. induction a; intros; cbn; [reflexivity|]. unfold zsum in *. rewrite IHa. lia. Qed.
Record InvW (s : est M) : Prop := {
  w_rem : forall r, 0 <= r < num_ranks -> remaining s r = zsum (map (weight r) (waits s));
  w_when : forall v, In v lcos -> trig s v = false -> In (When (loc v) v) (waits s);
  w_rank : forall r v, In (When r v) (waits s) -> In v lcos /\ loc v = r }.

Lemma weight_nonneg : forall r w, 0 <= weight r w. Proof. intros r [r' n|r' v]; cbn; destruct (r =? r'); lia. Qed.
Lemma zsum_zero : forall r l, zsum (map (weight r) l) = 0 -> forall w, In w l -> weight r w = 0.
Proof.
  induction l as [|w l IH]; intros H x J; [destruct J|]. cbn in H. fold (zsum (map (weight r) l)) in H. assert (0 <= zsum (map (weight r) l)) by (clear H IH J; induction l as [|a l IHl]; [cbn; lia|]; cbn; fold (zsum (map (weight r) l)); pose proof (weight_nonneg r a); lia). pose proof (weight_nonneg r w). destruct J as [<-|J]; [lia|]. apply IH; [lia|exact J].
Qed.
Lemma waits_of_sum : forall r r', zsum (map (weight r) (waits_of loc lcos r')) = if r =? r' then Z.of_nat (length lcos) else 0.
Proof.
  intros r r'. unfold waits_of. rewrite map_app, zsum_app. cbn [map zsum fold_right weight]. rewrite Z.add_0_r. assert (G : zsum (map (weight r) (map (When r') (filter (fun v => loc v =? r') lcos))) = if r =? r' then Z.of_nat (length (filter (fun v => loc v =? r') lcos)) else 0).
  { induction (filter (fun v => loc v =? r') lcos) as [|v l IH]; [destruct (r =? r'); reflexivity|]. cbn [map zsum fold_right weight]. fold (zsum (map (weight r) (map (When r') l))). rewrite IH. destruct (r =? r'); cbn [length]; lia. }
  rewrite G. destruct (r =? r'); [|reflexivity]. clear. induction lcos as [|v l IH]; [reflexivity|]. cbn [filter]. destruct (loc v =? r'); cbn [negb length]; lia.
Qed.
Lemma zseq_in : forall n a x, In x (zseq a n) <-> a <= x < a + Z.of_nat n.
Proof. intros n a x. unfold zseq. rewrite in_map_iff. split; [intros (k & <- & J); apply in_seq in J; lia|intros H; exists (Z.to_nat (x - a)); split; [lia|apply in_seq; lia]]. Qed.
Lemma zseq_S : forall n a, zseq a (S n) = zseq a n ++ [a + Z.of_nat n].
Proof. intros. unfold zseq. rewrite seq_S, map_app. reflexivity. Qed.
Lemma all_waits_sum : forall n r, zsum (map (weight r) (flat_map (waits_of loc lcos) (zseq 0 n))) = if (0 <=? r) && (r <? Z.of_nat n) then Z.of_nat (length lcos) else 0.
Proof.
  induction n as [|n IH]; intros r; [cbn; destruct (0 <=? r) eqn:A, (r <? 0) eqn:B; try reflexivity; apply Z.leb_le in A; apply Z.ltb_lt in B; lia|].
  rewrite zseq_S, flat_map_app, map_app, zsum_app, IH. cbn [flat_map]. rewrite app_nil_r, waits_of_sum. destruct (Z.leb_spec 0 r), (Z.ltb_spec r (Z.of_nat n)), (Z.ltb_spec r (Z.of_nat (S n))), (Z.eqb_spec r (0 + Z.of_nat n)); cbn [andb]; lia.
Qed.

Lemma launch_inv : forall chunks s, Permutation (concat chunks) leaves -> quiet s ->
  exists s', launch loc num_ranks inc outs lcos chunks s = Ok s' /\ Inv s' /\ InvW s' /\ data s' = data s /\ tval s' = tval s /\ log s' = [] /\ parcels s' = [] /\ (forall t, In t (threads s') -> payload t = None \/ code t = []).
Proof.
  intros chunks s P (Q & Qp). assert (Src : forall ch v, In ch chunks -> In v ch -> is_source v = true) by (intros ch v A B; apply (d_leaf _ _ _ _ _ _ _ D); eapply Permutation_in; [exact P|apply in_concat; eauto]).
  assert (Hm : exists cs, mapM (fun ch => do ps <- mapM (source_prog loc outs) ch; Ok (mkThr (M:=M) None (concat ps))) chunks = Ok cs /\ pend cs = flat_map outs (concat chunks) /\ (forall v, nfs v cs = 0%nat) /\ (forall t, In t cs -> okthr t) /\ (forall t, In t cs -> payload t = None)).
  { clear P. induction chunks as [|ch chunks IH]; [exists []; cbn; repeat split; intros; contradiction|]. destruct IH as (cs & H1 & H2 & H3 & H4 & H5); [intros; eapply Src; [right; eassumption|assumption]|]. destruct (mapM_source ch) as (ps & G1 & G2 & G3 & G4). exists (mkThr None (concat ps) :: cs). cbn [mapM]. rewrite G1. cbn [bind]. rewrite H1. cbn [bind]. split; [reflexivity|]. split; [rewrite pend_cons; cbn [code concat]; rewrite flat_map_app, G2, H2; reflexivity|]. split; [intros v; rewrite nfs_cons, H3; cbn [code]; rewrite G3; reflexivity|]. split; [|intros t [<-|J]; [reflexivity|auto]]. intros t [<-|J]; [|auto]. unfold okthr. cbn [payload code]. apply G4. intros v J. eapply Src; [left; reflexivity|exact J]. }
  destruct Hm as (cs & H1 & H2 & H3 & H4 & H5). destruct (quiet_pend _ Q) as (Q1 & Q2 & Q3). unfold launch. rewrite H1. cbn [bind]. eexists. split; [reflexivity|]. split; [|split; [|cbn; repeat (split; [auto|]); intros t J; apply in_app_or in J; destruct J; auto]].
  - constructor; cbn [yta trig data tval threads parcels waits remaining log fired].
    + intros e. rewrite Qp, pend_app, Q1, H2. unfold awake. cbn [trig map app]. rewrite orb_false_r. cbn [count_occ]. rewrite Nat.add_0_r. cbn [plus]. rewrite <- leaves_cnt. apply (proj1 (Permutation_count_occ edge_dec _ _)). apply Permutation_flat_map. exact P.
    + intros v. cbn. lia.
    + intros v. split; [discriminate|]. intros [A B]. rewrite (d_inc _ _ _ _ _ _ _ D) in B. destruct (into v E); [contradiction|cbn in B; lia].
    + intros v. split; [intros []|discriminate].
    + constructor.
    + intros v. rewrite nfs_app, Q2, H3. lia.
    + intros v. rewrite nfs_app, Q2, H3. lia.
    + intros t J. apply in_app_or in J. destruct J; auto.
    + intros l1 x l2 X. destruct l1; discriminate.
  - constructor; cbn [trig waits remaining].
    + intros r Hr. rewrite all_waits_sum. destruct (Z.leb_spec 0 r), (Z.ltb_spec r (Z.of_nat (Z.to_nat num_ranks))); cbn [andb]; lia.
    + intros v J _. apply in_flat_map. exists (loc v). pose proof (d_loc _ _ _ _ _ _ _ D v (in_or_app _ _ _ (or_intror J))). split; [apply zseq_in; lia|]. unfold waits_of. apply in_or_app. left. apply in_map. apply filter_In. split; [exact J|apply Z.eqb_refl].
    + intros r v J. apply in_flat_map in J. destruct J as (r' & _ & J). unfold waits_of in J. apply in_app_or in J. destruct J as [J|[J|[]]]; [|discriminate]. apply in_map_iff in J. destruct J as (u & K & J). injection K as -> ->. apply filter_In in J. destruct J as [J1 J2]. apply Z.eqb_eq in J2. auto.
Qed.

(** ** What a step leaves alone, and what it costs *)
Definition tcost (i : todo) : nat := match i with Emit _ => 2 | Ship _ es => 1 + 2 * length es | Free _ => 1 end.
Definition cost (c : list todo) : nat := list_sum (map tcost c).
Definition thcost (ts : list (thr M)) : nat := list_sum (map (fun t => cost (code t)) ts).
Definition pcost (v : dnode) : nat := match outs v with [] => 0 | _ => match lco_prog loc num_ranks outs v with Ok c => cost c | Fail _ => 0 end end.
Definition asleep (s : est M) (l : list dnode) : nat := list_sum (map (fun v => if trig s v then 0%nat else pcost v) l).
Definition measure (s : est M) : nat := (thcost (threads s) + length (parcels s) + length (waits s) + asleep s lcos)%nat.
Lemma cost_cons : forall i c, cost (i :: c) = (tcost i + cost c)%nat. Proof. reflexivity. Qed.
Lemma thcost_app : forall a b, thcost (a ++ b) = (thcost a + thcost b)%nat. Proof. intros. unfold thcost. rewrite map_app, list_sum_app. reflexivity. Qed.
Lemma thcost_cons : forall t b, thcost (t :: b) = (cost (code t) + thcost b)%nat. Proof. reflexivity. Qed.

Lemma deliver_frame : forall e m s s', InvH [e] s -> deliver zero add loc num_ranks outs e m s = Ok s' ->
  waits s' = waits s /\ remaining s' = remaining s /\ parcels s' = parcels s /\ (forall v, trig s v = true -> trig s' v = true) /\
  (thcost (threads s') + asleep s' lcos = thcost (threads s) + asleep s lcos)%nat.
Proof.
  intros e m s s' I H. destruct (inv_pend _ _ e I) as [_ Ie]; [right; right; left; reflexivity|]. destruct (deliver_eq e m s I Ie) as (ts & H1 & H2 & H3). rewrite H3 in H. injection H as <-. pose proof (yta_pos e s I) as Y. destruct (Z.eqb_spec (yta s (eto e) - 1) 0) as [Q|Q]; [|cbn; auto 6].
  unfold fire, set_op. cbn [waits remaining parcels trig threads]. repeat (split; [reflexivity|]). split; [intros v T; unfold upd; destruct (dnode_dec v (eto e)); auto|].
  assert (Tr : trig s (eto e) = false) by (destruct (trig s (eto e)) eqn:T; [apply (i_trig _ _ I) in T; lia|reflexivity]).
  assert (P : thcost ts = pcost (eto e)). { unfold pcost. destruct H1 as [->|(c & -> & _ & L)]; [rewrite (proj1 H2 eq_refl); reflexivity|]. destruct (outs (eto e)) eqn:O; [destruct H2 as [_ H2]; specialize (H2 eq_refl); discriminate|]. rewrite L. rewrite thcost_cons. cbn [code]. unfold thcost, list_sum. cbn [map fold_right]. lia. }
  rewrite thcost_app, P. unfold asleep. cbn [trig]. pose proof (d_to _ _ _ _ _ _ _ D e Ie) as J. pose proof (d_lcos _ _ _ _ _ _ _ D) as N. enough (G : (pcost (eto e) + list_sum (map (fun v => if upd dnode_dec (trig s) (eto e) true v then 0%nat else pcost v) lcos) = list_sum (map (fun v => if trig s v then 0%nat else pcost v) lcos))%nat) by lia.
  clear - J N Tr. induction lcos as [|v l IH]; [destruct J|]. inversion N; subst. unfold list_sum in *. cbn [map fold_right]. destruct J as [->|J].
  - rewrite upd_eq, Tr. enough (map (fun v => if upd dnode_dec (trig s) (eto e) true v then 0%nat else pcost v) l = map (fun v => if trig s v then 0%nat else pcost v) l) as -> by lia. apply map_ext_in. intros u Ju. rewrite upd_ne by congruence. reflexivity.
  - rewrite upd_ne by congruence. specialize (IH J H2). lia.
Qed.

Lemma hand_thread : forall s a t b e c, Inv s -> threads s = a ++ t :: b -> code t = Emit e :: c -> InvH [e] (with_threads (a ++ mkThr (payload t) c :: b) s).
Proof.
  intros s a t b e c I Ht Hc. assert (Jt : In t (threads s)) by (rewrite Ht; apply in_elt). pose proof (i_thr _ _ I t Jt) as Ot.
  assert (Nf : forall v, nfs v (threads s) = nfs v (a ++ mkThr (payload t) c :: b)) by (intros v; rewrite Ht, !nfs_app, !nfs_cons, Hc, nf_cons; cbn [isfree code]; lia).
  destruct I. constructor; unfold with_threads, awake in *; cbn [yta trig data tval threads parcels waits remaining log fired]; try assumption.
  - intros x. specialize (i_cnt0 x). rewrite Ht, pend_app, pend_cons, Hc in i_cnt0. rewrite pend_app, pend_cons. cbn [code]. change (cedges (Emit e :: c)) with (e :: cedges c) in i_cnt0. rewrite !count_occ_app in *. cbn [app count_occ] in *. destruct (edge_dec e x); lia.
  - intros v. rewrite <- Nf. apply i_free0.
  - intros v H. rewrite <- Nf in H. apply i_data0. exact H.
  - intros u J. apply in_app_or in J. destruct J as [J|[<-|J]]; [apply i_thr0; rewrite Ht; apply in_or_app; left; exact J| |apply i_thr0; rewrite Ht; apply in_or_app; right; right; exact J]. unfold okthr in *. cbn [payload code]. rewrite Hc in Ot. destruct (payload t); [intros j Jj; apply Ot; right; exact Jj|apply Ot].
Qed.
Lemma hand_parcel : forall s a e m b, Inv s -> parcels s = a ++ (e, m) :: b -> InvH [e] (with_parcels (a ++ b) s).
Proof. intros s a e m b I Hp. destruct I. constructor; try assumption. intros x. specialize (i_cnt0 x). rewrite Hp in i_cnt0. unfold with_parcels, awake in *. cbn [log parcels threads trig]. rewrite map_app in *. cbn [map fst] in i_cnt0. rewrite !count_occ_app in *. cbn [count_occ] in *. destruct (edge_dec e x); lia. Qed.

Notation step := (estep zero add op_val sources loc num_ranks outs).
Lemma step_frame : forall s s', Inv s -> step s (Ok s') -> (measure s' < measure s)%nat /\ (forall v, trig s v = true -> trig s' v = true).
Proof.
  intros s s' I St. inversion St as [s0 a t b i c Ht Hc Es Er|s0 a e m b Hp Es Er|s0 a r n b Hw Es Er|s0 a r v b Hw Hv Es Er]; clear St; subst s0.
  - destruct i as [e|v es|v]; cbn [perform] in Er.
    + pose proof (hand_thread s a t b e c I Ht Hc) as H1. set (s1 := with_threads (a ++ mkThr (payload t) c :: b) s) in *. destruct (assert_ (served e)) as [[]|]; [|discriminate]. cbn [bind] in Er. destruct (holds sources t (efrom e) s1) as [d|]; [|discriminate]. cbv zeta in Er.
      assert (T1 : (thcost (threads s) = 2 + thcost (threads s1))%nat) by (unfold s1, with_threads; cbn [threads]; rewrite Ht, !thcost_app, !thcost_cons, Hc, cost_cons; cbn [tcost code]; lia).
      destruct (t_op (eop e)).
      * destruct (deliver_frame e _ s1 s' H1 Er) as (W & R & P & T & Ms). split; [|exact T]. unfold measure. rewrite W, P. change (waits s1) with (waits s). change (parcels s1) with (parcels s). change (asleep s1 lcos) with (asleep s lcos) in Ms. lia.
      * injection Er as <-. split; [|auto]. unfold measure. cbn [threads parcels waits]. rewrite app_length. change (waits s1) with (waits s). change (parcels s1) with (parcels s). unfold asleep. cbn [trig length]. change (trig s1) with (trig s). change (threads s1) with (a ++ mkThr (payload t) c :: b) in T1. lia.
    + destruct (holds sources t v _) as [d|]; [|discriminate]. injection Er as <-. split; [|auto]. unfold measure, with_threads, asleep. cbn [threads parcels waits trig]. rewrite Ht, !thcost_app, !thcost_cons, Hc, cost_cons. cbn [tcost code]. assert (C : cost (map Emit es) = (2 * length es)%nat) by (clear; unfold cost; induction es as [|e es IH]; [reflexivity|]; cbn [map length]; unfold list_sum in *; cbn [fold_right tcost]; lia). rewrite C. change (thcost []) with 0%nat. lia.
    + injection Er as <-. split; [|auto]. unfold measure, with_threads, asleep. cbn [threads parcels waits trig]. rewrite Ht, !thcost_app, !thcost_cons, Hc, cost_cons. cbn [tcost code]. lia.
  - pose proof (hand_parcel s a e m b I Hp) as H1. destruct (deliver_frame e m _ s' H1 Er) as (W & R & P & T & Ms). split; [|exact T]. unfold measure. rewrite W, P. unfold with_parcels in *. cbn [waits parcels threads trig] in *. rewrite Hp, !app_length. cbn [length]. change (asleep {| yta := yta s; trig := trig s; data := data s; tval := tval s; threads := threads s; parcels := a ++ b; waits := waits s; remaining := remaining s; log := log s; fired := fired s |} lcos) with (asleep s lcos) in Ms. lia.
  - try injection Er as <-; try subst s'. split; [|auto]. unfold measure, notify, with_waits, asleep. cbn [threads parcels waits trig]. rewrite Hw, !app_length. cbn [length]. lia.
  - try injection Er as <-; try subst s'. split; [|auto]. unfold measure, notify, with_waits, asleep. cbn [threads parcels waits trig]. rewrite Hw, !app_length. cbn [length]. lia.
Qed.
Lemma step_waits : forall s s', Inv s -> InvW s -> step s (Ok s') -> InvW s'.
Proof.
  intros s s' I W St. pose proof (step_frame s s' I St) as (_ & T). inversion St as [s0 a t b i c Ht Hc Es Er|s0 a e m b Hp Es Er|s0 a r n b Hw Es Er|s0 a r v b Hw Hv Es Er]; clear St; subst s0.
  - assert (X : waits s' = waits s /\ remaining s' = remaining s).
    { destruct i as [e|v es|v]; cbn [perform] in Er.
      - pose proof (hand_thread s a t b e c I Ht Hc) as H1. set (s1 := with_threads (a ++ mkThr (payload t) c :: b) s) in *. destruct (assert_ (served e)) as [[]|]; [|discriminate]. cbn [bind] in Er. destruct (holds sources t (efrom e) s1) as [d|]; [|discriminate]. cbv zeta in Er. destruct (t_op (eop e)).
        + destruct (deliver_frame e _ s1 s' H1 Er) as (W1 & R & _). rewrite W1, R. auto.
        + injection Er as <-. auto.
      - destruct (holds sources t v _) as [d|]; [|discriminate]. injection Er as <-. auto.
      - injection Er as <-. auto. }
    destruct X as [X1 X2]. destruct W. constructor; [rewrite X1, X2; exact w_rem0| |rewrite X1; exact w_rank0]. rewrite X1. intros u Ju Tu. apply w_when0; [exact Ju|]. destruct (trig s u) eqn:Q; [rewrite (T u Q) in Tu; discriminate|reflexivity].
  - pose proof (hand_parcel s a e m b I Hp) as H1. destruct (deliver_frame e m _ s' H1 Er) as (W1 & R & _). destruct W. constructor; [rewrite W1, R; exact w_rem0| |rewrite W1; exact w_rank0]. rewrite W1. intros u Ju Tu. apply w_when0; [exact Ju|]. destruct (trig s u) eqn:Q; [rewrite (T u Q) in Tu; discriminate|reflexivity].
  - try injection Er as <-; try subst s'. destruct W. constructor; unfold notify, with_waits in *; cbn [remaining waits trig] in *.
    + intros q Hq. specialize (w_rem0 q Hq). rewrite Hw, map_app, zsum_app in w_rem0. cbn [map zsum fold_right weight] in w_rem0. fold (zsum (map (weight q) b)) in w_rem0. rewrite map_app, zsum_app. destruct (Z.eqb_spec q r) as [->|Nq]; [rewrite upd_eq|rewrite upd_ne by assumption]; lia.
    + intros u Ju Tu. specialize (w_when0 u Ju Tu). rewrite Hw in w_when0. apply in_app_or in w_when0. apply in_or_app. destruct w_when0 as [X|[X|X]]; [left; exact X|discriminate|right; exact X].
    + intros q u J. apply w_rank0. rewrite Hw. apply in_app_or in J. apply in_or_app. destruct J; [left|right; right]; assumption.
  - try injection Er as <-; try subst s'. destruct W. constructor; unfold notify, with_waits in *; cbn [remaining waits trig] in *.
    + intros q Hq. specialize (w_rem0 q Hq). rewrite Hw, map_app, zsum_app in w_rem0. cbn [map zsum fold_right weight] in w_rem0. fold (zsum (map (weight q) b)) in w_rem0. rewrite map_app, zsum_app. destruct (Z.eqb_spec q r) as [->|Nq]; [rewrite upd_eq|rewrite upd_ne by assumption]; lia.
    + intros u Ju Tu. specialize (w_when0 u Ju Tu). rewrite Hw in w_when0. apply in_app_or in w_when0. apply in_or_app. destruct w_when0 as [X|[X|X]]; [left; exact X|injection X as _ ->; congruence|right; exact X].
    + intros q u J. apply w_rank0. rewrite Hw. apply in_app_or in J. apply in_or_app. destruct J; [left|right; right]; assumption.
Qed.

Notation runs := (eruns zero add op_val sources loc num_ranks outs).
Lemma runs_inv : forall n s s', runs n s s' -> Inv s -> InvW s -> Inv s' /\ InvW s' /\ (measure s' + n <= measure s)%nat.
Proof.
  intros n s s' R I W. induction R as [s|n s s1 s2 R IH St]; [split; [exact I|split; [exact W|lia]]|]. destruct (IH I W) as (I1 & W1 & L). destruct (step_inv s1 _ I1 St) as (x & X & I2). injection X as <-. destruct (step_frame _ _ I1 St) as (Lt & _). split; [exact I2|]. split; [exact (step_waits _ _ I1 W1 St)|lia].
Qed.

(** ** Progress *)
Lemma steps_enabled : forall s, Inv s -> (exists r, step s r) \/ ((forall t, In t (threads s) -> code t = []) /\ parcels s = [] /\ forall w, In w (waits s) -> exists r v, w = When r v /\ trig s v = false).
Proof.
  intros s I. assert (A : (exists r, step s r) \/ forall t, In t (threads s) -> code t = []).
  { destruct (Exists_dec (fun t => code t <> []) (threads s)) as [X|X]; [intros t; destruct (code t); [right; congruence|left; discriminate]| |].
    - apply Exists_exists in X. destruct X as (t & J & N). apply in_split in J. destruct J as (a & b & Q). destruct (code t) as [|i c] eqn:C; [contradiction|]. left. eexists. eapply do_thread; eassumption.
    - right. intros t J. destruct (code t) eqn:C; [reflexivity|]. exfalso. apply X. apply Exists_exists. exists t. split; [exact J|rewrite C; discriminate]. }
  destruct A as [A|A]; [left; exact A|]. destruct (parcels s) as [|[e m] b] eqn:P; [|left; eexists; eapply (do_parcel _ _ _ _ _ _ _ s []); exact P].
  assert (B : (exists r, step s r) \/ forall w, In w (waits s) -> exists r v, w = When r v /\ trig s v = false).
  { destruct (Exists_dec (fun w => match w with Skip _ _ => True | When _ v => trig s v = true end) (waits s)) as [X|X]; [intros [r n|r v]; [left; exact Logic.I|destruct (trig s v); [left; reflexivity|right; discriminate]]| |].
    - apply Exists_exists in X. destruct X as (w & J & N). apply in_split in J. destruct J as (a & b & Q). destruct w as [r n|r v]; left; eexists; [eapply do_skip|eapply do_when]; eassumption.
    - right. intros w J. destruct w as [r n|r v]; [exfalso; apply X; apply Exists_exists; exists (Skip r n); auto|]. exists r, v. split; [reflexivity|]. destruct (trig s v) eqn:T; [|reflexivity]. exfalso. apply X. apply Exists_exists. exists (When r v). auto. }
  destruct B as [B|B]; [left; exact B|right; auto].
Qed.
(** When no thread and no message is left, an LCO that has not triggered waits for one that
    has not. *)
Lemma stuck_pred : forall s v, Inv s -> (forall t, In t (threads s) -> code t = []) -> parcels s = [] -> into v E <> [] -> trig s v = false ->
  exists e, In e E /\ eto e = v /\ is_source (efrom e) = false /\ trig s (efrom e) = false.
Proof.
  intros s v I Th Pc Fd Tr. destruct (quiet_pend _ Th) as (P0 & _ & _).
  destruct (Exists_dec (fun e => awake s (efrom e) = false) (into v E)) as [X|X]; [intros e; destruct (awake s (efrom e)); [right; discriminate|left; reflexivity]| |].
  - apply Exists_exists in X. destruct X as (e & J & A). apply filter_In in J. destruct J as [J1 J2]. exists e. destruct (dnode_dec (eto e) v); [|discriminate]. unfold awake in A. apply orb_false_iff in A. tauto.
  - exfalso. assert (C : forall e, In e (into v E) -> cnt (elog s) e = cnt E e).
    { intros e J. pose proof (i_cnt _ _ I e) as C. rewrite P0, Pc in C. cbn [map count_occ] in C. destruct (awake s (efrom e)) eqn:A; [lia|]. exfalso. apply X. apply Exists_exists. eauto. }
    assert (P : Permutation (into v (elog s)) (into v E)).
    { apply (Permutation_count_occ edge_dec). intros e. assert (F : forall l, cnt (into v l) e = if dnode_dec (eto e) v then cnt l e else 0%nat).
      { induction l as [|x l IH]; [destruct (dnode_dec (eto e) v); reflexivity|]. rewrite into_cons. destruct (dnode_dec (eto x) v) as [Q|Q]; cbn [count_occ]; destruct (edge_dec x e) as [->|N]; rewrite IH; destruct (dnode_dec (eto e) v); congruence. }
      rewrite !F. destruct (dnode_dec (eto e) v) as [Q|Q]; [|reflexivity]. destruct (in_dec edge_dec e E) as [J|J]; [apply C; apply filter_In; split; [exact J|destruct (dnode_dec (eto e) v); [reflexivity|contradiction]]|]. pose proof (inv_sub _ _ I e) as S. apply (count_occ_not_In edge_dec) in J. lia. }
    apply Permutation_length in P. pose proof (i_yta _ _ I v) as Y. rewrite (d_inc _ _ _ _ _ _ _ D) in Y. assert (yta s v = 0) by lia. assert (trig s v = true) by (apply (i_trig _ _ I); auto). congruence.
Qed.
End Inv.
