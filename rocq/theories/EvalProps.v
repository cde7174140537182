(** C30, C48: every schedule of an evaluation delivers each edge once, ends, and signals its
    end; a second evaluation does the same. *)
From Coq Require Import ZArith List Bool Arith Lia Permutation.
From Verif Require Import Base ListFacts LookupModel TreeModel DagModel MethodModel DagSpec DagPaths DagSound MethodProofs MethodSound DirectBHProofs FmmProofs Fmm97Proofs MethodProps EdgeGroupModel EdgeGroupSpec LinkModel LinkSpec EvalModel EvalSpec EvalProofs EvalValues.
Import ListNotations.
Open Scope Z_scope.

Lemma cnt_into : forall v l e, cnt (into v l) e = if dnode_dec (eto e) v then cnt l e else 0%nat.
Proof.
  intros v l e. induction l as [|x l IH]; [destruct (dnode_dec (eto e) v); reflexivity|]. rewrite into_cons. destruct (dnode_dec (eto x) v) as [Q|Q]; cbn [count_occ]; rewrite ?IH; destruct (dnode_dec (eto e) v), (edge_dec x e); congruence.
Qed.

Lemma in_into : forall v l e, In e (into v l) -> In e l /\ eto e = v.
Proof. intros v l e J. apply filter_In in J. destruct J as [J X]. split; [exact J|]. destruct (dnode_dec (eto e) v); [assumption|discriminate]. Qed.

Section Any.
Context {M : Type} (zero : M) (add : M -> M -> M) (op_val : edge -> M -> M) (sources : dnode -> M).
Context (loc : dnode -> Z) (num_ranks : Z) (inc : dnode -> nat) (outs : dnode -> list edge).
Context (leaves lcos : list dnode) (E : list edge).
Context (D : is_dag loc num_ranks inc outs leaves lcos E).
Notation reached := (evaluates zero add op_val sources loc num_ranks inc outs leaves lcos).
Notation step := (estep zero add op_val sources loc num_ranks outs).

Lemma reached_inv : forall s0 s, idle s0 -> reached s0 s -> InvH inc E [] s /\ InvW loc num_ranks lcos s.
Proof.
  intros s0 s Q (ch & s1 & n & P & L & R). destruct (launch_inv zero add op_val sources loc num_ranks inc outs leaves lcos E D ch s0 P Q) as (s1' & L' & I & W & _). rewrite L in L'. injection L' as <-.
  destruct (runs_inv zero add op_val sources loc num_ranks inc outs leaves lcos E D n s1 s R I W) as (I' & W' & _). auto.
Qed.
Lemma reached_val : monoid zero add -> forall val, solves zero add op_val sources E val -> forall s0 s, idle s0 -> clean outs s0 -> reached s0 s -> InvV zero add op_val outs val (data s0) (tval s0) [] s.
Proof.
  intros Mo val Sv s0 s Q C (ch & s1 & n & P & L & R). destruct (launch_inv zero add op_val sources loc num_ranks inc outs leaves lcos E D ch s0 P Q) as (s1' & L' & I & W & Dd & Tt & Lg & Pc & Py). rewrite L in L'. injection L' as <-.
  eapply (runs_val zero add op_val sources loc num_ranks inc outs leaves lcos E D Mo val Sv _ _ C); try eassumption. eapply launch_val; eassumption.
Qed.
(** All triggered: everything is delivered. *)
Lemma all_delivered : forall s : est M, InvH inc E [] s -> (forall v, In v lcos -> trig s v = true) -> Permutation (map fst (log s)) E /\ parcels s = [] /\ pend (threads s) = [].
Proof.
  intros s I H. assert (C : forall e, cnt (map fst (log s)) e = cnt E e).
  { intros e. destruct (in_dec edge_dec e E) as [J|J].
    - pose proof (H _ (d_to _ _ _ _ _ _ _ D e J)) as T. pose proof (inv_full zero add op_val sources loc num_ranks inc outs leaves lcos E D [] s (eto e) I T) as P. apply (proj1 (Permutation_count_occ edge_dec _ _)) with (x := e) in P. rewrite !cnt_into in P. destruct (dnode_dec (eto e) (eto e)); [exact P|congruence].
    - pose proof (inv_sub zero add op_val inc E [] s I e) as S. rewrite (proj1 (count_occ_not_In edge_dec E e) J) in *. lia. }
  split; [apply (Permutation_count_occ edge_dec); exact C|].
  assert (Z : forall e, cnt (map fst (parcels s)) e = 0%nat /\ cnt (pend (threads s)) e = 0%nat).
  { intros e. pose proof (i_cnt _ _ _ _ I e) as X. rewrite C in X. destruct (awake s (efrom e)); lia. }
  split.
  - destruct (parcels s) as [|[e m] l] eqn:P; [reflexivity|]. destruct (Z e) as [Z1 _]. cbn [map fst] in Z1. rewrite count_occ_cons_eq in Z1 by reflexivity. discriminate.
  - destruct (pend (threads s)) as [|e l] eqn:P; [reflexivity|]. destruct (Z e) as [_ Z1]. rewrite count_occ_cons_eq in Z1 by reflexivity. discriminate.
Qed.
Lemma no_pend_frees : forall s : est M, pend (threads s) = [] -> only_frees s.
Proof.
  intros s P t i J Ji. assert (G : forall e, In e (tedges i) -> False).
  { intros e Je. assert (X : In e (pend (threads s))) by (apply in_flat_map; exists t; split; [exact J|]; apply in_flat_map; exists i; auto). rewrite P in X. destruct X. }
  destruct i as [e|v es|v]; [apply (G e); left; reflexivity| |exact Logic.I]. destruct es as [|e es]; [reflexivity|]. exfalso. apply (G e). left. reflexivity.
Qed.
Lemma trig_in : forall (s : est M) v, InvH inc E [] s -> trig s v = true -> In v lcos.
Proof.
  intros s v I T. apply (i_trig _ _ _ _ I) in T. destruct T as [T _]. destruct (into v E) as [|e l] eqn:Q; [contradiction|]. assert (J : In e (into v E)) by (rewrite Q; left; reflexivity). apply filter_In in J. destruct J as [J X]. destruct (dnode_dec (eto e) v) as [<-|]; [|discriminate]. apply (d_to _ _ _ _ _ _ _ D). exact J.
Qed.
(** Nothing can be done: everything is triggered, if the graph has no cycle and no LCO lacks
    inputs. *)
Lemma stuck_all : no_cycle E -> all_fed lcos E -> forall s : est M, InvH inc E [] s -> (forall t, In t (threads s) -> code t = []) -> parcels s = [] -> forall v, In v lcos -> trig s v = true.
Proof.
  intros N F s I Th Pa. destruct (order_exists E N) as (rk & Hr). assert (G : forall n v, (rk v < n)%nat -> In v lcos -> trig s v = true).
  { induction n as [|n IH]; intros v L J; [lia|]. destruct (trig s v) eqn:T; [reflexivity|]. destruct (stuck_pred zero add op_val sources loc num_ranks inc outs leaves lcos E D s v I Th Pa (F v J) T) as (e & Je & Ev & So & Te). exfalso. specialize (Hr e Je). rewrite Ev in Hr. rewrite IH in Te; [discriminate|lia|].
    pose proof (d_from _ _ _ _ _ _ _ D e Je) as K. apply in_app_or in K. destruct K as [K|K]; [|exact K]. rewrite (d_leaf _ _ _ _ _ _ _ D _ K) in So. discriminate. }
  intros v. apply (G (S (rk v))). lia.
Qed.
Lemma remaining_pos : forall s : est M, InvW loc num_ranks lcos s -> forall r, 0 <= r < num_ranks -> 0 <= remaining s r /\ (remaining s r = 0 -> forall v, In v lcos -> loc v = r -> trig s v = true).
Proof.
  intros s W r Hr. rewrite (w_rem _ _ _ _ W r Hr). split.
  - clear W. induction (waits s) as [|w l IH]; [cbn; lia|]. cbn [map zsum fold_right]. change (fold_right Z.add 0 (map (weight r) l)) with (zsum (map (weight r) l)). pose proof (weight_nonneg zero add op_val sources r w). lia.
  - intros Z v J Lv. destruct (trig s v) eqn:T; [reflexivity|]. pose proof (zsum_zero zero add op_val sources r _ Z _ (w_when _ _ _ _ W v J T)) as X. cbn in X. rewrite Lv, Z.eqb_refl in X. discriminate.
Qed.

(** ** C30 *)
(** No step of any schedule violates an assertion, follows a null pointer or sets an LCO more
    often than it counts. *)
Theorem C30_safe : forall s0, idle s0 ->
  (forall chunks, Permutation (concat chunks) leaves -> exists s1, launch loc num_ranks inc outs lcos chunks s0 = Ok s1) /\
  (forall s r, reached s0 s -> step s r -> exists s', r = Ok s').
Proof.
  intros s0 Q. split.
  - intros ch P. destruct (launch_inv zero add op_val sources loc num_ranks inc outs leaves lcos E D ch s0 P Q) as (s1 & L & _). exists s1. exact L.
  - intros s r R St. destruct (reached_inv s0 s Q R) as [I _]. destruct (step_inv zero add op_val sources loc num_ranks inc outs leaves lcos E D s r I St) as (s' & X & _). exists s'. exact X.
Qed.
(** In every state the deliveries so far are some of the edges, none more often than it
    occurs; each came after all inputs of its origin; an LCO has triggered if and only if
    all of its inputs (and at least one) have been delivered, and never twice. *)
Theorem C30_delivery : forall s0 s, idle s0 -> reached s0 s ->
  (exists rest, Permutation E (map fst (log s) ++ rest)) /\
  (forall l1 e m l2, log s = l1 ++ (e, m) :: l2 -> is_source (efrom e) = true \/ Permutation (into (efrom e) (map fst l1)) (into (efrom e) E)) /\
  NoDup (fired s) /\
  (forall v, In v (fired s) <-> trig s v = true) /\
  (forall v, trig s v = true <-> into v E <> [] /\ Permutation (into v (map fst (log s))) (into v E)).
Proof.
  intros s0 s Q R. destruct (reached_inv s0 s Q R) as [I W]. split; [apply sub_multi; intros e; pose proof (inv_sub zero add op_val inc E [] s I e); lia|]. split; [intros l1 e m l2 L; exact (i_order _ _ _ _ I l1 (e, m) l2 L)|]. split; [exact (i_once _ _ _ _ I)|]. split; [exact (i_fired _ _ _ _ I)|].
  intros v. split.
  - intros T. split; [apply (i_trig _ _ _ _ I) in T; apply T|]. exact (inv_full zero add op_val sources loc num_ranks inc outs leaves lcos E D [] s v I T).
  - intros [A B]. apply (i_trig _ _ _ _ I). split; [exact A|]. pose proof (i_yta _ _ _ _ I v) as Y. rewrite (Permutation_length B), (d_inc _ _ _ _ _ _ _ D) in Y. lia.
Qed.
(** Every schedule ends, within a number of steps known at the start, and the only states
    without a next step are those where all is done: each edge delivered exactly once, each
    LCO triggered exactly once, all ranks notified. *)
Theorem C30_ends : no_cycle E -> all_fed lcos E -> forall s0, idle s0 ->
  (forall chunks s1, Permutation (concat chunks) leaves -> launch loc num_ranks inc outs lcos chunks s0 = Ok s1 ->
     exists bound, forall n s, eruns zero add op_val sources loc num_ranks outs n s1 s -> (n <= bound)%nat) /\
  (forall s, reached s0 s -> (exists r, step s r) \/ over s) /\
  (forall s, reached s0 s -> over s -> Permutation (map fst (log s)) E /\ Permutation (fired s) lcos /\ forall r, 0 <= r < num_ranks -> remaining s r = 0).
Proof.
  intros N F s0 Q. split; [|split].
  - intros ch s1 P L. destruct (launch_inv zero add op_val sources loc num_ranks inc outs leaves lcos E D ch s0 P Q) as (s1' & L' & I & W & _). rewrite L in L'. injection L' as <-. exists (measure loc num_ranks outs lcos s1). intros n s R. destruct (runs_inv zero add op_val sources loc num_ranks inc outs leaves lcos E D n s1 s R I W) as (_ & _ & X). lia.
  - intros s R. destruct (reached_inv s0 s Q R) as [I W]. destruct (steps_enabled zero add op_val sources loc num_ranks inc outs E s I) as [X|(Th & Pa & Wa)]; [left; exact X|right]. split; [exact Th|]. split; [exact Pa|]. destruct (waits s) as [|w l] eqn:Ew; [reflexivity|]. destruct (Wa w (or_introl eq_refl)) as (r & v & -> & T). destruct (w_rank _ _ _ _ W r v) as [J _]; [rewrite Ew; left; reflexivity|]. rewrite (stuck_all N F s I Th Pa v J) in T. discriminate.
  - intros s R (Th & Pa & Wa). destruct (reached_inv s0 s Q R) as [I W]. pose proof (stuck_all N F s I Th Pa) as T. split; [apply (all_delivered s I T)|]. split.
    + apply NoDup_Permutation; [exact (i_once _ _ _ _ I)|exact (d_lcos _ _ _ _ _ _ _ D)|]. intros v. split; [intros J; apply (trig_in s v I); apply (i_fired _ _ _ _ I); exact J|intros J; apply (i_fired _ _ _ _ I); apply T; exact J].
    + intros r Hr. rewrite (w_rem _ _ _ _ W r Hr), Wa. reflexivity.
Qed.
(** A rank is told that the evaluation is over only when all LCOs it owns have triggered;
    once all ranks are told, every edge has been delivered and nothing but the release of
    expansion data is left. *)
Theorem C30_signal : forall s0 s, idle s0 -> reached s0 s ->
  (forall r, 0 <= r < num_ranks -> 0 <= remaining s r /\ (remaining s r = 0 -> forall v, In v lcos -> loc v = r -> trig s v = true)) /\
  ((forall r, 0 <= r < num_ranks -> remaining s r = 0) -> Permutation (map fst (log s)) E /\ Permutation (fired s) lcos /\ parcels s = [] /\ only_frees s).
Proof.
  intros s0 s Q R. destruct (reached_inv s0 s Q R) as [I W]. split; [apply (remaining_pos s W)|]. intros Z. assert (T : forall v, In v lcos -> trig s v = true) by (intros v J; pose proof (d_loc _ _ _ _ _ _ _ D v (in_or_app _ _ _ (or_intror J))) as Lv; apply (remaining_pos s W (loc v) Lv); auto).
  destruct (all_delivered s I T) as (A & B & C). split; [exact A|]. split; [|split; [exact B|apply no_pend_frees; exact C]].
  apply NoDup_Permutation; [exact (i_once _ _ _ _ I)|exact (d_lcos _ _ _ _ _ _ _ D)|]. intros v. split; [intros J; apply (trig_in s v I); apply (i_fired _ _ _ _ I); exact J|intros J; apply (i_fired _ _ _ _ I); apply T; exact J].
Qed.
(** One LCO without inputs and the evaluation never ends: its rank is never told. *)
Theorem C30_starved_hangs : forall s0 s v, idle s0 -> reached s0 s -> In v lcos -> into v E = [] -> trig s v = false /\ 0 < remaining s (loc v) /\ ~ over s.
Proof.
  intros s0 s v Q R J Ev. destruct (reached_inv s0 s Q R) as [I W]. assert (T : trig s v = false) by (destruct (trig s v) eqn:T; [|reflexivity]; apply (i_trig _ _ _ _ I) in T; destruct T; contradiction). split; [exact T|].
  pose proof (d_loc _ _ _ _ _ _ _ D v (in_or_app _ _ _ (or_intror J))) as Lv. destruct (remaining_pos s W (loc v) Lv) as [A B]. split.
  - destruct (Z.eq_dec (remaining s (loc v)) 0) as [Z|Z]; [rewrite (B Z v J eq_refl) in T; discriminate|lia].
  - intros (_ & _ & Wa). pose proof (w_when _ _ _ _ W v J T) as K. rewrite Wa in K. destruct K.
Qed.
(** The values.  They are those of the equations of the graph (which have exactly one solution),
    whatever the order of the additions: each delivery carries the value its edge makes of
    the value of its origin, and a target leaf gains its value when it triggers. *)
Theorem C30_values : monoid zero add -> forall val, solves zero add op_val sources E val -> forall s0 s, idle s0 -> clean outs s0 -> reached s0 s ->
  (forall e m, In (e, m) (log s) -> m = op_val e (val (efrom e))) /\
  (forall v, is_target v = true -> trig s v = true -> tval s v = add (tval s0 v) (val v)) /\
  (forall v, is_target v = true -> into v E = [] -> tval s v = tval s0 v).
Proof.
  intros Mo val Sv s0 s Q C R. destruct (reached_inv s0 s Q R) as [I W]. pose proof (reached_val Mo val Sv s0 s Q C R) as V. assert (L : forall e m, In (e, m) (log s) -> m = op_val e (val (efrom e))) by (intros e m J; apply (v_log _ _ _ _ _ _ _ _ _ V); apply in_or_app; left; exact J).
  split; [exact L|]. split.
  - intros v Tv T. rewrite (v_tgt _ _ _ _ _ _ _ _ _ V v Tv), (fold_sum zero add Mo). f_equal. apply (full_sum zero add op_val sources E Mo val Sv); [|exact L|exact (inv_full zero add op_val sources loc num_ranks inc outs leaves lcos E D [] s v I T)]. destruct v as [[[] p] []]; try discriminate Tv; reflexivity.
  - intros v Tv Ev. rewrite (v_tgt _ _ _ _ _ _ _ _ _ V v Tv). replace (vals v (log s)) with (@nil M); [reflexivity|]. symmetry. unfold vals. replace (filter _ (log s)) with (@nil (edge * M)); [reflexivity|]. symmetry. assert (G : forall x, In x (log s) -> eto (fst x) <> v).
    + intros x J X. assert (K : In (fst x) E) by (pose proof (inv_sub zero add op_val inc E [] s I (fst x)) as Z; apply (count_occ_In edge_dec); assert (0 < cnt (map fst (log s)) (fst x))%nat by (apply (count_occ_In edge_dec); apply in_map; exact J); lia). assert (In (fst x) (into v E)) by (apply filter_In; split; [exact K|]; destruct (dnode_dec (eto (fst x)) v); [reflexivity|contradiction]). rewrite Ev in H. destruct H.
    + clear - G. induction (log s) as [|x l IH]; [reflexivity|]. cbn [filter]. destruct (dnode_dec (eto (fst x)) v) as [X|X]; [exfalso; exact (G x (or_introl eq_refl) X)|]. apply IH. intros; apply G; right; assumption.
Qed.

(** ** C48 *)
(** Once an evaluation has come to its very end, the data of the expansions with outputs is
    gone, so another may follow; it delivers the same contributions, and the targets gain
    the same values again on top of the first ones. *)
Theorem C48_repeats : monoid zero add -> no_cycle E -> all_fed lcos E -> forall s0 s1 s2, idle s0 -> clean outs s0 -> reached s0 s1 -> over s1 -> reached s1 s2 ->
  idle s1 /\ clean outs s1 /\
  (over s2 -> Permutation (log s2) (log s1) /\ clean outs s2) /\
  (forall v, is_target v = true -> In v lcos -> exists m, tval s1 v = add (tval s0 v) m /\ (trig s2 v = true -> tval s2 v = add (tval s1 v) m)).
Proof.
  intros Mo N F s0 s1 s2 Q0 C0 R1 O1 R2. destruct (solution_exists zero add op_val sources E N) as (val & Sv).
  assert (Cl : forall a b, idle a -> clean outs a -> reached a b -> over b -> clean outs b).
  { intros a b Qa Ca Rb (Th & Pa & Wa). destruct (reached_inv a b Qa Rb) as [I W]. pose proof (reached_val Mo val Sv a b Qa Ca Rb) as V. pose proof (stuck_all N F b I Th Pa) as T. intros v Ov. destruct (is_source v) eqn:Sr.
    - assert (Tv : is_target v = false) by (destruct v as [[[] p] []]; try discriminate Sr; reflexivity). assert (Tr : trig b v = false) by (destruct (trig b v) eqn:X; [|reflexivity]; apply (trig_in b v I) in X; rewrite (d_lco _ _ _ _ _ _ _ D _ X) in Sr; discriminate). rewrite (v_data _ _ _ _ _ _ _ _ _ V v Tv (or_introl Tr)). rewrite (Ca v Ov).
      replace (vals v (log b)) with (@nil M); [reflexivity|]. symmetry. unfold vals. replace (filter _ (log b)) with (@nil (edge * M)); [reflexivity|]. symmetry. assert (G : forall x, In x (log b) -> eto (fst x) <> v).
      + intros x J X. assert (K : In (fst x) E) by (pose proof (inv_sub zero add op_val inc E [] b I (fst x)) as Z; apply (count_occ_In edge_dec); assert (0 < cnt (map fst (log b)) (fst x))%nat by (apply (count_occ_In edge_dec); apply in_map; exact J); lia). apply (d_to _ _ _ _ _ _ _ D) in K. rewrite X in K. rewrite (d_lco _ _ _ _ _ _ _ D _ K) in Sr. discriminate.
      + clear - G. induction (log b) as [|x l IH]; [reflexivity|]. cbn [filter]. destruct (dnode_dec (eto (fst x)) v) as [X|X]; [exfalso; exact (G x (or_introl eq_refl) X)|]. apply IH. intros; apply G; right; assumption.
    - apply (v_freed _ _ _ _ _ _ _ _ _ V); [|exact Ov|].
      + apply T. pose proof (no_outs_outside loc num_ranks inc outs leaves lcos E D v Ov) as K. apply in_app_or in K. destruct K as [K|K]; [|exact K]. rewrite (d_leaf _ _ _ _ _ _ _ D _ K) in Sr. discriminate.
      + apply (quiet_pend (threads b) Th). }
  assert (Q1 : idle s1) by (destruct O1 as (A & B & _); split; assumption). pose proof (Cl s0 s1 Q0 C0 R1 O1) as C1. split; [exact Q1|]. split; [exact C1|].
  destruct (C30_values Mo val Sv s0 s1 Q0 C0 R1) as (L1 & T1 & _). destruct (C30_values Mo val Sv s1 s2 Q1 C1 R2) as (L2 & T2 & _).
  assert (Lm : forall l : list (edge * M), (forall e m, In (e, m) l -> m = op_val e (val (efrom e))) -> l = map (fun e => (e, op_val e (val (efrom e)))) (map fst l)) by (induction l as [|[e m] l IH]; intros H; [reflexivity|]; cbn [map fst]; rewrite <- IH by (intros; apply H; right; assumption); rewrite (H e m (or_introl eq_refl)) at 1; reflexivity).
  destruct (C30_ends N F s0 Q0) as (_ & _ & E1). destruct (C30_ends N F s1 Q1) as (_ & _ & E2). split.
  - intros O2. split; [|exact (Cl s1 s2 Q1 C1 R2 O2)]. rewrite (Lm _ L1), (Lm _ L2). apply Permutation_map. etransitivity; [apply (E2 s2 R2 O2)|symmetry; apply (E1 s1 R1 O1)].
  - intros v Tv J. exists (val v). split; [|exact (T2 v Tv)]. apply T1; [exact Tv|]. destruct (reached_inv s0 s1 Q0 R1) as [I W]. destruct O1 as (Th & Pa & _). exact (stuck_all N F s1 I Th Pa v J).
Qed.
End Any.
Print Assumptions C30_safe.
Print Assumptions C30_delivery.
Print Assumptions C30_ends.
Print Assumptions C30_signal.
Print Assumptions C30_starved_hangs.
Print Assumptions C30_values.
Print Assumptions C48_repeats.

(** The equations of an acyclic graph have exactly one solution. *)
Theorem C30_values_unique : forall M (zero : M) add op_val sources E, no_cycle E ->
  exists val, solves zero add op_val sources E val /\ forall val', solves zero add op_val sources E val' -> forall v, val' v = val v.
Proof.
  intros M zero add op_val sources E N. destruct (solution_exists zero add op_val sources E N) as (val & Sv). exists val. split; [exact Sv|]. intros val' Sv' v. exact (solution_unique zero add op_val sources E N val' val Sv' Sv v).
Qed.
Print Assumptions C30_values_unique.

(** From every state of an evaluation its end is reached. *)
Theorem C30_end_exists : forall M (zero : M) add op_val sources loc num_ranks inc outs leaves lcos E, is_dag loc num_ranks inc outs leaves lcos E -> no_cycle E -> all_fed lcos E -> forall s0, idle s0 ->
  exists s, evaluates zero add op_val sources loc num_ranks inc outs leaves lcos s0 s /\ over s.
Proof.
  intros M zero add op_val sources loc num_ranks inc outs leaves lcos E D N F s0 Q. set (reached := evaluates zero add op_val sources loc num_ranks inc outs leaves lcos s0).
  destruct (C30_safe zero add op_val sources loc num_ranks inc outs leaves lcos E D s0 Q) as [La Sa]. destruct (La [leaves]) as (s1 & L); [cbn; rewrite app_nil_r; reflexivity|].
  destruct (C30_ends zero add op_val sources loc num_ranks inc outs leaves lcos E D N F s0 Q) as (Bd & Pr & _). destruct (Bd [leaves] s1) as (b & Hb); [cbn; rewrite app_nil_r; reflexivity|exact L|].
  assert (G : forall k n s, (b - n < k)%nat -> eruns zero add op_val sources loc num_ranks outs n s1 s -> exists s', reached s' /\ over s').
  { induction k as [|k IH]; intros n s K R; [lia|]. assert (Rs : reached s) by (exists [leaves], s1, n; split; [cbn; rewrite app_nil_r; reflexivity|auto]). destruct (Pr s Rs) as [(r & St)|O]; [|exists s; auto]. destruct (Sa s r Rs St) as (s' & ->). assert (R' : eruns zero add op_val sources loc num_ranks outs (S n) s1 s') by (econstructor; eassumption). pose proof (Hb _ _ R'). apply (IH (S n) s'); [lia|exact R']. }
  apply (G (S b) 0%nat s1); [lia|constructor].
Qed.
Print Assumptions C30_end_exists.

(** ** The DAGs of the four methods *)
Lemma run_facts : forall l d, run l = Ok d -> NoDup (dnodes d) /\ forall e, In e (dedges d) -> In (efrom e) (dnodes d) /\ In (eto e) (dnodes d).
Proof.
  assert (G : forall l d0 d, foldM exec l d0 = Ok d -> NoDup (dnodes d0) -> (forall e, In e (dedges d0) -> In (efrom e) (dnodes d0) /\ In (eto e) (dnodes d0)) -> NoDup (dnodes d) /\ forall e, In e (dedges d) -> In (efrom e) (dnodes d) /\ In (eto e) (dnodes d)).
  { induction l as [|a l IH]; intros d0 d H N Ed; cbn [foldM] in H; [injection H as <-; auto|]. destruct (exec d0 a) as [d1|] eqn:X; [|discriminate]. cbn [bind] in H. apply (IH d1 d H); destruct a as [n|e]; cbn [exec] in X; unfold has in X.
    - destruct (in_dec dnode_dec n (dnodes d0)); [discriminate|]. injection X as <-. constructor; assumption.
    - destruct (in_dec dnode_dec (efrom e) (dnodes d0)); [|discriminate]. destruct (in_dec dnode_dec (eto e) (dnodes d0)); [|discriminate]. injection X as <-. exact N.
    - destruct (in_dec dnode_dec n (dnodes d0)); [discriminate|]. injection X as <-. intros e J. cbn in J |- *. specialize (Ed e J). tauto.
    - destruct (in_dec dnode_dec (efrom e) (dnodes d0)); [|discriminate]. destruct (in_dec dnode_dec (eto e) (dnodes d0)); [|discriminate]. injection X as <-. intros x [<-|J]; cbn; [auto|]. apply Ed. exact J. }
  intros l d H. apply (G l _ d H); [constructor|intros e []].
Qed.
Definition the_leaves (ts : list task) : list dnode := filter is_source (all_adds ts).
Definition the_lcos (ts : list task) : list dnode := filter (fun v => negb (is_source v)) (all_adds ts).
Lemma built_dag : forall A B (S : tree A) (T : tree B) ts l, good_dag S T ts -> (forall e, In e (all_edges ts) -> shape e) -> schedule ts l ->
  forall loc num_ranks inc outs, (forall v, In v (all_adds ts) -> 0 <= loc v < num_ranks) -> (forall v, inc v = length (into v (all_edges ts))) ->
  (forall v, sort_outcome (fun e => loc (eto e)) (out_of v (all_edges ts)) (outs v)) -> is_dag loc num_ranks inc outs (the_leaves ts) (the_lcos ts) (all_edges ts).
Proof.
  intros A B S T ts l (_ & _ & _ & G) Sh Sc loc num_ranks inc outs Hl Hi Ho. destruct (G l Sc) as (d & R & Pn & Pe). apply run_facts in R. destruct R as [N Ends].
  assert (Na : NoDup (all_adds ts)) by (eapply Permutation_NoDup; eassumption). assert (En : forall e, In e (all_edges ts) -> In (efrom e) (all_adds ts) /\ In (eto e) (all_adds ts)) by (intros e J; destruct (Ends e) as [X Y]; [eapply Permutation_in; [symmetry; exact Pe|exact J]|]; split; eapply Permutation_in; eassumption).
  assert (Al : forall v, In v (all_adds ts) <-> In v (the_leaves ts ++ the_lcos ts)) by (intros v; unfold the_leaves, the_lcos; rewrite in_app_iff, !filter_In; destruct (is_source v); cbn; intuition congruence).
  constructor; try assumption.
  - apply NoDup_filter. exact Na.
  - apply NoDup_filter. exact Na.
  - intros v J. apply filter_In in J. destruct J as [_ J]. destruct (is_source v); [discriminate|reflexivity].
  - intros v J. apply filter_In in J. apply J.
  - intros e J. apply Al. apply En. exact J.
  - intros e J. destruct (Sh e J); reflexivity.
  - intros e J. apply filter_In. split; [apply En; exact J|]. destruct (Sh e J); reflexivity.
  - intros e J. destruct (Sh e J); cbn; (split; [discriminate|split; reflexivity]).
  - intros v J. apply Hl. apply Al. exact J.
Qed.
(** Each of the four methods builds a DAG the theorems above apply to: source leaves and LCOs
    are the DAG nodes, the counts are those of C29, the outputs are sorted by locality in
    any way std::sort may choose, and the localities are those of any distribution. *)
Theorem C30_methods : forall A B (m : method A B) unif same fuel S T, builtin fuel m -> usable unif fuel S T ->
  exists ss tt, create_dag m unif same fuel S T = Ok (ss, tt) /\ no_cycle (all_edges (ss ++ tt)) /\
    forall loc num_ranks inc outs, (forall v, In v (all_adds (ss ++ tt)) -> 0 <= loc v < num_ranks) -> (forall v, inc v = length (into v (all_edges (ss ++ tt)))) ->
      (forall v, sort_outcome (fun e => loc (eto e)) (out_of v (all_edges (ss ++ tt))) (outs v)) -> is_dag loc num_ranks inc outs (the_leaves (ss ++ tt)) (the_lcos (ss ++ tt)) (all_edges (ss ++ tt)).
Proof.
  intros A B m unif same fuel S T Hm (H1 & H2 & H3 & H4 & H5 & H6).
  assert (X : exists ss tt, create_dag m unif same fuel S T = Ok (ss, tt) /\ good_dag S T (ss ++ tt) /\ forall e, In e (all_edges (ss ++ tt)) -> shape e).
  { destruct Hm as [|accept| |].
    - destruct (direct_dag S T unif fuel same H1 H2 H3 H4 H5 H6) as (ss & tt & Hc & G & Sh & _). exists ss, tt. auto.
    - destruct (bh_dag S T unif fuel same H1 H2 H3 H4 H5 H6 accept) as (ss & tt & Hc & G & Sh & _). exists ss, tt. auto.
    - destruct (fmm_dag S T H1 H2 fuel unif same H3 H4 H5 H6) as (ss & tt & Hc & G & Sh & _). exists ss, tt. auto.
    - destruct (fmm97_dag S T H1 H2 fuel unif same H3 H4 H5 H6) as (ss & tt & Hc & G & Sh & _). exists ss, tt. auto. }
  destruct X as (ss & tt & Hc & G & Sh). exists ss, tt. split; [exact Hc|]. split; [exact (shape_acyclic _ Sh)|]. destruct (C38_schedule_exists A B m unif same fuel S T ss tt H1 Hc) as (l & Sc). intros. eapply built_dag; eassumption.
Qed.
Print Assumptions C30_methods.
(** Direct and Barnes-Hut leave no LCO without inputs; the FMM methods do not if each target
    box of level 2 with a local expansion has a far source. *)
Theorem C30_methods_fed : forall A B unif same fuel (S : tree A) (T : tree B), usable unif fuel S T ->
  (forall m, m = direct fuel \/ (exists accept, m = bh accept fuel) -> forall ss tt, create_dag m unif same fuel S T = Ok (ss, tt) -> all_fed (the_lcos (ss ++ tt)) (all_edges (ss ++ tt))) /\
  (forall ss tt, create_dag (fmm fuel) unif same fuel S T = Ok (ss, tt) ->
     (all_fed (the_lcos (ss ++ tt)) (all_edges (ss ++ tt)) <-> forall p, In ((TgtTree, p), Normal) (all_adds (ss ++ tt)) -> length p = 2%nat -> far_source S p)) /\
  (forall ss tt, create_dag (fmm97 fuel) unif same fuel S T = Ok (ss, tt) ->
     (all_fed (the_lcos (ss ++ tt)) (all_edges (ss ++ tt)) <-> forall p, In ((TgtTree, p), Normal) (all_adds (ss ++ tt)) -> length p = 2%nat -> far_source97 S p)).
Proof.
  intros A B unif same fuel S T U.
  assert (Fe : forall ts x, fed ts x <-> into x (all_edges ts) <> []).
  { intros ts x. split; [intros (e & J & <-) X; assert (K : In e (into (eto e) (all_edges ts))) by (apply filter_In; split; [exact J|]; destruct (dnode_dec (eto e) (eto e)); congruence); rewrite X in K; destruct K|]. intros X. destruct (into x (all_edges ts)) as [|e l] eqn:Q; [contradiction|]. assert (K : In e (into x (all_edges ts))) by (rewrite Q; left; reflexivity). apply in_into in K. exists e. exact K. }
  assert (St : forall ts x, In x (the_lcos ts) -> In x (all_adds ts) /\ ~ is_start S x) by (intros ts x J; apply filter_In in J; destruct J as [J X]; split; [exact J|]; intros (s & _ & ->); discriminate X).
  split; [|split].
  - intros m Hm ss tt Hc v J. destruct (C31_direct_bh A B m unif same fuel S T Hm U) as (ss' & tt' & Hc' & H). rewrite Hc in Hc'. injection Hc' as <- <-. apply St in J. destruct J as [J K]. apply Fe. destruct (H v J); [contradiction|assumption].
  - intros ss tt Hc. destruct (C31_fmm A B unif same fuel S T U) as (ss' & tt' & Hc' & H). rewrite Hc in Hc'. injection Hc' as <- <-. split.
    + intros F p J L. destruct (H _ J) as [(s & _ & X)|X]; [discriminate X|]. apply X; [|reflexivity|exact L]. apply Fe. apply F. apply filter_In. split; [exact J|reflexivity].
    + intros F v J. apply St in J. destruct J as [J K]. apply Fe. destruct (H v J) as [X|X]; [contradiction|]. apply X. intros p -> L. apply F; assumption.
  - intros ss tt Hc. destruct (C31_fmm97 A B unif same fuel S T U) as (ss' & tt' & Hc' & H). rewrite Hc in Hc'. injection Hc' as <- <-. split.
    + intros F p J L. destruct (H _ J) as [(s & _ & X)|X]; [discriminate X|]. apply X; [|reflexivity|exact L]. apply Fe. apply F. apply filter_In. split; [exact J|reflexivity].
    + intros F v J. apply St in J. destruct J as [J K]. apply Fe. destruct (H v J) as [X|X]; [contradiction|]. apply X. intros p -> L. apply F; assumption.
Qed.
Print Assumptions C30_methods_fed.
(** The trees of C31 make every FMM evaluation hang, on any number of ranks. *)
Theorem C30_fmm_evaluation_hangs_refuted : forall m : method nat nat, m = fmm 3 \/ m = fmm97 3 -> exists ss tt, create_dag m 1 false 3 hangS hangT = Ok (ss, tt) /\
  forall M (zero : M) add op_val sources loc num_ranks inc outs, is_dag loc num_ranks inc outs (the_leaves (ss ++ tt)) (the_lcos (ss ++ tt)) (all_edges (ss ++ tt)) ->
  forall s0 s, idle s0 -> evaluates zero add op_val sources loc num_ranks inc outs (the_leaves (ss ++ tt)) (the_lcos (ss ++ tt)) s0 s -> ~ over s /\ exists r, 0 <= r < num_ranks /\ 0 < remaining s r.
Proof.
  intros m Hm. assert (H : starved ((TgtTree, [0; 0]%nat), Normal) (create_dag m 1 false 3 hangS hangT) = true) by (destruct Hm as [->| ->]; vm_compute; reflexivity).
  apply starved_ok in H. destruct H as (ss & tt & Hc & Ja & _ & Nf). exists ss, tt. split; [exact Hc|]. intros M zero add op_val sources loc num_ranks inc outs D s0 s Q R. set (x := ((TgtTree, [0; 0]%nat), Normal)) in *. assert (Sx : is_source x = false) by reflexivity.
  assert (Jx : In x (the_lcos (ss ++ tt))) by (apply filter_In; rewrite Sx; auto).
  assert (Ix : into x (all_edges (ss ++ tt)) = []) by (destruct (into x (all_edges (ss ++ tt))) as [|y l] eqn:Z; [reflexivity|]; exfalso; apply Nf; assert (K : In y (into x (all_edges (ss ++ tt)))) by (rewrite Z; left; reflexivity); apply in_into in K; exists y; exact K).
  destruct (C30_starved_hangs zero add op_val sources loc num_ranks inc outs (the_leaves (ss ++ tt)) (the_lcos (ss ++ tt)) (all_edges (ss ++ tt)) D s0 s x Q R Jx Ix) as (_ & P & O). split; [exact O|]. exists (loc x). split; [|exact P]. apply (d_loc _ _ _ _ _ _ _ D). apply in_or_app. right. exact Jx.
Qed.
Print Assumptions C30_fmm_evaluation_hangs_refuted.

(** ** A reset at the signal *)
(** Schedules by choice: a thread, a message or a waiting action. *)
Inductive choice := Th (i : nat) | Pa (i : nat) | Wa (i : nat).
Section Play.
Context {M : Type} (zero : M) (add : M -> M -> M) (op_val : edge -> M -> M) (sources : dnode -> M).
Context (loc : dnode -> Z) (num_ranks : Z) (outs : dnode -> list edge).
Definition choose (c : choice) (s : est M) : option (res (est M)) :=
  match c with
  | Th i => match nth_error (threads s) i with
            | Some t => match code t with
                        | j :: c' => Some (perform zero add op_val sources loc num_ranks outs t j (with_threads (firstn i (threads s) ++ mkThr (payload t) c' :: skipn (S i) (threads s)) s))
                        | [] => None end
            | None => None end
  | Pa i => match nth_error (parcels s) i with
            | Some (e, m) => Some (deliver zero add loc num_ranks outs e m (with_parcels (firstn i (parcels s) ++ skipn (S i) (parcels s)) s))
            | None => None end
  | Wa i => match nth_error (waits s) i with
            | Some (Skip r n) => Some (Ok (notify r (Z.of_nat n) (with_waits (firstn i (waits s) ++ skipn (S i) (waits s)) s)))
            | Some (When r v) => if trig s v then Some (Ok (notify r 1 (with_waits (firstn i (waits s) ++ skipn (S i) (waits s)) s))) else None
            | None => None end
  end.
Lemma nth_cut : forall X (l : list X) i x, nth_error l i = Some x -> l = firstn i l ++ x :: skipn (S i) l.
Proof. induction l as [|y l IH]; intros [|i] x H; try discriminate; [injection H as ->; reflexivity|]. cbn [firstn app]. change (skipn (S (S i)) (y :: l)) with (skipn (S i) l). rewrite <- (IH i x H). reflexivity. Qed.
Lemma choose_step : forall c s r, choose c s = Some r -> estep zero add op_val sources loc num_ranks outs s r.
Proof.
  intros [i|i|i] s r H; cbn [choose] in H.
  - destruct (nth_error (threads s) i) as [t|] eqn:N; [|discriminate]. destruct (code t) as [|j c'] eqn:C; [discriminate|]. injection H as <-. eapply do_thread; [apply nth_cut; exact N|exact C].
  - destruct (nth_error (parcels s) i) as [[e m]|] eqn:N; [|discriminate]. injection H as <-. apply do_parcel. apply nth_cut. exact N.
  - destruct (nth_error (waits s) i) as [[r' n|r' v]|] eqn:N; [| |discriminate].
    + injection H as <-. apply do_skip. apply nth_cut. exact N.
    + destruct (trig s v) eqn:T; [|discriminate]. injection H as <-. apply do_when with (v := v); [apply nth_cut; exact N|exact T].
Qed.
Fixpoint follow (cs : list choice) (s : est M) : option (est M) :=
  match cs with
  | [] => Some s
  | c :: cs' => match choose c s with Some (Ok s') => follow cs' s' | _ => None end
  end.
Lemma follow_runs : forall cs n s0 s s', eruns zero add op_val sources loc num_ranks outs n s0 s -> follow cs s = Some s' -> exists k, eruns zero add op_val sources loc num_ranks outs k s0 s'.
Proof.
  induction cs as [|c cs IH]; intros n s0 s s' R H; cbn [follow] in H; [injection H as <-; exists n; exact R|]. destruct (choose c s) as [[s1|]|] eqn:C; try discriminate. apply (IH (S n) s0 s1 s'); [|exact H]. econstructor; [exact R|apply choose_step with c; exact C].
Qed.
Definition play (inc : dnode -> nat) (lcos : list dnode) (chunks : list (list dnode)) (cs : list choice) (s : est M) : option (est M) :=
  match launch loc num_ranks inc outs lcos chunks s with Ok s1 => follow cs s1 | Fail _ => None end.
Lemma play_reaches : forall inc leaves lcos chunks cs s s', Permutation (concat chunks) leaves -> play inc lcos chunks cs s = Some s' -> evaluates zero add op_val sources loc num_ranks inc outs leaves lcos s s'.
Proof.
  intros inc leaves lcos chunks cs s s' P H. unfold play in H. destruct (launch loc num_ranks inc outs lcos chunks s) as [s1|] eqn:L; [|discriminate]. destruct (follow_runs cs 0 s1 s1 s' (eruns_0 _ _ _ _ _ _ _ _) H) as (k & R). exists chunks, s1, k. auto.
Qed.
End Play.

(** A source leaf, its multipole expansion and a target leaf on one rank; each edge passes on
    the number it gets. *)
Definition nS : dnode := ((SrcTree, []), Parts).
Definition nM : dnode := ((SrcTree, []), Normal).
Definition nT : dnode := ((TgtTree, []), Parts).
Definition line : list edge := [mkEdge StoM nS nM; mkEdge MtoT nM nT].
Definition the_outs (E : list edge) (v : dnode) : list edge := out_of v E.
Definition the_inc (E : list edge) (v : dnode) : nat := length (into v E).
Lemma line_dag : is_dag (fun _ => 0) 1 (the_inc line) (the_outs line) [nS] [nM; nT] line.
Proof.
  constructor.
  - repeat constructor; cbn; intuition discriminate.
  - repeat constructor; cbn; intuition.
  - intros v [<-|[<-|[]]]; reflexivity.
  - intros v [<-|[]]; reflexivity.
  - intros e [<-|[<-|[]]]; cbn; auto.
  - intros e [<-|[<-|[]]]; reflexivity.
  - intros e [<-|[<-|[]]]; cbn; auto.
  - intros e [<-|[<-|[]]]; cbn; (split; [discriminate|split; reflexivity]).
  - reflexivity.
  - intros v. split; [reflexivity|]. unfold the_outs. induction (out_of v line) as [|e l IH]; constructor; [exact IH|]. apply Forall_forall. intros; lia.
  - intros; lia.
Qed.
Lemma line_fine : no_cycle line /\ all_fed [nM; nT] line.
Proof.
  split.
  - intros a es Ch. assert (Rk : forall e, In e line -> (rank (efrom e) < rank (eto e))) by (intros e [<-|[<-|[]]]; reflexivity).
    assert (G : forall es a b, chain line a es b -> rank a <= rank b /\ (es <> [] -> rank a < rank b)).
    { clear - Rk. induction es as [|e es IH]; intros a b Ch; [cbn in Ch; subst; split; [lia|congruence]|]. destruct Ch as (I & <- & Ch). destruct (IH _ _ Ch) as [L _]. pose proof (Rk e I). split; [lia|intros _; lia]. }
    destruct es as [|e es]; [reflexivity|]. destruct (G _ _ _ Ch) as [_ L]. specialize (L ltac:(discriminate)). lia.
  - intros v [<-|[<-|[]]]; discriminate.
Qed.
Definition line_play := play 0 Z.add (fun _ d => d) (fun _ => 1) (fun _ => 0) 1 (the_outs line) (the_inc line) [nM; nT] [[nS]].
Definition line_reached := evaluates 0 Z.add (fun _ d => d) (fun _ => 1) (fun _ => 0) 1 (the_inc line) (the_outs line) [nS] [nM; nT].
(** All ranks are told while the data of the expansion is not yet freed.  If the next
    evaluation starts then (evaluator.h waits only for the signal), it delivers a wrong
    contribution or follows a null pointer. *)
Definition first_round : list choice := [Th 0; Pa 0; Th 1; Wa 0; Wa 0; Wa 0].
Lemma line_reaches : forall cs s s', line_play cs s = Some s' -> line_reached s s'.
Proof. intros cs s s' H. unfold line_play in H. exact (play_reaches _ _ _ _ _ _ _ _ [nS] _ [[nS]] cs s s' (Permutation_refl _) H). Qed.
Definition line_next := choose 0 Z.add (fun _ d => d) (fun _ => 1) (fun _ => 0) 1 (the_outs line).
Lemma line_rounds :
  match line_play first_round (blank (fun _ => 0)) with
  | Some s1 => (remaining s1 0, log s1,
                option_map (fun s2 => log s2) (line_play [Th 2; Pa 0; Th 3] s1),
                option_map (line_next (Th 3)) (line_play [Th 2; Pa 0; Th 1] s1))
  | None => (1, [], None, None) end =
  (0, [(mkEdge StoM nS nM, 1); (mkEdge MtoT nM nT, 1)], Some [(mkEdge StoM nS nM, 1); (mkEdge MtoT nM nT, 2)], Some (Some (Fail NullDeref))).
Proof. vm_compute. reflexivity. Qed.
Theorem C48_reset_at_signal_refuted : exists s1 s2 s3,
  line_reached (blank (fun _ => 0)) s1 /\ (forall r, 0 <= r < 1 -> remaining s1 r = 0) /\ Permutation (map fst (log s1)) line /\ In (mkEdge MtoT nM nT, 1) (log s1) /\
  line_reached s1 s2 /\ In (mkEdge MtoT nM nT, 2) (log s2) /\
  line_reached s1 s3 /\ estep 0 Z.add (fun _ d => d) (fun _ => 1) (fun _ => 0) 1 (the_outs line) s3 (Fail NullDeref).
Proof.
  generalize line_rounds. generalize line_reaches. generalize (choose_step 0 Z.add (fun _ d => d) (fun _ => 1) (fun _ => 0) 1 (the_outs line) (Th 3)). fold line_next. generalize line_play line_next. intros lp ln St Re H.
  destruct (lp first_round (blank (fun _ => 0))) as [s1|] eqn:P1; [|discriminate]. destruct (lp [Th 2; Pa 0; Th 3] s1) as [s2|] eqn:P2; [|discriminate]. destruct (lp [Th 2; Pa 0; Th 1] s1) as [s3|] eqn:P3; [|discriminate].
  cbn [option_map] in H. injection H as Z1 L1 L2 C3.
  exists s1, s2, s3. split; [exact (Re _ _ _ P1)|]. split; [intros r Hr; replace r with 0 by lia; exact Z1|]. split; [rewrite L1; reflexivity|]. split; [rewrite L1; right; left; reflexivity|]. split; [exact (Re _ _ _ P2)|]. split; [rewrite L2; right; left; reflexivity|]. split; [exact (Re _ _ _ P3)|]. apply St. exact C3.
Qed.
Print Assumptions C48_reset_at_signal_refuted.

(** ** Instances *)
(** Two ranks, a shared target and a local expansion: leaf and expansion ship their edges. *)
Definition nL : dnode := ((TgtTree, []), Normal).
Definition two : list edge := [mkEdge StoM nS nM; mkEdge MtoL nM nL; mkEdge MtoT nM nT; mkEdge StoT nS nT; mkEdge LtoT nL nT].
Definition two_loc (v : dnode) : Z := match fst (fst v) with SrcTree => 0 | TgtTree => 1 end.
Lemma two_dag : is_dag two_loc 2 (the_inc two) (the_outs two) [nS] [nM; nT; nL] two.
Proof.
  constructor.
  - repeat constructor; cbn; intuition discriminate.
  - repeat constructor; cbn; intuition.
  - intros v [<-|[<-|[<-|[]]]]; reflexivity.
  - intros v [<-|[]]; reflexivity.
  - intros e [<-|[<-|[<-|[<-|[<-|[]]]]]]; cbn; auto.
  - intros e [<-|[<-|[<-|[<-|[<-|[]]]]]]; reflexivity.
  - intros e [<-|[<-|[<-|[<-|[<-|[]]]]]]; cbn; auto.
  - intros e [<-|[<-|[<-|[<-|[<-|[]]]]]]; cbn; (split; [discriminate|split; reflexivity]).
  - reflexivity.
  - intros v. split; [reflexivity|]. unfold the_outs, out_of, two. cbn [filter efrom]. destruct (dnode_dec nS v) as [W|], (dnode_dec nM v) as [X|], (dnode_dec nL v) as [Y|]; try subst v; try discriminate; repeat constructor; cbn; lia.
  - intros v [<-|[<-|[<-|[<-|[]]]]]; cbn; lia.
Qed.
Lemma two_fine : no_cycle two /\ all_fed [nM; nT; nL] two.
Proof.
  split.
  - intros a es Ch. assert (Rk : forall e, In e two -> (rank (efrom e) < rank (eto e))) by (intros e [<-|[<-|[<-|[<-|[<-|[]]]]]]; reflexivity).
    assert (G : forall es a b, chain two a es b -> rank a <= rank b /\ (es <> [] -> rank a < rank b)).
    { clear - Rk. induction es as [|e es IH]; intros a b Ch; [cbn in Ch; subst; split; [lia|congruence]|]. destruct Ch as (I & <- & Ch). destruct (IH _ _ Ch) as [L _]. pose proof (Rk e I). split; [lia|intros _; lia]. }
    destruct es as [|e es]; [reflexivity|]. destruct (G _ _ _ Ch) as [_ L]. specialize (L ltac:(discriminate)). lia.
  - intros v [<-|[<-|[<-|[]]]]; discriminate.
Qed.
(** A schedule of it: messages overtake each other, rank 0 is told first; all three ways to
    the target add up. *)
Definition two_play := play 0 Z.add (fun _ d => d) (fun _ => 7) two_loc 2 (the_outs two) (the_inc two) [nM; nT; nL] [[nS]].
Definition two_order : list choice := [Th 0; Pa 0; Th 1; Wa 0; Th 1; Wa 0; Th 2; Th 2; Pa 0; Th 3; Th 3; Th 0; Th 4; Wa 0; Wa 0; Wa 0].
Definition two_sum (o1 o2 : option (est Z)) :=
  match o1, o2 with
  | Some s, Some s' => (map code (threads s), parcels s, waits s, tval s nT, remaining s' 0, remaining s' 1)
  | _, _ => ([], [], [], 0, 0, 0)
  end.
Lemma two_rounds : two_sum (two_play two_order (blank (fun _ => 100))) (two_play (firstn 6 two_order) (blank (fun _ => 100))) = ([[]; []; []; []; []], [], [], 121, 0, 3).
Proof. vm_compute. reflexivity. Qed.
Example C30_nonvacuous : is_dag two_loc 2 (the_inc two) (the_outs two) [nS] [nM; nT; nL] two /\ no_cycle two /\ all_fed [nM; nT; nL] two /\ monoid 0 Z.add /\
  exists s, two_play two_order (blank (fun _ => 100)) = Some s /\ over s /\ tval s nT = 121 /\ (exists s', two_play (firstn 6 two_order) (blank (fun _ => 100)) = Some s' /\ remaining s' 0 = 0 /\ remaining s' 1 = 3).
Proof.
  split; [apply two_dag|]. split; [apply two_fine|]. split; [apply two_fine|]. split; [repeat split; intros; lia|].
  generalize two_rounds. generalize (two_play two_order (blank (fun _ => 100))) (two_play (firstn 6 two_order) (blank (fun _ => 100))). intros [s|] [s'|] H; cbn [two_sum] in H; try discriminate. injection H as H1 H2 H3 H4 H5 H6. exists s. split; [reflexivity|]. split.
  - split; [|split; assumption]. intros t J. apply (in_map code) in J. rewrite H1 in J. cbn in J. intuition congruence.
  - split; [exact H4|]. exists s'. auto.
Qed.
Example C48_nonvacuous : exists s1 s2, evaluates 0 Z.add (fun _ d => d) (fun _ => 7) two_loc 2 (the_inc two) (the_outs two) [nS] [nM; nT; nL] (blank (fun _ => 100)) s1 /\ over s1 /\
  evaluates 0 Z.add (fun _ d => d) (fun _ => 7) two_loc 2 (the_inc two) (the_outs two) [nS] [nM; nT; nL] s1 s2 /\ over s2.
Proof.
  assert (I0 : idle (blank (M := Z) (fun _ => 100))) by (split; [intros t []|reflexivity]). destruct two_fine as [N F]. destruct (C30_end_exists Z 0 Z.add (fun _ d => d) (fun _ => 7) two_loc 2 (the_inc two) (the_outs two) [nS] [nM; nT; nL] two two_dag N F _ I0) as (s1 & R1 & O1). destruct (C30_end_exists Z 0 Z.add (fun _ d => d) (fun _ => 7) two_loc 2 (the_inc two) (the_outs two) [nS] [nM; nT; nL] two two_dag N F s1) as (s2 & R2 & O2); [destruct O1 as (A & B & _); split; assumption|].
  exists s1, s2. auto.
Qed.
