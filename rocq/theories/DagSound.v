(** From facts about single tasks of a method to facts about its DAG. *)
From Coq Require Import ZArith List Bool Arith Lia Permutation.
From Verif Require Import Base ListFacts IndexModel TreeModel TreeFacts RefineModel LookupModel GeomModel DagModel DagSpec DagProofs MethodModel DagPaths DagExec.
Import ListNotations.
Open Scope nat_scope.

Lemma NoDup_flat_map : forall X Y (f : X -> list Y) l, NoDup l -> (forall x, In x l -> NoDup (f x)) ->
  (forall x x' y, In x l -> In x' l -> In y (f x) -> In y (f x') -> x = x') -> NoDup (flat_map f l).
Proof.
  intros X Y f. induction l as [|x l IH]; intros N H1 H2; [constructor|]. inversion N; subst. cbn [flat_map]. apply NoDup_app_intro'.
  - apply H1. left. reflexivity.
  - apply IH; [assumption|intros; apply H1; right; assumption|intros; eapply H2; try eassumption; right; assumption].
  - intros y I J. apply in_flat_map in J. destruct J as (x' & I' & J). assert (x = x') by (eapply H2; [left; reflexivity|right; exact I'|exact I|exact J]). subst. contradiction.
Qed.
Lemma length1 : forall X (l : list X) x, length l = 1 -> In x l -> l = [x].
Proof. intros X [|y [|z l]] x L I; try discriminate. destruct I as [->|[]]. reflexivity. Qed.

(** Does the action cross on the way from [s] to [q]? *)
Definition jcov (s q : path) (a : act) : bool :=
  match a with
  | Add _ => false
  | Link e =>
    match efrom e, eto e with
    | ((SrcTree, c), _), ((TgtTree, p), k) =>
      prefixb c s && (match k with Interm => (length p <? length q) && well_sep (idx_of c) (idx_of (firstn (Datatypes.S (length p)) q)) | _ => true end)
    | _, _ => false
    end
  end.
Definition jcnt (s q : path) (l : list act) : nat := length (filter (jcov s q) l).
Lemma jcnt_app : forall s q a b, jcnt s q (a ++ b) = jcnt s q a + jcnt s q b.
Proof. intros. unfold jcnt. rewrite filter_app, app_length. reflexivity. Qed.

Lemma well_sep_apart : forall i j, well_sep i j = true <-> apart i j.
Proof.
  intros i j. unfold well_sep, apart. rewrite !orb_true_iff, !Z.ltb_lt. split.
  - intros [[H|H]|H]; [exists AX|exists AY|exists AZ]; cbn; lia.
  - intros [[| |] H]; cbn in H; lia.
Qed.

Section Sound.
Context {A B : Type} (m : method A B) (unif : nat) (same : bool) (fuel : nat) (S : tree A) (T : tree B).
Context (ss tt : list task) (msrc isrc ltgt : path -> bool).
Definition vis := visited m unif same ([], T) false [([], S)].
Definition E : list edge := all_edges (ss ++ tt).
Definition sleaf (s : path) : Prop := leaf_at S s.
Definition dleaf (q : path) : Prop := exists n pi cons acc, vis n pi cons acc /\ fst n = q /\ refines m unif same n cons = false.
Definition StoM_ s := mkEdge StoM (src s, Parts) (src s, Normal).
Definition MtoM_ p w := mkEdge MtoM (src (p ++ [w]), Normal) (src p, Normal).
Definition MtoI_ p := mkEdge MtoI (src p, Normal) (src p, Interm).
Definition LtoL_ p w := mkEdge LtoL (tgt p, Normal) (tgt (p ++ [w]), Normal).
Definition LtoT_ p := mkEdge LtoT (tgt p, Normal) (tgt p, Parts).
Definition ItoL_ p w := mkEdge ItoL (tgt p, Interm) (tgt (p ++ [w]), Normal).

Definition slink (p : path) (n : tree A) (e : edge) : Prop :=
  (e = StoM_ p /\ is_leaf n = true /\ msrc p = true) \/
  (exists w, kid n w <> None /\ e = MtoM_ p w /\ msrc p = true) \/
  (e = MtoI_ p /\ isrc p = true).

Inductive tlink (p : path) (pi ref : bool) : edge -> Prop :=
| TL_LtoL : forall p0 w, p = p0 ++ [w] -> ltgt p0 = true -> tlink p pi ref (LtoL_ p0 w)
| TL_ItoL : forall p0 w, p = p0 ++ [w] -> pi = true -> tlink p pi ref (ItoL_ p0 w)
| TL_LtoT : ref = false -> tlink p pi ref (LtoT_ p)
| TL_StoT : forall c, leaf_at S c -> ref = false -> tlink p pi ref (mkEdge StoT (src c, Parts) (tgt p, Parts))
| TL_MtoT : forall c, sub S c <> None -> msrc c = true -> ref = false -> tlink p pi ref (mkEdge MtoT (src c, Normal) (tgt p, Parts))
| TL_StoL : forall c, leaf_at S c -> ltgt p = true -> tlink p pi ref (mkEdge StoL (src c, Parts) (tgt p, Normal))
| TL_MtoL : forall c, sub S c <> None -> msrc c = true -> ltgt p = true -> tlink p pi ref (mkEdge MtoL (src c, Normal) (tgt p, Normal))
| TL_ItoI : forall c, sub S c <> None -> isrc c = true -> ref = true -> tlink p pi ref (mkEdge ItoI (src c, Interm) (tgt p, Interm)).

Context (HS8 : eight S) (HT8 : eight T).
Context (Hss : source_apply m unif fuel ([], S) = Ok ss) (Htt : target_apply m unif same fuel ([], T) false [([], S)] = Ok tt).
Context (Hs_adds : forall (p : path) n, sub S p = Some n -> NoDup (adds (source_acts m (p, n))) /\
  forall x, In x (adds (source_acts m (p, n))) <-> (x = (src p, Parts) /\ is_leaf n = true) \/ (x = (src p, Normal) /\ msrc p = true) \/ (x = (src p, Interm) /\ isrc p = true)).
Context (Hs_links : forall (p : path) n, sub S p = Some n -> NoDup (links (source_acts m (p, n))) /\ forall e, In e (links (source_acts m (p, n))) <-> slink p n e).
Context (Hs_prog : forall (p : path) n a1 e a2, sub S p = Some n -> source_acts m (p, n) = a1 ++ Link e :: a2 ->
  (fst (efrom e) = src p -> In (efrom e) (adds a1)) /\ In (eto e) (adds a1)).
Context (Hmono : forall (p : path) w, msrc p = true -> msrc (p ++ [w]) = true) (Hisrc : forall p, isrc p = true -> msrc p = true).
Definition task_of (n : path * tree B) pi cons a2 := target_acts m unif same n pi cons a2.
Context (Ht_adds : forall n pi cons acc a2 c', vis n pi cons acc -> process m n cons (negb (refines m unif same n cons)) = Ok (a2, c') ->
  NoDup (adds (task_of n pi cons a2)) /\ (forall x, In x (adds (task_of n pi cons a2)) -> fst x = tgt (fst n)) /\
  (In (tgt (fst n), Parts) (adds (task_of n pi cons a2)) <-> refines m unif same n cons = false) /\
  (ltgt (fst n) = true -> In (tgt (fst n), Normal) (adds (task_of n pi cons a2)))).
Context (Ht_links : forall n pi cons acc a2 c', vis n pi cons acc -> process m n cons (negb (refines m unif same n cons)) = Ok (a2, c') ->
  NoDup (links (task_of n pi cons a2)) /\ (forall e, In e (links (task_of n pi cons a2)) -> tlink (fst n) pi (refines m unif same n cons) e) /\
  (forall p0 w, fst n = p0 ++ [w] -> ltgt p0 = true -> In (LtoL_ p0 w) (links (task_of n pi cons a2))) /\
  (forall p0 w, fst n = p0 ++ [w] -> pi = true -> In (ItoL_ p0 w) (links (task_of n pi cons a2))) /\
  (refines m unif same n cons = false -> ltgt (fst n) = true -> In (LtoT_ (fst n)) (links (task_of n pi cons a2)))).
Context (Ht_prog : forall n pi cons acc a2 c' a1 e a3, vis n pi cons acc -> process m n cons (negb (refines m unif same n cons)) = Ok (a2, c') ->
  task_of n pi cons a2 = a1 ++ Link e :: a3 -> (fst (efrom e) = tgt (fst n) -> In (efrom e) (adds a1)) /\ In (eto e) (adds a1)).
Context (Hltgt : forall (p : path) w, ltgt p = true -> ltgt (p ++ [w]) = true).

Lemma ss_in : forall o acts, In (o, acts) ss <-> exists p n, sub S p = Some n /\ o = src p /\ acts = source_acts m (p, n).
Proof. intros o acts. rewrite (source_apply_in m unif _ _ _ Hss HS8). cbn [fst snd app]. reflexivity. Qed.
Lemma tt_in : forall o acts, In (o, acts) tt <-> exists n pi cons acc a2 c', vis n pi cons acc /\ o = tgt (fst n) /\ process m n cons (negb (refines m unif same n cons)) = Ok (a2, c') /\ acts = task_of n pi cons a2.
Proof. intros o acts. rewrite (target_apply_in m unif same _ _ _ _ _ Htt). reflexivity. Qed.

Lemma edge_cases : forall e, In e E <-> (exists p n, sub S p = Some n /\ slink p n e) \/
  (exists n pi cons acc a2 c', vis n pi cons acc /\ process m n cons (negb (refines m unif same n cons)) = Ok (a2, c') /\ In e (links (task_of n pi cons a2))).
Proof.
  intros e. unfold E, all_edges. rewrite in_flat_map. split.
  - intros ([o acts] & I & J). cbn [snd] in J. apply in_app_or in I. destruct I as [I|I].
    + apply ss_in in I. destruct I as (p & n & Sp & -> & ->). left. exists p, n. split; [assumption|]. apply (proj2 (Hs_links p n Sp)). assumption.
    + apply tt_in in I. destruct I as (n & pi & cons & acc & a2 & c' & V & -> & P & ->). right. exists n, pi, cons, acc, a2, c'. auto.
  - intros [(p & n & Sp & L)|(n & pi & cons & acc & a2 & c' & V & P & J)].
    + exists (src p, source_acts m (p, n)). split; [apply in_or_app; left; apply ss_in; eauto|]. apply (proj2 (Hs_links p n Sp)). assumption.
    + exists (tgt (fst n), task_of n pi cons a2). split; [apply in_or_app; right; apply tt_in|assumption]. exists n, pi, cons, acc, a2, c'. auto.
Qed.

Lemma sound_shape : forall e, In e E -> shape e.
Proof.
  intros e I. apply edge_cases in I. destruct I as [(p & n & Sp & [(-> & _)|[(w & _ & -> & _)|(-> & _)]])|(n & pi & cons & acc & a2 & c' & V & P & J)]; try constructor.
  apply (proj1 (proj2 (Ht_links _ _ _ _ _ _ V P))) in J. destruct J; subst; constructor.
Qed.

Lemma owners_nodup : NoDup (map fst (ss ++ tt)).
Proof.
  rewrite map_app. apply NoDup_app_intro'; [eapply source_apply_nodup; [exact Hss|exact HS8]|eapply target_apply_nodup; exact Htt|].
  intros o I J. apply in_map_iff in I. apply in_map_iff in J. destruct I as ([o1 a1] & <- & I), J as ([o2 a2] & Eo & J). cbn [fst] in Eo. subst o2. apply ss_in in I. apply tt_in in J. destruct I as (p & n & _ & -> & _), J as (n' & pi & cons & acc & a & c' & _ & X & _). discriminate X.
Qed.
Lemma tasks_nodup : NoDup (ss ++ tt).
Proof. eapply NoDup_map_inv. apply owners_nodup. Qed.

Lemma same_task : forall x x' : task, In x (ss ++ tt) -> In x' (ss ++ tt) -> fst x = fst x' -> x = x'.
Proof.
  pose proof owners_nodup as N. revert N. generalize (ss ++ tt). intros l N. induction l as [|y l IH]; intros x x' I I' Ef; [destruct I|]. cbn [map] in N. inversion N; subst. destruct I as [->|I], I' as [->|I']; auto.
  - exfalso. apply H1. rewrite Ef. apply in_map. assumption.
  - exfalso. apply H1. rewrite <- Ef. apply in_map. assumption.
Qed.

Lemma task_eto : forall o acts e, In (o, acts) (ss ++ tt) -> In e (links acts) -> fst (eto e) = o.
Proof.
  intros o acts e I J. apply in_app_or in I. destruct I as [I|I].
  - apply ss_in in I. destruct I as (p & n & Sp & -> & ->). apply (proj2 (Hs_links p n Sp)) in J. destruct J as [(-> & _)|[(w & _ & -> & _)|(-> & _)]]; reflexivity.
  - apply tt_in in I. destruct I as (n & pi & cons & acc & a2 & c' & V & -> & P & ->). apply (proj1 (proj2 (Ht_links _ _ _ _ _ _ V P))) in J. destruct J; subst; try reflexivity; cbn; congruence.
Qed.
Lemma task_add : forall o acts x, In (o, acts) (ss ++ tt) -> In x (adds acts) -> fst x = o.
Proof.
  intros o acts e I J. apply in_app_or in I. destruct I as [I|I].
  - apply ss_in in I. destruct I as (p & n & Sp & -> & ->). apply (proj2 (Hs_adds p n Sp)) in J. destruct J as [(-> & _)|[(-> & _)|(-> & _)]]; reflexivity.
  - apply tt_in in I. destruct I as (n & pi & cons & acc & a2 & c' & V & -> & P & ->). apply (proj1 (proj2 (Ht_adds _ _ _ _ _ _ V P))) in J. assumption.
Qed.

Theorem sound_nodup : NoDup E.
Proof.
  unfold E, all_edges. apply NoDup_flat_map; [apply tasks_nodup| |].
  - intros [o acts] I. cbn [snd]. apply in_app_or in I. destruct I as [I|I].
    + apply ss_in in I. destruct I as (p & n & Sp & -> & ->). apply (Hs_links p n Sp).
    + apply tt_in in I. destruct I as (n & pi & cons & acc & a2 & c' & V & -> & P & ->). apply (Ht_links _ _ _ _ _ _ V P).
  - intros [o acts] [o' acts'] e I I' J J'. cbn [snd] in *. apply same_task; try assumption. cbn [fst]. rewrite <- (task_eto _ _ _ I J). apply (task_eto _ _ _ I' J').
Qed.

Theorem sound_adds : NoDup (all_adds (ss ++ tt)).
Proof.
  unfold all_adds. apply NoDup_flat_map; [apply tasks_nodup| |].
  - intros [o acts] I. cbn [snd]. apply in_app_or in I. destruct I as [I|I].
    + apply ss_in in I. destruct I as (p & n & Sp & -> & ->). apply (Hs_adds p n Sp).
    + apply tt_in in I. destruct I as (n & pi & cons & acc & a2 & c' & V & -> & P & ->). apply (Ht_adds _ _ _ _ _ _ V P).
  - intros [o acts] [o' acts'] e I I' J J'. cbn [snd] in *. apply same_task; try assumption. cbn [fst]. rewrite <- (task_add _ _ _ I J). apply (task_add _ _ _ I' J').
Qed.

Lemma dleaf_stops : forall q, stops (ss ++ tt) q <-> dleaf q.
Proof.
  intros q. unfold stops, all_adds. rewrite in_flat_map. split.
  - intros ([o acts] & I & J). cbn [snd] in J. pose proof (task_add _ _ _ I J) as Eo. cbn in Eo. subst o. apply in_app_or in I. destruct I as [I|I].
    + apply ss_in in I. destruct I as (p & n & _ & X & _). discriminate X.
    + apply tt_in in I. destruct I as (n & pi & cons & acc & a2 & c' & V & X & P & ->). injection X as ->. exists n, pi, cons, acc. split; [assumption|]. split; [reflexivity|]. apply (Ht_adds _ _ _ _ _ _ V P). assumption.
  - intros (n & pi & cons & acc & V & <- & R). 
    destruct (target_apply_process _ _ _ _ _ _ _ _ Htt _ _ _ _ V) as (a2 & c' & P). exists (tgt (fst n), task_of n pi cons a2). split; [apply in_or_app; right; apply tt_in; exists n, pi, cons, acc, a2, c'; auto|]. apply (Ht_adds _ _ _ _ _ _ V P). assumption.
Qed.

(** Tasks of the nodes above are among the visited ones. *)
Lemma vis_acc : forall n pi cons acc, vis n pi cons acc -> forall p acts, In (p, acts) acc ->
  exists n1 pi1 cons1 acc1 a2 c', vis n1 pi1 cons1 acc1 /\ fst n1 = p /\ refines m unif same n1 cons1 = true /\ process m n1 cons1 false = Ok (a2, c') /\ acts = task_of n1 pi1 cons1 a2 /\ exists w, prefix (p ++ [w]) (fst n).
Proof.
  intros n pi cons acc V. induction V as [|n pi cons acc a2 cons' c V IH R P I]; intros p acts J; [destruct J|]. assert (W : exists w, fst c = fst n ++ [w]) by (destruct c as [q c]; apply children_in in I; destruct I as (w & _ & _ & ->); exists w; reflexivity). destruct W as [w W]. apply in_app_or in J. destruct J as [J|[J|[]]].
  - destruct (IH _ _ J) as (n1 & pi1 & cons1 & acc1 & b2 & c' & V1 & E1 & R1 & P1 & Ea & w1 & Pw). exists n1, pi1, cons1, acc1, b2, c'. repeat split; auto. exists w1. rewrite W. eapply prefix_trans; [exact Pw|]. exists [w]. reflexivity.
  - injection J as <- <-. exists n, pi, cons, acc, a2, cons'. repeat split; auto. exists w. rewrite W. apply prefix_refl.
Qed.
Lemma vis_acc_all : forall n pi cons acc, vis n pi cons acc -> forall p w, prefix (p ++ [w]) (fst n) -> exists acts, In (p, acts) acc.
Proof.
  intros n pi cons acc V. induction V as [|n pi cons acc a2 cons' c V IH R P I]; intros p w H.
  - destruct H as [r H]. cbn in H. destruct p; discriminate H.
  - assert (W : exists w, fst c = fst n ++ [w]) by (destruct c as [q c]; apply children_in in I; destruct I as (w' & _ & _ & ->); exists w'; reflexivity). destruct W as [w' W]. rewrite W in H. apply prefix_of_snoc in H. destruct H as [H|H].
    + destruct (IH _ _ H) as [acts J]. exists acts. apply in_or_app. left. assumption.
    + apply app_inj_tail in H. destruct H as [-> _]. eexists. apply in_or_app. right. left. reflexivity.
Qed.
Lemma vis_above : forall n pi cons acc, vis n pi cons acc -> forall p, prefix p (fst n) -> exists n1 pi1 cons1 acc1, vis n1 pi1 cons1 acc1 /\ fst n1 = p.
Proof.
  intros n pi cons acc V p [r H]. destruct r as [|w r]; [rewrite app_nil_r in H; exists n, pi, cons, acc; auto|].
  destruct (vis_acc_all _ _ _ _ V p w) as [acts J]; [rewrite H; exists r; rewrite <- app_assoc; reflexivity|]. destruct (vis_acc _ _ _ _ V _ _ J) as (n1 & pi1 & cons1 & acc1 & _ & _ & V1 & E1 & _). exists n1, pi1, cons1, acc1. auto.
Qed.
Lemma vis_det : forall n pi cons acc n' pi' cons' acc', vis n pi cons acc -> vis n' pi' cons' acc' -> fst n = fst n' -> n = n' /\ pi = pi' /\ cons = cons' /\ acc = acc'.
Proof. intros. eapply visited_det; eassumption. Qed.
Lemma vis_process : forall n pi cons acc, vis n pi cons acc -> exists a2 c', process m n cons (negb (refines m unif same n cons)) = Ok (a2, c').
Proof.
  intros n pi cons acc V. exact (target_apply_process _ _ _ _ _ _ _ _ Htt _ _ _ _ V).
Qed.
Lemma vis_sub : forall n pi cons acc, vis n pi cons acc -> sub T (fst n) = Some (snd n).
Proof. intros n pi cons acc V. apply visited_sub in V. destruct V as (p & Ep & Sp). cbn in Ep, Sp. subst p. assumption. Qed.

(** Intermediate expansions of the parent. *)
Lemma vis_pi : forall n pi cons acc, vis n pi cons acc -> pi = true ->
  exists n1 pi1 cons1 acc1 a2 c' w, vis n1 pi1 cons1 acc1 /\ fst n = fst n1 ++ [w] /\ refines m unif same n1 cons1 = true /\ process m n1 cons1 false = Ok (a2, c') /\ In (Add (tgt (fst n1), Interm)) (task_of n1 pi1 cons1 a2).
Proof.
  intros n pi cons acc V. inversion V as [|n1 pi1 cons1 acc1 a2 cons' c V1 R P I]; subst; intros Hp; [discriminate|]. destruct n as [q n]. pose proof I as I0. apply children_in in I. destruct I as (w & _ & _ & ->).
  exists n1, pi1, cons1, acc1, a2, cons, w. repeat split; auto. apply existsb_exists in Hp. destruct Hp as ([x|e] & J & X); [|discriminate]. cbn in X. destruct (dnode_dec x (TgtTree, fst n1, Interm)) as [->|]; [assumption|discriminate].
Qed.

Theorem sound_ready : forall o acts a1 e a2, In (o, acts) (ss ++ tt) -> acts = a1 ++ Link e :: a2 -> ready (ss ++ tt) o a1 (efrom e) /\ ready (ss ++ tt) o a1 (eto e).
Proof.
  intros o acts a1 e a2 I Ea. assert (J : In e (links acts)) by (apply in_links; rewrite Ea; apply in_or_app; right; left; reflexivity). apply in_app_or in I. destruct I as [I|I].
  - apply ss_in in I. destruct I as (p & n & Sp & -> & Eq). rewrite Eq in Ea, J. destruct (Hs_prog p n a1 e a2 Sp Ea) as [P1 P2]. split; [|left; assumption].
    apply (proj2 (Hs_links p n Sp)) in J. destruct J as [(-> & _)|[(w & K & -> & Mp)|(-> & _)]]; [left; apply P1; reflexivity| |left; apply P1; reflexivity].
    right. destruct (kid n w) as [c|] eqn:Kw; [|contradiction]. assert (Sc : sub S (p ++ [w]) = Some c) by (rewrite sub_snoc, Sp; assumption).
    exists (src (p ++ [w])), (source_acts m (p ++ [w], c)). split; [apply in_or_app; left; apply ss_in; eauto|]. split.
    + cbn. split; [exists [w]; reflexivity|]. intros X. rewrite <- (app_nil_r p) in X at 2. apply app_inv_head in X. discriminate.
    + apply (proj2 (Hs_adds _ _ Sc)). right. left. split; [reflexivity|]. apply Hmono. assumption.
  - apply tt_in in I. destruct I as (n & pi & cons & acc & b2 & c' & V & -> & P & ->). destruct (Ht_prog _ _ _ _ _ _ _ _ _ V P Ea) as [P1 P2]. split; [|left; assumption].
    apply (proj1 (proj2 (Ht_links _ _ _ _ _ _ V P))) in J.
    assert (Src : forall c k nc, sub S c = Some nc -> (k = Parts /\ is_leaf nc = true \/ k = Normal /\ msrc c = true \/ k = Interm /\ isrc c = true) -> ready (ss ++ tt) (tgt (fst n)) a1 (src c, k)).
    { intros c k nc Sc H. right. exists (src c), (source_acts m (c, nc)). split; [apply in_or_app; left; apply ss_in; eauto|]. split; [exact I|]. apply (proj2 (Hs_adds _ _ Sc)). destruct H as [[-> H]|[[-> H]|[-> H]]]; auto. }
    assert (Sl : forall c, leaf_at S c -> ready (ss ++ tt) (tgt (fst n)) a1 (src c, Parts)).
    { intros c H. pose proof H as H'. destruct H' as (nc & Sc & _). eapply Src; [exact Sc|]. left. split; [reflexivity|]. apply (leaf_iff _ _ _ _ HS8 Sc). assumption. }
    assert (Ss : forall c, sub S c <> None -> exists nc, sub S c = Some nc) by (intros c H; destruct (sub S c); [eauto|contradiction]).
    destruct J; cbn [efrom LtoL_ ItoL_ LtoT_].
    + right. destruct (vis_above _ _ _ _ V p0) as (n1 & pi1 & cons1 & acc1 & V1 & E1); [rewrite H; exists [w]; reflexivity|]. destruct (vis_process _ _ _ _ V1) as (d2 & d' & P1').
      exists (tgt p0), (task_of n1 pi1 cons1 d2). split; [apply in_or_app; right; apply tt_in; exists n1, pi1, cons1, acc1, d2, d'; rewrite E1; auto|]. split.
      * cbn. rewrite H. split; [exists [w]; reflexivity|]. intros X. rewrite <- (app_nil_r p0) in X at 1. apply app_inv_head in X. discriminate.
      * rewrite <- E1. apply (Ht_adds _ _ _ _ _ _ V1 P1'). rewrite E1. assumption.
    + right. destruct (vis_pi _ _ _ _ V H0) as (n1 & pi1 & cons1 & acc1 & d2 & d' & w1 & V1 & E1 & R1 & P1' & Ai). rewrite H in E1. apply app_inj_tail in E1. destruct E1 as [-> _].
      exists (tgt (fst n1)), (task_of n1 pi1 cons1 d2). split; [apply in_or_app; right; apply tt_in; exists n1, pi1, cons1, acc1, d2, d'; rewrite R1; auto|]. split.
      * cbn. rewrite H. split; [exists [w]; reflexivity|]. intros X. rewrite <- (app_nil_r (fst n1)) in X at 1. apply app_inv_head in X. discriminate.
      * apply in_adds. assumption.
    + left. apply P1. reflexivity.
    + apply Sl. assumption.
    + destruct (Ss _ H) as [nc Sc]. eapply Src; [exact Sc|]. auto.
    + apply Sl. assumption.
    + destruct (Ss _ H) as [nc Sc]. eapply Src; [exact Sc|]. auto.
    + destruct (Ss _ H) as [nc Sc]. eapply Src; [exact Sc|]. auto.
Qed.

Theorem sound_run : forall l, schedule (ss ++ tt) l -> exists d, run (map snd l) = Ok d /\ Permutation (dnodes d) (all_adds (ss ++ tt)) /\ Permutation (dedges d) E.
Proof. intros l. apply run_schedule; [apply owners_nodup|apply sound_adds|apply sound_ready]. Qed.

(** Chains up and down. *)
Lemma up_chain : forall c r, sub S (c ++ r) <> None -> msrc c = true -> chain E (src (c ++ r), Normal) (up c (rev r)) (src c, Normal).
Proof.
  intros c r. induction r as [|w r IH] using rev_ind; intros Hs Mc; [rewrite app_nil_r; reflexivity|]. rewrite rev_app_distr. cbn [rev app up]. rewrite rev_involutive. cbn [chain]. rewrite app_assoc in Hs |- *. rewrite sub_snoc in Hs. destruct (sub S (c ++ r)) as [n|] eqn:Sn; [|contradiction]. split.
  - apply edge_cases. left. exists (c ++ r), n. split; [assumption|]. right. left. exists w. split; [assumption|]. unfold MtoM_. split; [reflexivity|]. clear - Hmono Mc. induction r as [|v r IH] using rev_ind; [rewrite app_nil_r; assumption|]. rewrite app_assoc. apply Hmono. assumption.
  - split; [reflexivity|]. cbn [eto]. apply IH; [discriminate|assumption].
Qed.
Lemma msrc_below : forall c r, msrc c = true -> msrc (c ++ r) = true.
Proof. intros c r Mc. induction r as [|v r IH] using rev_ind; [rewrite app_nil_r; assumption|]. rewrite app_assoc. apply Hmono. assumption. Qed.
Lemma ltgt_below : forall c r, ltgt c = true -> ltgt (c ++ r) = true.
Proof. intros c r Mc. induction r as [|v r IH] using rev_ind; [rewrite app_nil_r; assumption|]. rewrite app_assoc. apply Hltgt. assumption. Qed.

Lemma cross_facts : forall e, In e E -> cross e -> exists n pi cons acc a2 c', vis n pi cons acc /\ process m n cons (negb (refines m unif same n cons)) = Ok (a2, c') /\ In (Link e) (task_of n pi cons a2) /\ tlink (fst n) pi (refines m unif same n cons) e.
Proof.
  intros e I [_ X]. apply edge_cases in I. destruct I as [(p & n & Sp & [(-> & _)|[(w & _ & -> & _)|(-> & _)]])|(n & pi & cons & acc & a2 & c' & V & P & J)]; try discriminate X.
  exists n, pi, cons, acc, a2, c'. split; [assumption|]. split; [assumption|]. split; [apply in_links; assumption|]. apply (Ht_links _ _ _ _ _ _ V P). assumption.
Qed.

Lemma sound_rise : forall s q e, sleaf s -> dleaf q -> In e E -> joins s q e -> chain E (src s, Parts) (rise s (opath (efrom e)) (snd (efrom e))) (efrom e).
Proof.
  intros s q e Hs Hq I (Cr & Ps & Pq & J1 & J2 & J3). destruct (cross_facts e I Cr) as (n & pi & cons & acc & a2 & c' & V & P & _ & L).
  assert (M : forall c, prefix c s -> msrc c = true -> chain E (src s, Parts) (rise s c Normal) (src c, Normal)).
  { intros c [r ->] Mc. cbn [rise chain]. pose proof Hs as Hs'. destruct Hs' as (nc & Sc & Fc). split; [|split; [reflexivity|]].
    - apply edge_cases. left. exists (c ++ r), nc. split; [assumption|]. left. split; [reflexivity|]. split; [apply (leaf_iff _ _ _ _ HS8 Sc); assumption|apply msrc_below; assumption].
    - cbn [eto]. rewrite skip_pre. apply up_chain; [rewrite Sc; discriminate|assumption]. }
  destruct L; cbn [efrom eto opath fst snd src tgt LtoL_ ItoL_ LtoT_] in *; try (destruct Cr as [Cr _]; discriminate Cr).
  - cbn. rewrite J1 by reflexivity. reflexivity.
  - apply M; assumption.
  - cbn. rewrite J1 by reflexivity. reflexivity.
  - apply M; assumption.
  - specialize (M c Ps (Hisrc _ H0)). cbn [rise] in M |- *. rewrite app_comm_cons. apply chain_app. eexists. split; [exact M|]. cbn [chain]. split; [|split; reflexivity]. apply edge_cases. left.
    destruct (sub S c) as [nc|] eqn:Sc; [|contradiction]. exists c, nc. split; [assumption|]. right. right. auto.
Qed.

Lemma down_chain : forall r p, ltgt p = true -> dleaf (p ++ r) -> chain E (tgt p, Normal) (down p r) (tgt (p ++ r), Parts).
Proof.
  induction r as [|w r IH]; intros p Lp Hd; cbn [down chain].
  - rewrite app_nil_r in *. split; [|split; reflexivity]. destruct Hd as (n & pi & cons & acc & V & <- & R). destruct (vis_process _ _ _ _ V) as (a2 & c' & P). apply edge_cases. right. exists n, pi, cons, acc, a2, c'. split; [assumption|]. split; [assumption|]. apply (Ht_links _ _ _ _ _ _ V P); assumption.
  - split; [|split; [reflexivity|]].
    + destruct Hd as (n & pi & cons & acc & V & En & R). destruct (vis_above _ _ _ _ V (p ++ [w])) as (n1 & pi1 & cons1 & acc1 & V1 & E1); [rewrite En; exists r; rewrite <- app_assoc; reflexivity|]. destruct (vis_process _ _ _ _ V1) as (a2 & c' & P). apply edge_cases. right. exists n1, pi1, cons1, acc1, a2, c'. split; [assumption|]. split; [assumption|]. apply (Ht_links _ _ _ _ _ _ V1 P); assumption.
    + cbn [eto]. change (p ++ w :: r) with (p ++ [w] ++ r) in *. rewrite app_assoc in *. apply IH; [apply Hltgt; assumption|assumption].
Qed.

(** Every target leaf lies below exactly one place where the method stops. *)
Theorem sound_stops : deep unif T -> forall t, leaf_at T t -> exists! q, stops (ss ++ tt) q /\ prefix q t.
Proof.
  intros D t Ht. destruct Ht as (nt & St & Kt).
  assert (G : forall k p n pi cons acc, vis n pi cons acc -> fst n = p -> prefix p t -> length t - length p <= k -> exists q, dleaf q /\ prefix q t).
  { induction k as [|k IH]; intros p n pi cons acc V En Pp Lk.
    - assert (p = t) by (apply prefix_eq; [assumption|apply prefix_len in Pp; lia]). subst p. exists t. split; [|apply prefix_refl]. exists n, pi, cons, acc. split; [assumption|]. split; [assumption|].
      pose proof (vis_sub _ _ _ _ V) as Sn. rewrite H in Sn. assert (snd n = nt) by congruence. unfold refines. assert (Lf : leaf_at T t) by (exists nt; auto). specialize (D t Lf). rewrite H. destruct (Nat.ltb_spec (length t) unif); [lia|].
      assert (Z : n_children (snd n) = 0) by (apply n_children_0; [apply (HT8 t); assumption|subst; assumption]). rewrite Z. reflexivity.
    - destruct (refines m unif same n cons) eqn:R.
      + destruct Pp as [[|w r] Et].
        * rewrite app_nil_r in Et. subst. exfalso. pose proof (vis_sub _ _ _ _ V) as Sn. assert (snd n = nt) by congruence. unfold refines in R. assert (Lf : leaf_at T (fst n)) by (exists nt; auto). specialize (D _ Lf). destruct (Nat.ltb_spec (length (fst n)) unif); [lia|].
          assert (Z : n_children (snd n) = 0) by (apply n_children_0; [apply (HT8 (fst n)); assumption|subst; assumption]). rewrite Z in R. discriminate R.
        * destruct (vis_process _ _ _ _ V) as (a2 & c' & P). rewrite R in P. cbn [negb] in P. pose proof (vis_sub _ _ _ _ V) as Sn. rewrite Et, sub_app in St. rewrite <- En, Sn in St. cbn in St. destruct (kid (snd n) w) as [c|] eqn:K; [|discriminate].
          assert (Ic : In (fst n ++ [w], c) (children n)) by (apply children_in; exists w; split; [eapply kid_lt8; [apply (HT8 _ _ Sn)|exact K]|auto]).
          apply (IH (p ++ [w]) (fst n ++ [w], c) _ _ _ (V_kid _ _ _ _ _ _ _ _ _ _ _ _ _ V R P Ic)); [cbn; rewrite En; reflexivity|rewrite Et; exists r; rewrite <- app_assoc; reflexivity|]. rewrite Et in Lk |- *. rewrite !app_length in *. cbn [length] in *. lia.
      + exists p. split; [|assumption]. exists n, pi, cons, acc. auto. }
  destruct (G (length t) [] ([], T) false [([], S)] [] (V_root _ _ _ _ _ _) eq_refl) as (q & Hq & Pq); [exists t; reflexivity|cbn; lia|]. exists q. split; [split; [apply dleaf_stops; assumption|assumption]|]. intros q' [Hq' Pq']. apply dleaf_stops in Hq'.
  assert (U : forall a b, dleaf a -> dleaf b -> prefix a t -> prefix b t -> length a <= length b -> a = b).
  { clear - HT8. intros a b (n & pi & cons & acc & V & <- & R) (n' & pi' & cons' & acc' & V' & <- & R') Pa Pb L. pose proof (prefix_comparable _ _ _ Pa Pb L) as [[|w r] Er]; [rewrite app_nil_r in Er; auto|]. exfalso.
    destruct (vis_acc_all _ _ _ _ V' (fst n) w) as [acts J]; [rewrite Er; exists r; rewrite <- app_assoc; reflexivity|]. destruct (vis_acc _ _ _ _ V' _ _ J) as (n1 & pi1 & cons1 & acc1 & _ & _ & V1 & E1 & R1 & _). destruct (vis_det _ _ _ _ _ _ _ _ V1 V E1) as (-> & -> & -> & ->). congruence. }
  destruct (Nat.le_ge_cases (length q) (length q')); [apply U|symmetry; apply U]; assumption.
Qed.

Context (Hltgt2 : forall n pi cons acc, vis n pi cons acc -> pi = true -> ltgt (fst n) = true).
Lemma sound_fall : forall s q e, sleaf s -> dleaf q -> In e E -> joins s q e -> chain E (eto e) (fall (opath (eto e)) q (snd (eto e))) (tgt q, Parts).
Proof.
  intros s q e Hs Hq I (Cr & Ps & Pq & J1 & J2 & J3). destruct (cross_facts e I Cr) as (n & pi & cons & acc & a2 & c' & V & P & Le & L).
  assert (M : forall p, prefix p q -> ltgt p = true -> chain E (tgt p, Normal) (fall p q Normal) (tgt q, Parts)).
  { intros p [r ->] Lp. cbn [fall]. rewrite skip_pre. apply down_chain; assumption. }
  destruct L; cbn [efrom eto opath fst snd src tgt LtoL_ ItoL_ LtoT_] in *; try (destruct Cr as [Cr _]; discriminate Cr).
  - cbn. rewrite J2 by reflexivity. reflexivity.
  - cbn. rewrite J2 by reflexivity. reflexivity.
  - apply M; assumption.
  - apply M; assumption.
  - destruct (J3 eq_refl) as (w & [r ->] & _). rewrite <- app_assoc. cbn [fall app]. rewrite skip_pre. cbn [chain]. rewrite H1 in P. cbn [negb] in P.
    pose proof Hq as Hq'. destruct Hq' as (n2 & pi2 & cons2 & acc2 & V2 & E2 & R2).
    destruct (vis_above _ _ _ _ V2 (fst n ++ [w])) as (n1 & pi1 & cons1 & acc1 & V1 & E1); [rewrite E2; exists r; reflexivity|].
    assert (Hpi : pi1 = true).
    { pose proof V1 as V1'. inversion V1' as [|n0 pi0 cons0 acc0 b2 cons0' c0 V0 R0 P0 I0]; subst; [exfalso; cbn in E1; destruct (fst n); discriminate E1|].
      destruct n1 as [q1 t1]. apply children_in in I0. destruct I0 as (w0 & _ & _ & ->). cbn [fst] in E1. apply app_inj_tail in E1. destruct E1 as [E1 _]. destruct (vis_det _ _ _ _ _ _ _ _ V0 V E1) as (-> & -> & -> & ->). rewrite P in P0. injection P0 as <- <-.
      apply existsb_exists. exists (Add (tgt (fst n), Interm)). split; [|unfold is_add_interm; match goal with |- context [dnode_dec ?a ?b] => destruct (dnode_dec a b) as [|X]; [reflexivity|exfalso; apply X; reflexivity] end].
      apply in_split in Le. destruct Le as (x1 & x2 & Le). assert (P' : process m n cons (negb (refines m unif same n cons)) = Ok (a2, c')) by (rewrite H1; assumption). destruct (Ht_prog _ _ _ _ _ _ _ _ _ V P' Le) as [_ X]. cbn [eto] in X. apply in_adds in X. change (target_acts m unif same n pi cons a2) with (task_of n pi cons a2). rewrite Le. apply in_or_app. left. assumption. }
    split; [|split; [reflexivity|]].
    + destruct (vis_process _ _ _ _ V1) as (d2 & d' & P1). apply edge_cases. right. exists n1, pi1, cons1, acc1, d2, d'. split; [assumption|]. split; [assumption|]. apply (Ht_links _ _ _ _ _ _ V1 P1); assumption.
    + cbn [eto]. change (fst n ++ w :: r) with (fst n ++ [w] ++ r). rewrite app_assoc. apply down_chain; [|assumption]. rewrite <- E1. eapply Hltgt2; eassumption.
Qed.

(** Counting crossings. *)
Context (Inv : path * tree B -> list (path * tree A) -> Prop) (pc : path -> path -> list (path * tree A) -> nat).
Context (Hroot : Inv ([], T) [([], S)] /\ forall s, sleaf s -> pc s [] [([], S)] = 1).
Context (Hinner : forall (n : path * tree B) pi cons a2 cons', sub T (fst n) = Some (snd n) -> Inv n cons -> refines m unif same n cons = true -> process m n cons false = Ok (a2, cons') ->
  (forall c, In c (children n) -> Inv c cons') /\
  forall s q c, sleaf s -> In c (children n) -> prefix (fst c) q -> jcnt s q (task_of n pi cons a2) + pc s (fst c) cons' = pc s (fst n) cons).
Context (Hleaf : forall (n : path * tree B) pi cons a2 cons' s, sub T (fst n) = Some (snd n) -> Inv n cons -> refines m unif same n cons = false -> process m n cons true = Ok (a2, cons') ->
  sleaf s -> jcnt s (fst n) (task_of n pi cons a2) = pc s (fst n) cons).

Lemma count_vis : forall n pi cons acc, vis n pi cons acc -> Inv n cons /\ forall s q, sleaf s -> prefix (fst n) q -> jcnt s q (flat_map snd acc) + pc s (fst n) cons = 1.
Proof.
  intros n pi cons acc V. assert (G : vis n pi cons acc) by assumption. induction V as [|n pi cons acc a2 cons' c V IH R P I].
  - split; [apply Hroot|]. intros s q Hs _. cbn. apply Hroot. assumption.
  - destruct (IH V) as [Iv C]. pose proof (vis_sub _ _ _ _ V) as Sn. destruct (Hinner n pi cons a2 cons' Sn Iv R P) as [I1 C1]. split; [apply I1; assumption|]. intros s q Hs Pq.
    rewrite flat_map_app. cbn [flat_map snd]. rewrite app_nil_r, jcnt_app. change (target_acts m unif same n pi cons a2) with (task_of n pi cons a2). specialize (C1 s q c Hs I Pq). assert (Pn : prefix (fst n) q).
    { destruct c as [qc tc]. apply children_in in I. destruct I as (w & _ & _ & ->). cbn [fst] in Pq. apply prefix_snoc in Pq. tauto. }
    specialize (C s q Hs Pn). lia.
Qed.

Theorem sound_one : forall s q, sleaf s -> dleaf q -> exists e, In e E /\ joins s q e /\ forall e', In e' E -> joins s q e' -> e' = e.
Proof.
  intros s q Hs Hq. pose proof Hq as Hq'. destruct Hq' as (n & pi & cons & acc & V & En & R). destruct (vis_process _ _ _ _ V) as (a2 & c' & P). destruct (count_vis _ _ _ _ V) as [Iv C]. rewrite R in P. cbn [negb] in P.
  specialize (C s q Hs ltac:(rewrite En; apply prefix_refl)). pose proof (Hleaf n pi cons a2 c' s (vis_sub _ _ _ _ V) Iv R P Hs) as CL. rewrite En in CL, C. rewrite <- CL in C. rewrite <- jcnt_app in C.
  set (all := flat_map snd acc ++ task_of n pi cons a2) in *. assert (PR : process m n cons (negb (refines m unif same n cons)) = Ok (a2, c')) by (rewrite R; assumption).
  (* membership of a crossing among the tasks on the way to [q] *)
  assert (F1 : forall e, In (Link e) all -> jcov s q (Link e) = true -> In e E /\ joins s q e).
  { intros e I J. assert (G : exists n1 pi1 cons1 acc1 b2 d', vis n1 pi1 cons1 acc1 /\ process m n1 cons1 (negb (refines m unif same n1 cons1)) = Ok (b2, d') /\ In (Link e) (task_of n1 pi1 cons1 b2) /\ (fst n1 = q \/ refines m unif same n1 cons1 = true /\ exists w, prefix (fst n1 ++ [w]) q)).
    { unfold all in I. apply in_app_or in I. destruct I as [I|I].
      - apply in_flat_map in I. destruct I as ([p acts] & I & Ia). destruct (vis_acc _ _ _ _ V _ _ I) as (n1 & pi1 & cons1 & acc1 & b2 & d' & V1 & E1 & R1 & P1 & -> & w & Pw). exists n1, pi1, cons1, acc1, b2, d'. rewrite R1. rewrite En in Pw. rewrite <- E1 in Pw. repeat split; auto. right. split; [reflexivity|]. exists w. assumption.
      - exists n, pi, cons, acc, a2, c'. repeat split; auto. }
    destruct G as (n1 & pi1 & cons1 & acc1 & b2 & d' & V1 & P1 & Ia & W). assert (Ie : In e E) by (apply edge_cases; right; exists n1, pi1, cons1, acc1, b2, d'; repeat split; auto; apply in_links; assumption). split; [assumption|].
    assert (Pq : prefix (fst n1) q) by (destruct W as [->|[_ [w W]]]; [apply prefix_refl|apply prefix_snoc in W; tauto]).
    apply in_links in Ia. apply (proj1 (proj2 (Ht_links _ _ _ _ _ _ V1 P1))) in Ia.
    assert (Lq : refines m unif same n1 cons1 = false -> fst n1 = q) by (intros Rf; destruct W as [W|[W _]]; [assumption|congruence]).
    assert (Ls : forall c, leaf_at S c -> prefixb c s = true -> c = s).
    { intros c (nc & Sc & Kc) Pc. apply prefixb_iff in Pc. destruct Pc as [[|w r] ->]; [rewrite app_nil_r; reflexivity|]. exfalso. destruct Hs as (ns & Sx & _). rewrite sub_app, Sc in Sx. cbn in Sx. rewrite Kc in Sx. discriminate. }
    unfold joins. destruct Ia; cbn [jcov LtoL_ ItoL_ LtoT_ efrom eto src tgt] in J; try discriminate J; apply andb_true_iff in J; destruct J as [J1 J2]; (split; [split; reflexivity|]); cbn [efrom eto opath fst snd src tgt]; (split; [apply prefixb_iff; assumption|]); (split; [assumption|]);
      (split; [intros K; try discriminate K; apply Ls; assumption|]); (split; [intros K; try discriminate K; apply Lq; assumption|]); intros K; try discriminate K.
    apply andb_true_iff in J2. destruct J2 as [J2 J3]. apply Nat.ltb_lt in J2. destruct Pq as [r ->]. destruct r as [|w r]; [rewrite app_nil_r in J2; lia|]. exists w. split; [exists r; rewrite <- app_assoc; reflexivity|]. apply well_sep_apart. 
    replace (fst n1 ++ [w]) with (firstn (Datatypes.S (length (fst n1))) (fst n1 ++ w :: r)); [assumption|]. rewrite firstn_app. rewrite firstn_all2 by lia. replace (Datatypes.S (length (fst n1)) - length (fst n1)) with 1 by lia. reflexivity. }
  assert (F2 : forall e, In e E -> joins s q e -> In (Link e) all /\ jcov s q (Link e) = true).
  { intros e I (Cr & Ps & Pq & J1 & J2 & J3). destruct (cross_facts e I Cr) as (n1 & pi1 & cons1 & acc1 & b2 & d' & V1 & P1 & Le & L). assert (Eto : opath (eto e) = fst n1) by (destruct L; subst; try reflexivity; try (destruct Cr as [Cr _]; discriminate Cr)). split.
    - rewrite Eto in Pq. unfold all. apply in_or_app. destruct Pq as [[|w r] Eq].
      + right. rewrite app_nil_r in Eq. rewrite Eq in En. destruct (vis_det _ _ _ _ _ _ _ _ V V1 En) as (-> & -> & -> & ->). rewrite PR in P1. injection P1 as <- <-. assumption.
      + left. destruct (vis_acc_all _ _ _ _ V (fst n1) w) as [acts Ia]; [rewrite En, Eq; exists r; rewrite <- app_assoc; reflexivity|]. apply in_flat_map. exists (fst n1, acts). split; [assumption|]. cbn [snd]. destruct (vis_acc _ _ _ _ V _ _ Ia) as (n2 & pi2 & cons2 & acc2 & b3 & d3 & V2 & E2 & R2 & P2 & -> & _). destruct (vis_det _ _ _ _ _ _ _ _ V2 V1 E2) as (-> & -> & -> & ->). rewrite R2 in P1. cbn [negb] in P1. rewrite P2 in P1. injection P1 as <- <-. assumption.
    - destruct L; cbn [efrom eto opath fst snd src tgt LtoL_ ItoL_ LtoT_ jcov] in *; try (destruct Cr as [Cr _]; discriminate Cr); apply andb_true_iff; (split; [apply prefixb_iff; assumption|]); try reflexivity.
      destruct (J3 eq_refl) as (w & [r ->] & Ap). apply andb_true_iff. split; [apply Nat.ltb_lt; rewrite !app_length; cbn; lia|]. apply well_sep_apart. rewrite <- app_assoc. cbn [app].
      replace (firstn (Datatypes.S (length (fst n1))) (fst n1 ++ w :: r)) with (fst n1 ++ [w]); [assumption|]. rewrite firstn_app. rewrite (firstn_all2 (n := Datatypes.S (length (fst n1))) (fst n1)) by lia. replace (Datatypes.S (length (fst n1)) - length (fst n1)) with 1 by lia. reflexivity. }
  unfold jcnt in C. destruct (filter (jcov s q) all) as [|a [|b l]] eqn:Fl; try discriminate C. assert (Ia : In a (filter (jcov s q) all)) by (rewrite Fl; left; reflexivity). apply filter_In in Ia. destruct Ia as [Ia Ja]. destruct a as [x|e]; [discriminate Ja|].
  exists e. destruct (F1 e Ia Ja) as [X1 X2]. split; [assumption|]. split; [assumption|]. intros e' I' J'. destruct (F2 e' I' J') as [Y1 Y2]. assert (Y : In (Link e') (filter (jcov s q) all)) by (apply filter_In; auto). rewrite Fl in Y. destruct Y as [Y|[]]. injection Y as <-. reflexivity.
Qed.

Theorem sound_chain : forall s q, leaf_at S s -> stops (ss ++ tt) q -> exists! es, chain E (src s, Parts) es (tgt q, Parts) /\ effective es.
Proof.
  intros s q Hs Hq. apply (one_chain E sound_shape sleaf dleaf sound_one sound_rise sound_fall); [assumption|]. apply dleaf_stops. assumption.
Qed.

End Sound.
