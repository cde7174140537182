(** The distributions of the DAGs of the built-in methods. *)
From Coq Require Import ZArith List Bool Arith Lia Permutation Sorted.
From Verif Require Import Base ListFacts IndexModel IndexSpec GridModel GridSpec GridProofs TreeModel TreeFacts LookupModel DagModel DagSpec DagProofs DagPaths DagOrder MethodModel DirectBHProofs FmmProofs Fmm97Proofs MethodProps EvalProps LinkModel DistroModel DistroSpec DistroChoose DistroProofs.
Import ListNotations.
Open Scope nat_scope.

Definition mem (l : list dnode) (x : dnode) : bool := if in_dec dnode_dec x l then true else false.
Lemma mem_in : forall l x, mem l x = true <-> In x l.
Proof. intros l x. unfold mem. destruct (in_dec dnode_dec x l); split; auto; discriminate. Qed.
Lemma has_in : forall d x, has d x = true <-> In x (dnodes d).
Proof. intros d x. unfold has. destruct (in_dec dnode_dec x (dnodes d)); split; auto; discriminate. Qed.

(** ** All visits *)
Section PlaceAll.
Context (n unif : nat) (rm : list Z) (k : pol_name) (h : dnode -> bool).
Hypothesis Hn : 0 < n.
Hypothesis Hu : unif <= 10.
Hypothesis Hrm : good_map n unif rm.

Lemma place_all_spec : forall vs s0, NoDup (map fst vs) -> Forall (fun v => bytes (snd (fst v)) /\ (snd v = true -> unif <= length (snd (fst v)))) vs ->
  exists s, foldM (fun s v => place unif rm (pol_of k) h v s) vs s0 = Ok s /\
    (forall x, ~ In (fst x) (map fst vs) -> loc s x = loc s0 x /\ col s x = col s0 x) /\
    (forall v x, In v vs -> fst x = fst v -> h x = true ->
       (snd x = Parts -> snd v = true) -> (fst (fst v) = TgtTree -> snd v = true -> snd x <> Interm) ->
       (loc s x = if placed k x (snd v) then home rm unif (snd (fst v)) else loc s0 x) /\
       (k = P_bh -> placed k x (snd v) = false -> col s x = color k x)).
Proof.
  induction vs as [|v vs IH]; intros s0 Nd F; cbn [foldM].
  - exists s0. split; [reflexivity|]. split; [auto|]. intros v x [].
  - inversion F as [|? ? [Hb Hl] F']; subst. cbn [map] in Nd. inversion Nd as [|? ? Nv Nd']; subst.
    destruct (place_spec n unif rm k h Hn Hu Hrm v s0 Hb Hl) as (s1 & -> & O1 & W1). cbn [bind].
    destruct (IH s1 Nd' F') as (s & -> & O2 & W2). exists s. split; [reflexivity|]. split.
    + intros x Nx. cbn [map In] in Nx. destruct (O2 x) as [-> ->]; [tauto|]. apply O1. intros Q. apply Nx. left. congruence.
    + intros v' x [<-|Iv] Ex Hx Hp Hi.
      * destruct (O2 x) as [-> ->]; [rewrite Ex; assumption|]. apply W1; assumption.
      * destruct (W2 v' x Iv Ex Hx Hp Hi) as [W3 W4]. split; [|assumption]. rewrite W3. destruct (placed k x (snd v')); [reflexivity|]. apply O1. intros Q. apply Nv. rewrite <- Q, Ex. apply in_map. assumption.
Qed.
End PlaceAll.

(** ** The collected nodes *)
Lemma collect_spec : forall X (h : dnode -> bool) sd fuel (nd : path * tree X), eight (snd nd) -> lower fuel (snd nd) ->
  exists ints terms, collect h sd fuel nd = Ok (ints, terms) /\
    (forall x, In x ints <-> h x = true /\ fst (fst x) = sd /\ snd x <> Parts /\ exists p, snd (fst x) = fst nd ++ p /\ sub (snd nd) p <> None) /\
    (forall x, In x terms <-> h x = true /\ fst (fst x) = sd /\ snd x = Parts /\ exists p, snd (fst x) = fst nd ++ p /\ sub (snd nd) p <> None).
Proof.
  intros X h sd. induction fuel as [|fuel IH]; intros [q t] E L; cbn [fst snd] in *; [specialize (L [] t eq_refl); cbn in L; lia|].
  cbn [collect fst].
  assert (K : forall c, In c (children (q, t)) -> exists w, w < 8 /\ fst c = q ++ [w] /\ kid t w = Some (snd c) /\ eight (snd c) /\ lower fuel (snd c)).
  { intros [q' c] I. apply children_in in I. destruct I as (w & Hw & Kw & ->). cbn [fst snd] in *. exists w. split; [assumption|]. split; [reflexivity|]. split; [assumption|]. split.
    - intros p n S. apply (E (w :: p)). cbn. rewrite Kw. assumption.
    - intros p n S. assert (X1 : sub t (w :: p) = Some n) by (cbn; rewrite Kw; assumption). specialize (L _ _ X1). cbn in L. lia. }
  destruct (mapM_total _ _ (collect h sd fuel) (children (q, t))) as [l M].
  { intros c I. destruct (K c I) as (w & _ & _ & _ & Ec & Lc). destruct (IH c Ec Lc) as (i & tm & -> & _). eauto. }
  rewrite M. cbn [bind]. eexists; eexists. split; [reflexivity|].
  assert (P : forall x : dnode, (exists p, snd (fst x) = q ++ p /\ sub t p <> None) <-> snd (fst x) = q \/ exists c, In c (children (q, t)) /\ exists p, snd (fst x) = fst c ++ p /\ sub (snd c) p <> None).
  { intros x. split.
    - intros ([|w p] & Ep & Sp); [left; rewrite Ep, app_nil_r; reflexivity|]. right. cbn in Sp. destruct (kid t w) as [c|] eqn:Kw; [|congruence]. exists (q ++ [w], c). split; [apply children_in; exists w; split; [eapply kid_lt8; [apply (E [] t eq_refl)|eassumption]|auto]|]. exists p. cbn [fst snd]. rewrite <- app_assoc. auto.
    - intros [Ep|(c & Ic & p & Ep & Sp)]; [exists []; rewrite app_nil_r; split; [assumption|discriminate]|]. destruct (K c Ic) as (w & _ & Ew & Kw & _). exists (w :: p). rewrite Ep, Ew, <- app_assoc. split; [reflexivity|]. cbn. rewrite Kw. assumption. }
  assert (Cm : forall (f : list dnode * list dnode -> list dnode) (Q : dnode -> Prop),
    (forall c r, In c (children (q, t)) -> collect h sd fuel c = Ok r -> forall x, In x (f r) <-> Q x /\ exists p, snd (fst x) = fst c ++ p /\ sub (snd c) p <> None) ->
    forall x, In x (concat (map f l)) <-> Q x /\ exists c, In c (children (q, t)) /\ exists p, snd (fst x) = fst c ++ p /\ sub (snd c) p <> None).
  { intros f Q. revert M. generalize (children (q, t)). intros cs. revert l. induction cs as [|c cs IHc]; intros l M H x; cbn in M.
    - injection M as <-. cbn. split; [tauto|]. intros (_ & c & [] & _).
    - destruct (collect h sd fuel c) as [r|] eqn:Ec; [|discriminate]. cbn in M. destruct (mapM (collect h sd fuel) cs) as [l0|] eqn:M0; [|discriminate]. cbn in M. injection M as <-. cbn [map concat]. rewrite in_app_iff, (H c r (or_introl eq_refl) Ec), (IHc l0 eq_refl (fun c' r' I => H c' r' (or_intror I))). split.
      + intros [[Hq Hp]|(Hq & c' & Ic & Hp)]; (split; [assumption|]); [exists c|exists c']; (split; [cbn; auto|assumption]).
      + intros (Hq & c' & [<-|Ic] & Hp); [left; auto|right; split; [assumption|]; exists c'; auto]. }
  split; intros x; cbn [collect_one fst snd]; rewrite in_app_iff.
  - rewrite (Cm fst (fun x => h x = true /\ fst (fst x) = sd /\ snd x <> Parts)).
    + rewrite P. destruct x as [[sx px] kx]. cbn [fst snd]. rewrite in_app_iff. split.
      * intros [((H1 & H2 & H3) & H4)|[I|I]]; [tauto| |].
        -- match type of I with In _ (if ?b then _ else _) => destruct b eqn:Hh end; [|destruct I]. destruct I as [I|[]]. injection I as <- <- <-. repeat split; auto. discriminate.
        -- match type of I with In _ (if ?b then _ else _) => destruct b eqn:Hh end; [|destruct I]. destruct I as [I|[]]. injection I as <- <- <-. repeat split; auto. discriminate.
      * intros (H1 & -> & H3 & [->|H4]); [right|left; tauto]. destruct kx; [congruence| |]; [left|right]; rewrite H1; left; reflexivity.
    + intros c r Ic Ec y. destruct (K c Ic) as (w & _ & _ & _ & Ec' & Lc). destruct (IH c Ec' Lc) as (i & tm & Er & Hi & _). rewrite Er in Ec. injection Ec as <-. cbn [fst]. rewrite Hi. tauto.
  - rewrite (Cm snd (fun x => h x = true /\ fst (fst x) = sd /\ snd x = Parts)).
    + rewrite P. destruct x as [[sx px] kx]. cbn [fst snd]. split.
      * intros [((H1 & H2 & H3) & H4)|I]; [tauto|]. match type of I with In _ (if ?b then _ else _) => destruct b eqn:Hh end; [|destruct I]. destruct I as [I|[]]. injection I as <- <- <-. repeat split; auto.
      * intros (H1 & -> & -> & [->|H4]); [right|left; tauto]. rewrite H1. left. reflexivity.
    + intros c r Ic Ec y. destruct (K c Ic) as (w & _ & _ & _ & Ec' & Lc). destruct (IH c Ec' Lc) as (i & tm & Er & _ & Ht). rewrite Er in Ec. injection Ec as <-. cbn [snd]. rewrite Ht. tauto.
Qed.

(** ** A built DAG *)
Section Built.
Context {A B : Type} (m : method A B) (unif fuel : nat) (same : bool) (S : tree A) (T : tree B) (ss tt : list task) (d : dag) (sv tv : list (owner * bool)).
Hypothesis Hm : builtin fuel m.
Hypothesis Hus : usable unif fuel S T.
Hypothesis Hc : create_dag m unif same fuel S T = Ok (ss, tt).
Hypothesis Hd : exists l, schedule (ss ++ tt) l /\ run (map snd l) = Ok d.

Lemma applies : source_apply m unif fuel ([], S) = Ok ss /\ target_apply m unif same fuel ([], T) false [([], S)] = Ok tt.
Proof.
  unfold create_dag in Hc. destruct (source_apply m unif fuel ([], S)) as [ss'|]; [|discriminate]. cbn [bind] in Hc. destruct (target_apply m unif same fuel ([], T) false [([], S)]) as [tt'|]; [|discriminate]. cbn [bind] in Hc. injection Hc as -> ->. auto.
Qed.
Lemma built : Permutation (dnodes d) (all_adds (ss ++ tt)) /\ Permutation (dedges d) (all_edges (ss ++ tt)) /\ NoDup (dnodes d) /\
  (forall e, In e (dedges d) -> shape e /\ In (efrom e) (dnodes d) /\ In (eto e) (dnodes d)).
Proof.
  assert (G : good_dag S T (ss ++ tt) /\ forall e, In e (all_edges (ss ++ tt)) -> shape e).
  { destruct Hus as (H1 & H2 & H3 & H4 & H5 & H6). destruct Hm as [|accept| |].
    - destruct (direct_dag S T unif fuel same H1 H2 H3 H4 H5 H6) as (s' & t' & Hc' & G & Sh & _). rewrite Hc in Hc'. injection Hc' as <- <-. auto.
    - destruct (bh_dag S T unif fuel same H1 H2 H3 H4 H5 H6 accept) as (s' & t' & Hc' & G & Sh & _). rewrite Hc in Hc'. injection Hc' as <- <-. auto.
    - destruct (fmm_dag S T H1 H2 fuel unif same H3 H4 H5 H6) as (s' & t' & Hc' & G & Sh & _). rewrite Hc in Hc'. injection Hc' as <- <-. auto.
    - destruct (fmm97_dag S T H1 H2 fuel unif same H3 H4 H5 H6) as (s' & t' & Hc' & G & Sh & _). rewrite Hc in Hc'. injection Hc' as <- <-. auto. }
  destruct G as [(_ & _ & _ & G) Sh]. destruct Hd as (l & Sc & R). destruct (G l Sc) as (d' & R' & Pn & Pe). rewrite R in R'. injection R' as <-.
  apply run_facts in R. destruct R as [N Ends]. split; [assumption|]. split; [assumption|]. split; [assumption|]. intros e Ie. split; [apply Sh; eapply Permutation_in; eassumption|apply Ends; assumption].
Qed.

Lemma visits_exist : exists sv tv, source_visits fuel ([], S) = Ok sv /\ target_visits m unif same fuel ([], T) false [([], S)] = Ok tv.
Proof.
  destruct applies as [As At]. pose proof (builtin_tidy _ _ _ _ Hm) as Ht.
  destruct (source_visits_ok m unif Ht _ _ _ As) as (sv' & Es & _); [constructor|]. destruct (target_visits_ok m unif same Ht _ _ _ _ _ At) as (tv' & Et & _); [constructor|]. eauto.
Qed.

Hypothesis Hsv : source_visits fuel ([], S) = Ok sv.
Hypothesis Htv : target_visits m unif same fuel ([], T) false [([], S)] = Ok tv.

Lemma visits_f2 : Forall2 (visit_of unif) (ss ++ tt) (sv ++ tv).
Proof.
  destruct applies as [As At]. pose proof (builtin_tidy _ _ _ _ Hm) as Ht.
  destruct (source_visits_ok m unif Ht _ _ _ As) as (sv' & Es & Fs); [constructor|]. destruct (target_visits_ok m unif same Ht _ _ _ _ _ At) as (tv' & Et & Ft); [constructor|].
  rewrite Hsv in Es. injection Es as <-. rewrite Htv in Et. injection Et as <-. apply Forall2_app; assumption.
Qed.
Lemma f2_map : forall ts vs, Forall2 (visit_of unif) ts vs -> map fst ts = map fst vs.
Proof. intros ts vs F. induction F as [|t v ts vs H F IH]; [reflexivity|]. cbn. rewrite IH. destruct H as [-> _]. reflexivity. Qed.
Lemma f2_left : forall ts vs t, Forall2 (visit_of unif) ts vs -> In t ts -> exists v, In v vs /\ visit_of unif t v.
Proof. intros ts vs t F. induction F as [|t' v ts vs H F IH]; intros I; [destruct I|]. destruct I as [<-|I]; [exists v; split; [left; reflexivity|assumption]|]. destruct (IH I) as (v' & I' & H'). exists v'. split; [right; assumption|assumption]. Qed.
Lemma f2_right : forall ts vs v, Forall2 (visit_of unif) ts vs -> In v vs -> exists t, In t ts /\ visit_of unif t v.
Proof. intros ts vs v F. induction F as [|t v' ts vs H F IH]; intros I; [destruct I|]. destruct I as [<-|I]; [exists t; split; [left; reflexivity|assumption]|]. destruct (IH I) as (t' & I' & H'). exists t'. split; [right; assumption|assumption]. Qed.

Lemma owners_nodup : NoDup (map fst (ss ++ tt)).
Proof.
  destruct applies as [As At]. destruct Hus as (ES & _). rewrite map_app. apply NoDup_app_intro'; [eapply source_apply_nodup; eassumption|eapply target_apply_nodup; eassumption|].
  intros o I1 I2. apply in_map_iff in I1. apply in_map_iff in I2. destruct I1 as ([o1 a1] & <- & I1), I2 as ([o2 a2] & E2 & I2). cbn [fst] in *. subst o2.
  apply (source_apply_in m unif _ _ _ As ES) in I1. destruct I1 as (p & c & _ & -> & _). apply (target_apply_in m unif same _ _ _ _ _ At) in I2. destruct I2 as (nd & pi & cons & acc & b2 & c' & _ & E & _). discriminate E.
Qed.
Lemma node_task : forall x, In x (dnodes d) <-> exists t, In t (ss ++ tt) /\ In (Add x) (snd t).
Proof.
  intros x. destruct built as [Pn _]. transitivity (In x (all_adds (ss ++ tt))); [split; apply Permutation_in; [assumption|symmetry; assumption]|].
  unfold all_adds. rewrite in_flat_map. unfold adds. split; intros (t & It & H); exists t; (split; [assumption|]).
  - apply in_flat_map in H. destruct H as ([y|e] & I & H); [|destruct H]. destruct H as [<-|[]]. assumption.
  - apply in_flat_map. exists (Add x). split; [assumption|left; reflexivity].
Qed.
(** The node's visit. *)
Lemma node_visit : forall x, In x (dnodes d) -> exists leaf, In (fst x, leaf) (sv ++ tv) /\ leaf = has d (fst x, Parts) /\
  (snd x = Parts -> leaf = true) /\ (fst (fst x) = TgtTree -> leaf = true -> snd x <> Interm) /\ bytes (snd (fst x)) /\ (leaf = true -> unif <= length (snd (fst x))).
Proof.
  intros x Ix. apply node_task in Ix. destruct Ix as (t & It & Ia). destruct (f2_left _ _ _ visits_f2 It) as ([o leaf] & Iv & Ht & Ha & Hl & Hb). cbn [fst snd] in *. destruct (Ha x Ia) as (Eo & Hp & Hi). clear Ht. subst o. exists leaf. split; [assumption|].
  split; [|split; [assumption|split; [assumption|split; [assumption|apply Hl]]]].
  destruct leaf.
  - symmetry. apply has_in. apply node_task. exists t. split; [assumption|]. apply Hl. reflexivity.
  - destruct (has d (fst x, Parts)) eqn:Hh; [|reflexivity]. exfalso. apply has_in in Hh. apply node_task in Hh. destruct Hh as (t' & It' & Ia').
    destruct (f2_left _ _ _ visits_f2 It') as ([o' leaf'] & Iv' & Ht' & Ha' & _). cbn [fst snd] in *. destruct (Ha' _ Ia') as (Eo' & Hp' & _). cbn [fst snd] in *. specialize (Hp' eq_refl). clear Ht'. subst leaf' o'.
    assert (N : NoDup (map fst (sv ++ tv))) by (rewrite <- (f2_map _ _ visits_f2); apply owners_nodup).
    clear - N Iv Iv'. induction (sv ++ tv) as [|v l IH]; [destruct Iv|]. cbn [map] in N. inversion N as [|? ? Nv N']; subst. destruct Iv as [->|Iv], Iv' as [E|Iv']; [congruence| | |auto].
    + apply Nv. apply in_map_iff. exists (fst x, true). auto.
    + apply Nv. subst v. apply in_map_iff. exists (fst x, false). auto.
Qed.
Lemma node_sub : forall x, In x (dnodes d) -> match fst (fst x) with SrcTree => sub S (snd (fst x)) <> None | TgtTree => sub T (snd (fst x)) <> None end.
Proof.
  intros x Ix. apply node_task in Ix. destruct Ix as (t & It & Ia). destruct (f2_left _ _ _ visits_f2 It) as (v & _ & Ht & Ha & _). destruct (Ha x Ia) as (Eo & _). rewrite Eo, <- Ht. destruct t as [o acts]. cbn [fst].
  destruct applies as [As At]. destruct Hus as (ES & _). apply in_app_or in It. destruct It as [It|It].
  - apply (source_apply_in m unif _ _ _ As ES) in It. destruct It as (p & c & Sp & -> & _). cbn in *. congruence.
  - apply (target_apply_in m unif same _ _ _ _ _ At) in It. destruct It as (nd & pi & cons & acc & a2 & c' & V & -> & _). apply visited_sub in V. destruct V as (p & Ep & Sp). cbn in *. congruence.
Qed.

(** The state after all visits. *)
Lemma place_built : forall n rm k vs, 0 < n -> unif <= 10 -> good_map n unif rm -> Permutation vs (sv ++ tv) ->
  exists s, place_all unif rm (pol_of k) (has d) vs = Ok s /\
    forall x, In x (dnodes d) -> in_range n (home rm unif (snd (fst x))) /\
      (loc s x = if placed k x (has d (fst x, Parts)) then home rm unif (snd (fst x)) else (-1)%Z) /\
      (k = P_bh -> placed k x (has d (fst x, Parts)) = false -> col s x = color k x).
Proof.
  intros n rm k vs Hn Hu Hrm P. pose proof visits_f2 as F2.
  destruct (place_all_spec n unif rm k (has d) Hn Hu Hrm vs marks0) as (s & E & _ & W).
  - eapply Permutation_NoDup; [apply Permutation_map; symmetry; exact P|]. pose proof owners_nodup as N. rewrite (f2_map _ _ F2) in N. exact N.
  - apply Forall_forall. intros v Iv. apply (Permutation_in _ P) in Iv. destruct (f2_right _ _ _ F2 Iv) as (t & _ & _ & _ & Hl & Hb). split; [assumption|apply Hl].
  - exists s. split; [exact E|]. intros x Ix. destruct (node_visit x Ix) as (leaf & Iv & El & Hp & Hi & Hb & Hl). subst leaf. split; [apply (inner_rank_ok n); assumption|].
    apply (W (fst x, has d (fst x, Parts)) x); auto; [eapply Permutation_in; [symmetry; exact P|exact Iv]|]. apply has_in. assumption.
Qed.

Lemma collect_built : exists si st ti tl, collect (has d) SrcTree fuel ([], S) = Ok (si, st) /\ collect (has d) TgtTree fuel ([], T) = Ok (ti, tl) /\
  (forall x, In x si <-> In x (dnodes d) /\ fst (fst x) = SrcTree /\ snd x <> Parts) /\
  (forall x, In x st <-> In x (dnodes d) /\ fst (fst x) = SrcTree /\ snd x = Parts) /\
  (forall x, In x ti <-> In x (dnodes d) /\ fst (fst x) = TgtTree /\ snd x <> Parts) /\
  (forall x, In x tl <-> In x (dnodes d) /\ fst (fst x) = TgtTree /\ snd x = Parts).
Proof.
  destruct Hus as (ES & ET & LS & LT & _). destruct (collect_spec A (has d) SrcTree fuel ([], S) ES LS) as (si & st & Es & Is & Ts). destruct (collect_spec B (has d) TgtTree fuel ([], T) ET LT) as (ti & tl & Et & It & Tt).
  exists si, st, ti, tl. split; [assumption|]. split; [assumption|]. cbn [fst snd app] in *.
  split; [|split; [|split]]; intros x; rewrite ?Is, ?Ts, ?It, ?Tt, has_in; (split; [tauto|]); intros (H1 & H2 & H3); (split; [assumption|]); (split; [assumption|]); (split; [assumption|]); exists (snd (fst x)); (split; [reflexivity|]);
    pose proof (node_sub x H1) as Q; rewrite H2 in Q; exact Q.
Qed.

(** ** The Barnes-Hut policy *)
Lemma bh_built : forall n rm weight outs s sources targets si st ti tl, 0 < n ->
  (forall x, In x (dnodes d) -> in_range n (home rm unif (snd (fst x))) /\
      (loc s x = if placed P_bh x (has d (fst x, Parts)) then home rm unif (snd (fst x)) else (-1)%Z) /\
      (P_bh = P_bh -> placed P_bh x (has d (fst x, Parts)) = false -> col s x = color P_bh x)) ->
  (forall x, Permutation (outs x) (leaving x (dedges d))) ->
  collect (has d) SrcTree fuel ([], S) = Ok (si, st) -> collect (has d) TgtTree fuel ([], T) = Ok (ti, tl) ->
  sort_by_color s si sources -> sort_by_color s ti targets ->
  exists s', bh_compute n outs weight targets sources s = Ok s' /\
    forall x, In x (dnodes d) -> in_range n (loc s' x) /\
      if placed P_bh x (has d (fst x, Parts)) then loc s' x = home rm unif (snd (fst x))
      else heaviest n (loc s') weight (outs x) (loc s' x).
Proof.
  intros n rm weight outs s sources targets si st ti tl Hn Hs Ho Ec Et [Ps Ss] [Pt St].
  destruct collect_built as (si' & st' & ti' & tl' & Ec' & Et' & Isi & Ist & Iti & Itl). rewrite Ec in Ec'. injection Ec' as <- <-. rewrite Et in Et'. injection Et' as <- <-.
  assert (Isr : forall x, In x sources <-> In x (dnodes d) /\ fst (fst x) = SrcTree /\ snd x <> Parts) by (intros x; rewrite <- Isi; split; apply Permutation_in; [symmetry|]; assumption).
  assert (Itr : forall x, In x targets <-> In x (dnodes d) /\ fst (fst x) = TgtTree /\ snd x <> Parts) by (intros x; rewrite <- Iti; split; apply Permutation_in; [symmetry|]; assumption).
  assert (Oe : forall x e, In e (outs x) -> In e (dedges d) /\ efrom e = x).
  { intros x e I. apply (Permutation_in _ (Ho x)) in I. unfold leaving in I. apply filter_In in I. destruct I as [I Q]. destruct (dnode_dec (efrom e) x); [auto|discriminate]. }
  destruct built as (_ & _ & _ & Sh).
  assert (Rg : forall x, In x (dnodes d) -> (0 <= loc s x)%Z -> in_range n (loc s x)).
  { intros x Ix H. destruct (Hs x Ix) as (R & L & _). rewrite L in *. destruct (placed _ _ _); [assumption|lia]. }
  assert (Pl : forall x, In x (dnodes d) -> (loc s x < 0)%Z -> placed P_bh x (has d (fst x, Parts)) = false /\ col s x = color P_bh x).
  { intros x Ix H. destruct (Hs x Ix) as (R & L & C). destruct (placed P_bh x (has d (fst x, Parts))); [unfold in_range in R; lia|]. auto. }
  assert (Lv : forall p w, lvl (p ++ [w]) = (lvl p + 1)%Z) by (intros; unfold lvl; rewrite !idx_level, app_length; cbn [length]; lia).
  unfold bh_compute.
  destruct (loop_spec n weight Hn outs targets s) as (s1 & E1 & C1 & K1 & K2 & K3 & K4).
  - intros l1 x l2 El Hx e Ie. destruct (Oe x e Ie) as [Ied Ef]. destruct (Sh e Ied) as (She & Nf & Nt).
    assert (Ix : In x targets) by (rewrite El; apply in_or_app; right; left; reflexivity). apply Itr in Ix. destruct Ix as (Ix & Sx & Kx). destruct (Pl x Ix Hx) as [Px Cx].
    destruct (Z_lt_le_dec (loc s (eto e)) 0) as [Ht|Ht]; [right|left; apply Rg; assumption]. destruct (Pl _ Nt Ht) as [Pt' Ct].
    apply (fun I C => sorted_before (col s) targets x (eto e) St I C l1 l2); [| |exact El].
    + apply Itr. split; [assumption|]. destruct (Hs _ Nt) as (_ & _ & _). inversion She; subst e x; cbn [efrom eto src tgt fst snd] in *; try discriminate Sx; try congruence; try (split; [reflexivity|discriminate]). exfalso. clear -Nt Px. unfold placed in Px. cbn [fst snd] in Px. apply has_in in Nt. unfold tgt in *. cbn [fst] in Px. rewrite Nt in Px. discriminate Px.
    + rewrite Cx, Ct. inversion She; subst e x; cbn [efrom eto src tgt fst snd] in *; try discriminate Sx; try congruence; unfold color, src, tgt; cbn [fst snd]; rewrite ?Lv; try lia. exfalso. clear -Nt Px. unfold placed in Px. cbn [fst snd] in Px. apply has_in in Nt. unfold tgt in *. cbn [fst] in Px. rewrite Nt in Px. discriminate Px.
  - intros x Ix H. apply Itr in Ix. apply Rg; [apply Ix|assumption].
  - rewrite E1. cbn [bind].
    assert (Keep : forall x, In x (dnodes d) -> ~ In x targets -> loc s1 x = loc s x) by (intros x _ Nx; apply K2; assumption).
    destruct (loop_spec n weight Hn outs sources s1) as (s2 & E2 & C2 & J1 & J2 & J3 & J4).
    + intros l1 x l2 El Hx e Ie. destruct (Oe x e Ie) as [Ied Ef]. destruct (Sh e Ied) as (She & Nf & Nt).
      assert (Ix : In x sources) by (rewrite El; apply in_or_app; right; left; reflexivity). apply Isr in Ix. destruct Ix as (Ix & Sx & Kx).
      assert (Nx : ~ In x targets) by (intros Q; apply Itr in Q; destruct Q as (_ & Q & _); congruence). rewrite (Keep x Ix Nx) in Hx. destruct (Pl x Ix Hx) as [Px Cx].
      destruct (fst (fst (eto e))) eqn:Sd.
      * assert (Nt' : ~ In (eto e) targets) by (intros Q; apply Itr in Q; destruct Q as (_ & Q & _); congruence). rewrite (Keep _ Nt Nt').
        destruct (Z_lt_le_dec (loc s (eto e)) 0) as [Ht|Ht]; [right|left; apply Rg; assumption]. destruct (Pl _ Nt Ht) as [Pt' Ct].
        apply (fun I C => sorted_before (col s) sources x (eto e) Ss I C l1 l2); [| |exact El].
        -- apply Isr. split; [assumption|]. split; [assumption|]. inversion She; subst e x; cbn [efrom eto src tgt fst snd] in *; try discriminate Sd; try discriminate Sx; discriminate.
        -- rewrite Cx, Ct. inversion She; subst e x; cbn [efrom eto src tgt fst snd] in *; try discriminate Sd; try discriminate Sx; try congruence; unfold color, src, tgt; cbn [fst snd]; rewrite ?Lv; lia.
      * left. destruct (kind_dec (snd (eto e)) Parts) as [Kt|Kt].
        -- rewrite Keep; [|assumption|intros Q; apply Itr in Q; destruct Q as (_ & _ & Q); congruence]. destruct (Hs _ Nt) as (R & L & _). rewrite L. replace (placed P_bh (eto e) (has d (fst (eto e), Parts))) with true; [assumption|]. symmetry. unfold placed. rewrite Kt. apply has_in. destruct (eto e) as [o kk]. cbn in *. subst kk. assumption.
        -- apply K3. apply Itr. auto.
    + intros x Ix H. apply Isr in Ix. destruct Ix as (Ix & Sx & Kx). assert (Nx : ~ In x targets) by (intros Q; apply Itr in Q; destruct Q as (_ & Q & _); congruence). rewrite (Keep x Ix Nx) in *. apply Rg; assumption.
    + exists s2. split; [assumption|]. intros x Ix.
      assert (Tp : forall y, In y targets -> loc s2 y = loc s1 y) by (intros y Iy; apply J1; specialize (K3 y Iy); unfold in_range in K3; lia).
      assert (Pk : placed P_bh x (has d (fst x, Parts)) = true -> loc s2 x = home rm unif (snd (fst x))).
      { intros Q. destruct (Hs x Ix) as (R & L & _). rewrite Q in L. unfold in_range in R. rewrite J1; rewrite K1; rewrite L; lia. }
      assert (Fin : forall y, In y (dnodes d) -> in_range n (loc s2 y)).
      { intros y Iy. destruct (kind_dec (snd y) Parts) as [Ky|Ky].
        - destruct (Hs y Iy) as (R & L & _). replace (placed P_bh y (has d (fst y, Parts))) with true in L. 2: { symmetry. unfold placed. rewrite Ky. apply has_in. destruct y as [o kk]. cbn in *. subst kk. assumption. }
          unfold in_range in R. rewrite J1, K1; rewrite ?K1; rewrite ?L; try lia. assumption.
        - destruct (fst (fst y)) eqn:Sy; [apply J3; apply Isr; auto|]. rewrite Tp; [apply K3|]; apply Itr; auto. }
      split; [apply Fin; assumption|]. destruct (placed P_bh x (has d (fst x, Parts))) eqn:Q; [apply Pk; reflexivity|].
      destruct (Hs x Ix) as (R & L & _). rewrite Q in L.
      assert (Kx : snd x <> Parts). { intros Kx. unfold placed in Q. rewrite Kx in Q. assert (X : has d (fst x, Parts) = true) by (apply has_in; destruct x as [o kk]; cbn in *; subst kk; assumption). congruence. }
      destruct (fst (fst x)) eqn:Sx.
      * apply J4; [apply Isr; auto|]. rewrite K2; [lia|]. intros I. apply Itr in I. destruct I as (_ & I & _). congruence.
      * assert (It : In x targets) by (apply Itr; auto). rewrite (Tp x It). apply (heaviest_ext n weight (loc s1)); [|apply K4; [assumption|lia]].
        intros e Ie. symmetry. destruct (Oe x e Ie) as [Ied Ef]. destruct (Sh e Ied) as (She & _ & Nt). 
        destruct (kind_dec (snd (eto e)) Parts) as [Kt|Kt].
        -- apply J1. destruct (Hs _ Nt) as (R' & L' & _). replace (placed P_bh (eto e) (has d (fst (eto e), Parts))) with true in L'. 2: { symmetry. unfold placed. rewrite Kt. apply has_in. destruct (eto e) as [o kk]. cbn in *. subst kk. assumption. }
           unfold in_range in R'. rewrite K1; rewrite L'; lia.
        -- apply Tp. apply Itr. split; [assumption|]. split; [|assumption]. inversion She; subst e x; cbn [efrom eto src tgt fst snd] in *; try discriminate Sx; reflexivity.
Qed.

(** ** The FMM97 policy *)
Lemma fmm97_built : forall n rm weight outs s targets ti tl, 0 < n ->
  (forall x, In x (dnodes d) -> in_range n (home rm unif (snd (fst x))) /\
      (loc s x = if placed P_fmm97 x (has d (fst x, Parts)) then home rm unif (snd (fst x)) else (-1)%Z)) ->
  (forall x, Permutation (outs x) (leaving x (dedges d))) ->
  collect (has d) TgtTree fuel ([], T) = Ok (ti, tl) -> sort_by_color s ti targets ->
  exists s', fmm97_compute n outs weight targets s = Ok s' /\
    forall x, In x (dnodes d) -> in_range n (loc s' x) /\
      if placed P_fmm97 x (has d (fst x, Parts)) then loc s' x = home rm unif (snd (fst x))
      else heaviest n (loc s') weight (outs x) (loc s' x).
Proof.
  intros n rm weight outs s targets ti tl Hn Hs Ho Et [Pt St].
  destruct collect_built as (si' & st' & ti' & tl' & _ & Et' & _ & _ & Iti & Itl). rewrite Et in Et'. injection Et' as <- <-.
  assert (Itr : forall x, In x targets <-> In x (dnodes d) /\ fst (fst x) = TgtTree /\ snd x <> Parts) by (intros x; rewrite <- Iti; split; apply Permutation_in; [symmetry|]; assumption).
  assert (Oe : forall x e, In e (outs x) -> In e (dedges d) /\ efrom e = x).
  { intros x e I. apply (Permutation_in _ (Ho x)) in I. unfold leaving in I. apply filter_In in I. destruct I as [I Q]. destruct (dnode_dec (efrom e) x); [auto|discriminate]. }
  destruct built as (_ & _ & _ & Sh).
  assert (Un : forall x, In x (dnodes d) -> placed P_fmm97 x (has d (fst x, Parts)) = false <-> fst (fst x) = TgtTree /\ snd x = Interm).
  { intros [[sx px] kx] Ix. unfold placed. cbn [fst snd]. destruct kx, sx; cbn; try (split; [discriminate|intros [? ?]; discriminate]); try (rewrite (proj2 (has_in d _) Ix); split; [discriminate|intros [? ?]; discriminate]); try (rewrite orb_true_r; split; [discriminate|intros [? ?]; discriminate]). split; auto. }
  unfold fmm97_compute. rewrite foldM_filter.
  assert (If : forall x, In x (filter is_interm targets) <-> In x (dnodes d) /\ fst (fst x) = TgtTree /\ snd x = Interm).
  { intros x. rewrite filter_In, Itr. unfold is_interm. destruct (snd x); (split; [intros ((? & ? & ?) & ?); repeat split; auto; try discriminate|intros (? & ? & ?); repeat split; auto; try discriminate]). }
  assert (Itl' : forall e, In e (dedges d) -> fst (fst (efrom e)) = TgtTree -> snd (efrom e) = Interm -> snd (eto e) = Normal).
  { intros e Ie H1 H2. destruct (Sh e Ie) as [She _]. inversion She; subst e; cbn in *; try discriminate. reflexivity. }
  destruct (loop_spec n weight Hn outs (filter is_interm targets) s) as (s1 & E1 & _ & K1 & K2 & K3 & K4).
  - intros l1 x l2 El Hx e Ie. left. assert (Ix : In x (filter is_interm targets)) by (rewrite El; apply in_or_app; right; left; reflexivity). apply If in Ix. destruct Ix as (Ix & Sx & Kx).
    destruct (Oe x e Ie) as [Ied Ef]. subst x. destruct (Sh e Ied) as (_ & _ & Nt). pose proof (Itl' e Ied Sx Kx) as Kt. destruct (Hs _ Nt) as (R & L). rewrite L.
    destruct (placed P_fmm97 (eto e) (has d (fst (eto e), Parts))) eqn:Q; [assumption|]. apply (Un _ Nt) in Q. destruct Q as [_ Q]. congruence.
  - intros x Ix H. apply If in Ix. destruct (Hs x (proj1 Ix)) as (R & L). rewrite L in *. destruct (placed _ _ _); [assumption|lia].
  - exists s1. split; [assumption|]. intros x Ix. destruct (Hs x Ix) as (R & L). destruct (placed P_fmm97 x (has d (fst x, Parts))) eqn:Q.
    + assert (X : loc s1 x = home rm unif (snd (fst x))) by (unfold in_range in R; rewrite K1; rewrite L; [reflexivity|lia]). split; [rewrite X; assumption|assumption].
    + apply (Un x Ix) in Q. assert (J : In x (filter is_interm targets)) by (apply If; tauto). split; [apply K3; assumption|]. apply K4; [assumption|]. rewrite L. lia.
Qed.
End Built.
