(** The values at the nodes of the DAG of the FMM method. *)
From Coq Require Import Reals ZArith List Bool Arith Lia Lra Psatz Permutation.
From Verif Require Import Base ListFacts IndexModel IndexSpec GridProofs TreeModel TreeFacts LookupModel DagModel DagSpec DagProofs MethodModel MethodTasks FmmProofs LinkSpec ListsSpec ListsProofs EvalModel EvalSpec EvalProofs LapModel LapSpec LapArrays LapProofs TranModel TranTable TranSpec TranProofs TranProps PotModel PotSpec PotFacts PotBoxes PotUp.
Import ListNotations.
Open Scope R_scope.

Lemma total_app l l' : total_charge (l ++ l') = total_charge l + total_charge l'.
Proof. unfold total_charge. induction l as [|s l IH]; cbn [app fold_right]; lra. Qed.
Lemma total_nonneg l : 0 <= total_charge l.
Proof. unfold total_charge. induction l as [|s l IH]; cbn [fold_right]; [lra|]. pose proof (Rabs_pos (cq s)). lra. Qed.
Lemma parent_prefix (c : path) : prefix (parent_of c) c.
Proof. destruct c as [|w c] using rev_ind; [exists []; reflexivity|]. rewrite parent_snoc. exists [w]. reflexivity. Qed.
Lemma parent_firstn (c s : path) : prefix c s -> parent_of c = firstn (length c - 1) s.
Proof.
  intros H. destruct c as [|w c] using rev_ind; [reflexivity|]. clear IHc. rewrite parent_snoc, app_length. cbn [length]. replace (length c + 1 - 1)%nat with (length c) by lia. destruct H as [r ->]. rewrite <- app_assoc, firstn_app, Nat.sub_diag, firstn_all. cbn [firstn]. rewrite app_nil_r. reflexivity.
Qed.
Lemma records_below (S : tree (list charge)) c s x : gathered S -> prefix c s -> In x (records S s) -> In x (records S c).
Proof.
  intros Hg [r ->]. revert x. induction r as [|w r IH] using rev_ind; intros x I; [rewrite app_nil_r in I; exact I|]. apply IH. rewrite app_assoc in I. unfold records in I |- *. rewrite sub_snoc in I. destruct (sub S (c ++ r)) as [m|] eqn:Sm; [|destruct I]. destruct (kid m w) as [n|] eqn:K; [|destruct I].
  assert (N : ~ leaf_at S (c ++ r)) by (intros (m' & E & K'); rewrite Sm in E; injection E as <-; rewrite K' in K; discriminate). rewrite (Hg _ m Sm N). apply in_flat_map. exists (Some n). split; [apply (kid_in _ _ _ _ K)|exact I].
Qed.
Lemma sub_prefix {X} (t : tree X) c s : prefix c s -> sub t s <> None -> sub t c <> None.
Proof. intros [r ->] H. rewrite sub_app in H. destruct (sub t c); congruence. Qed.
Lemma crossing (s q : path) m0 : (m0 <= length s)%nat -> near (firstn m0 s) q -> ~ near s q -> exists m, (m0 <= m < length s)%nat /\ near (firstn m s) q /\ ~ near (firstn (S m) s) q.
Proof.
  intros L N F. remember (length s - m0)%nat as k eqn:Ek. revert m0 L N Ek. induction k as [|k IH]; intros m0 L N Ek.
  - exfalso. apply F. replace m0 with (length s) in N by lia. rewrite firstn_all in N. exact N.
  - destruct (near_dec (firstn (S m0) s) q) as [Y|Y]; [|exists m0; split; [lia|auto]]. destruct (IH (S m0) ltac:(lia) Y ltac:(lia)) as (m & Hm & R). exists m. split; [lia|exact R].
Qed.

Lemma at_targets_ok f l err ts : (forall t, In t ts -> exists v, f t = Ok v /\ Rabs (v - potential l t) <= err) -> exists phis, at_targets f ts = Array phis /\ close l err ts phis.
Proof.
  intros H. unfold at_targets. assert (X : exists phis, mapM (fun t => do v <- f t; Ok (v, 0)) ts = Ok phis /\ close l err ts phis).
  { induction ts as [|t ts IH]; [exists []; split; [reflexivity|constructor]|]. destruct (H t (or_introl eq_refl)) as (v & Ev & Bv). destruct IH as (phis & Ep & Cp); [intros; apply H; right; assumption|]. exists ((v, 0) :: phis). cbn [mapM]. rewrite Ev. cbn [bind]. rewrite Ep. cbn [bind]. split; [reflexivity|]. constructor; [split; [reflexivity|exact Bv]|exact Cp]. }
  destruct X as (phis & -> & C). exists phis. split; [reflexivity|exact C].
Qed.
Lemma close_padd ts : forall l1 l2 e1 e2 a b, close l1 e1 ts a -> close l2 e2 ts b -> close (l1 ++ l2) (e1 + e2) ts (padd a b).
Proof.
  unfold close. induction ts as [|t ts IH]; intros l1 l2 e1 e2 a b Ha Hb; inversion Ha as [|? x ? a' [X1 X2] Ha']; inversion Hb as [|? y ? b' [Y1 Y2] Hb']; subst; cbn [padd]; constructor; [|apply IH; assumption].
  unfold cadd. cbn [fst snd]. split; [rewrite X1, Y1; ring|]. rewrite potential_app. replace (fst x + fst y - (potential l1 t + potential l2 t)) with ((fst x - potential l1 t) + (fst y - potential l2 t)) by ring. eapply Rle_trans; [apply Rabs_triang|]. lra.
Qed.
Lemma close_weaken l e e' ts vs : e <= e' -> close l e ts vs -> close l e' ts vs.
Proof. intros L H. unfold close in *. eapply Forall2_imp; [|exact H]. cbn. intros t v [A B]. split; [exact A|lra]. Qed.
Lemma close_perm l l' e ts vs : Permutation l l' -> close l e ts vs -> close l' e ts vs.
Proof. intros P H. unfold close in *. eapply Forall2_imp; [|exact H]. cbn. intros t v [A B]. rewrite <- (potential_perm _ _ t P). auto. Qed.

Section Fmm.
Context (corner : pt) (size : R) (Hsize : 0 < size) (tb : table) (HS : sound tb) (Etb : table_of_order (tb_p tb) = Ok tb).
Context (S : tree (list charge)) (T : tree (list pt)) (unif fuel h : nat) (same : bool) (HU : usable unif fuel S T).
Context (HSb : boxed cpos corner size S) (HTb : boxed (fun x => x) corner size T) (Hg : gathered S).
Context (HSp : forall s, In s (info S) -> plain corner size S T (cpos s)) (HTp : forall q t, In t (records T q) -> plain corner size S T t).
Context (HSh : levels h S) (HTh : levels h T).
Context (E : list edge) (NE : NoDup E) (HE : forall e, In e E <-> fmm_edge unif same S T e).
Context (Hfed : forall e, In e E -> is_source (efrom e) = false -> LinkSpec.into (efrom e) E <> []).
Context (val : dnode -> value) (Sv : solves value_zero value_add (edge_value tb corner size (records T)) (leaf_value S) E val).
Notation chg := (records S).
Notation reach := (reached unif same S T).

Lemma S8 c : sub S c <> None -> Forall (fun w => (w < 8)%nat) c.
Proof. apply sub_lt8. apply HU. Qed.
Lemma T8 c : sub T c <> None -> Forall (fun w => (w < 8)%nat) c.
Proof. apply sub_lt8. apply HU. Qed.

Lemma up_at c : sub S c <> None -> (2 <= length c)%nat ->
  exists ls M, val (src c, Normal) = Array M /\ upward tb corner size (idx_of c) (flat_map chg ls) M /\ NoDup ls /\ forall s, In s ls <-> leaf_at S s /\ prefix c s.
Proof.
  intros Sc Lc. destruct HU as (S8' & _ & Sl & _). eapply (up_ok corner size Hsize tb HS Etb S T fuel S8' Sl HSb HSp Hg E NE (records T) val (val_source corner size tb S E (records T) val Sv) (val_multipole corner size tb S E (records T) val Sv) 2 ltac:(idtac) (Datatypes.S fuel) c); [lia|exact Sc|exact Lc].
  Unshelve. intros d e Sd Ld. split.
  - intros [I Et]. apply HE in I. destruct I; cbn [eto] in Et; try discriminate Et; injection Et as Ed; subst d; [left; auto|right; eauto].
  - intros [[Lf ->]|(w & Sw & ->)]; (split; [apply HE|reflexivity]); constructor; assumption.
Qed.
Lemma reached_prefix p q : prefix q p -> reach p -> reach q.
Proof.
  intros P [St Hr]. split; [eapply sub_prefix; eassumption|]. intros r Pr Nr. apply Hr; [eapply prefix_trans; eassumption|]. intros ->. apply Nr. destruct P as [a Ea], Pr as [b Eb]. subst p. assert (X : length (q) = length ((q ++ a) ++ b)) by (f_equal; exact Eb). rewrite !app_length in X. destruct a; [apply app_nil_r|cbn [length] in X; lia].
Qed.
Lemma leaf_8 s : leaf_at S s -> Forall (fun w => (w < 8)%nat) s.
Proof. intros H. apply S8, leaf_sub, H. Qed.

Lemma dn_length i l M : downward tb corner size i l M -> length M = tri (Datatypes.S (tb_p tb)).
Proof. intros H. destruct (dn_inv corner size Hsize tb HS i l M H) as (c & [L _] & _). exact L. Qed.
Lemma dn_padd i l1 l2 a b : downward tb corner size i (flat_map chg l1) a -> downward tb corner size i (flat_map chg l2) b -> downward tb corner size i (flat_map chg (l1 ++ l2)) (padd a b).
Proof.
  intros H1 H2. rewrite flat_map_app. eapply dn_add; [exact H1|exact H2|]. apply add_padd. rewrite (dn_length _ _ _ H1), (dn_length _ _ _ H2). reflexivity.
Qed.

Inductive into_L (p : path) : edge -> Prop :=
| il_v c : list_V S p c -> into_L p (mkEdge MtoL (src c, Normal) (tgt p, Normal))
| il_x c : list_X S p c -> into_L p (mkEdge StoL (src c, Parts) (tgt p, Normal))
| il_p : (3 <= length p)%nat -> into_L p (mkEdge LtoL (tgt (parent_of p), Normal) (tgt p, Normal)).
Lemma into_L_iff p e : reach p -> (In e (LinkSpec.into (tgt p, Normal) E) <-> into_L p e).
Proof.
  intros R. rewrite into_in, HE. split.
  - intros [I Et]. destruct I; cbn [eto] in Et; try discriminate Et; injection Et as Ed; subst p.
    + constructor; assumption.
    + constructor; assumption.
    + replace (tgt p0) with (tgt (parent_of (p0 ++ [w]))) by (rewrite parent_snoc; reflexivity). constructor. rewrite app_length. cbn [length]. lia.
  - intros I. split; [|destruct I; reflexivity]. destruct I as [c V|c X|L]; [constructor; assumption|constructor; assumption|].
    destruct p as [|w p _] using rev_ind; [cbn in L; lia|]. rewrite parent_snoc. constructor; [exact R|]. rewrite app_length in L. cbn [length] in L. lia.
Qed.

Definition QL (p : path) (e : edge) (s : path) : Prop :=
  match eop e with
  | MtoL => leaf_at S s /\ prefix (snd (fst (efrom e))) s
  | StoL => s = snd (fst (efrom e))
  | _ => leaf_at S s /\ ~ near (firstn (length (parent_of p)) s) (parent_of p)
  end.

Lemma V_coarse p c : sub T p <> None -> list_V S p c -> (2 <= length p)%nat.
Proof.
  intros St (Sc & L & F & _). destruct (Nat.le_gt_cases 2 (length p)) as [A|A]; [exact A|]. exfalso. apply F. apply coarse_near; [apply S8, Sc|apply T8, St|lia|lia].
Qed.
Lemma near_both c d p q : Forall (fun w => (w < 8)%nat) d -> Forall (fun w => (w < 8)%nat) q -> prefix c d -> prefix p q -> near d q -> near c p.
Proof. intros D8 Q8 P1 P2 N. apply near_sym. eapply near_prefix; [exact Q8|exact P2|]. apply near_sym. eapply near_prefix; [exact D8|exact P1|exact N]. Qed.
Lemma parent_len (p : path) : length (parent_of p) = (length p - 1)%nat.
Proof. destruct p as [|w p _] using rev_ind; [reflexivity|]. rewrite parent_snoc, app_length. cbn [length]. lia. Qed.
Lemma V_parent p c s : list_V S p c -> prefix c s -> near (firstn (length (parent_of p)) s) (parent_of p).
Proof. intros (_ & L & _ & N) P. rewrite parent_len, <- L, <- (parent_firstn c s P). exact N. Qed.
Lemma X_parent p c : list_X S p c -> near (firstn (length (parent_of p)) c) (parent_of p).
Proof. intros (_ & L & _ & N). rewrite firstn_all2; [exact N|]. rewrite parent_len. lia. Qed.

Lemma dn_ok : forall n p, length p = n -> reach p -> (2 <= n)%nat -> LinkSpec.into (tgt p, Normal) E <> [] ->
  exists ls L, val (tgt p, Normal) = Array L /\ downward tb corner size (idx_of p) (flat_map chg ls) L /\ NoDup ls /\ forall s, In s ls <-> leaf_at S s /\ ~ near (firstn (length p) s) p.
Proof.
  induction n as [|n IH]; intros p Ln R L2 Ne; [lia|]. pose proof R as [St _]. pose proof (T8 p St) as P8.
  rewrite (Sv (tgt p, Normal)). cbn [is_source tgt]. set (g := fun e => edge_value tb corner size (records T) e (val (efrom e))).
  destruct (C64_total (tb_p tb) tb corner size (g_pos tb HS) Etb Hsize) as (TotS & TotM & TotL & _).
  destruct (sum_ex g (fun ls M => downward tb corner size (idx_of p) (flat_map chg ls) M) (QL p) (dn_padd (idx_of p)) (LinkSpec.into (tgt p, Normal) E) (into_nodup E NE _) Ne) as (ls & L & EL & DL & NL & IL).
  - intros e J. pose proof J as JE. apply (into_L_iff p e R) in J. destruct J as [c V|c X|L3].
    + pose proof V as (Sc & Lc & F & N). destruct (up_at c Sc ltac:(lia)) as (ls & M & EM & UM & NM & IM). pose proof (separated_V c p (S8 c Sc) P8 Lc F N) as Sep. destruct (TotM _ _ _ _ Sep UM) as (L & EL).
      exists ls, L. unfold g. cbn [efrom]. rewrite EM. unfold edge_value. cbn [eop efrom eto fst snd src tgt]. rewrite EL. split; [reflexivity|]. split; [eapply dn_multipole; eassumption|]. split; [exact NM|]. exact IM.
    + pose proof X as (Lf & Lc & F & N).
      destruct (TotS (idx_of p) (chg c)) as (L & EL); [intros s J; apply regular_ne, (chg_regular corner size S T HSp Hg s c p J); right; exact St|].
      exists [c], L. unfold g. cbn [efrom]. rewrite (val_source corner size tb S E (records T) val Sv). unfold edge_value. cbn [eop efrom eto fst snd src tgt]. rewrite EL. split; [reflexivity|]. split; [|split; [constructor; [intros []|constructor]|]].
      * cbn [flat_map]. rewrite app_nil_r. rewrite <- (rounded_regular (middle corner size (idx_of p)) (chg c)) by (intros s J; apply (chg_regular corner size S T HSp Hg s c p J); right; exact St). apply dn_sources; [|exact EL]. intros s J. apply (clear_far corner size p c); [exact Hsize|lia|intros Y; apply F, near_sym, Y|]. eapply chg_inside; eassumption.
      * intros s. unfold QL. cbn [eop efrom fst snd src In]. intuition congruence.
    + assert (W : exists w, p = parent_of p ++ [w]) by (destruct p as [|w p _] using rev_ind; [cbn in Ln; lia|]; exists w; rewrite parent_snoc; reflexivity). destruct W as [w Ew].
      destruct (IH (parent_of p)) as (ls & M & EM & UM & NM & IM).
      * rewrite parent_len. lia.
      * apply (reached_prefix p); [apply parent_prefix|exact R].
      * lia.
      * apply (Hfed (mkEdge LtoL (tgt (parent_of p), Normal) (tgt p, Normal))); [|reflexivity]. apply into_in in JE. apply JE.
      * exists ls. unfold g. cbn [efrom]. rewrite EM. unfold edge_value. cbn [eop efrom eto fst snd src tgt].
        assert (Wi : Z.to_nat (which_child (idx_of p)) = w) by (rewrite Ew; apply which_of; rewrite <- Ew; exact P8). assert (W8 : (w < 8)%nat) by (rewrite Ew in P8; apply Forall_app in P8; destruct P8 as [_ Fw]; inversion Fw; assumption). rewrite Wi.
        destruct (TotL _ w _ M W8 UM) as (L' & EL'). exists L'. rewrite EL'. split; [reflexivity|]. split; [|split; [exact NM|exact IM]].
        replace (idx_of p) with (child (Z.of_nat w) (idx_of (parent_of p))) by (rewrite <- idx_snoc, <- Ew; reflexivity). eapply dn_parent; eassumption.
  - intros e1 e2 s J1 J2 Q1 Q2. apply (into_L_iff p _ R) in J1. apply (into_L_iff p _ R) in J2. destruct J1 as [c1 V1|c1 X1|L1], J2 as [c2 V2|c2 X2|L2']; unfold QL in Q1, Q2; cbn [eop efrom fst snd src] in Q1, Q2.
    + destruct Q1 as [_ Q1], Q2 as [_ Q2]. destruct V1 as (_ & A1 & _), V2 as (_ & A2 & _). rewrite (prefix_eq c1 c2 s Q1 Q2 ltac:(congruence)). reflexivity.
    + exfalso. subst s. destruct Q1 as [_ [r Er]]. destruct V1 as (_ & A1 & _), X2 as (_ & A2 & _). subst c2. rewrite app_length in A2. lia.
    + exfalso. destruct Q1 as [_ Q1], Q2 as [_ Q2]. apply Q2. eapply V_parent; eassumption.
    + exfalso. subst s. destruct Q2 as [_ [r Er]]. destruct V2 as (_ & A1 & _), X1 as (_ & A2 & _). subst c1. rewrite app_length in A2. lia.
    + congruence.
    + exfalso. subst s. destruct Q2 as [_ Q2]. apply Q2. apply X_parent, X1.
    + exfalso. destruct Q1 as [_ Q1], Q2 as [_ Q2]. apply Q1. eapply V_parent; eassumption.
    + exfalso. subst s. destruct Q1 as [_ Q1]. apply Q1. apply X_parent, X2.
    + reflexivity.
  - exists ls, L. split; [exact EL|]. split; [exact DL|]. split; [exact NL|]. intros s. rewrite IL. split.
    + intros (e & J & Q). apply (into_L_iff p e R) in J. destruct J as [c V|c X|L3]; unfold QL in Q; cbn [eop efrom fst snd src] in Q.
      * destruct Q as [Ls Ps]. split; [exact Ls|]. destruct V as (_ & Lc & F & _). apply prefix_firstn in Ps. destruct Ps as [_ Ps]. rewrite <- Lc, Ps. exact F.
      * subst s. destruct X as (Lf & Lc & F & _). split; [exact Lf|]. rewrite firstn_all2 by lia. exact F.
      * destruct Q as [Ls F]. split; [exact Ls|]. intros N. apply F. eapply near_both; [|exact P8| |apply parent_prefix|exact N]; [apply firstn_lt8, leaf_8, Ls|]. apply prefix_firstn. rewrite !firstn_length, parent_len. split; [lia|]. rewrite firstn_firstn. destruct (Nat.le_gt_cases (length s) (length p - 1)) as [A|A].
        -- rewrite !firstn_all2; [reflexivity| |]; lia.
        -- f_equal. lia.
    + intros [Ls F]. destruct (near_dec (firstn (length (parent_of p)) s) (parent_of p)) as [N|N].
      * destruct (Nat.le_gt_cases (length p) (length s)) as [A|A].
        -- exists (mkEdge MtoL (src (firstn (length p) s), Normal) (tgt p, Normal)). assert (Lp : length (firstn (length p) s) = length p) by (rewrite firstn_length; lia). split.
           ++ apply into_L_iff; [exact R|]. constructor. split; [eapply sub_prefix; [apply firstn_prefix|apply leaf_sub, Ls]|]. split; [exact Lp|]. split; [exact F|]. rewrite (parent_firstn _ s (firstn_prefix _ _)), Lp, <- parent_len. exact N.
           ++ unfold QL. cbn [eop efrom fst snd src]. split; [exact Ls|apply firstn_prefix].
        -- exists (mkEdge StoL (src s, Parts) (tgt p, Normal)). split; [|reflexivity]. apply into_L_iff; [exact R|]. constructor. rewrite firstn_all2 in F by lia. rewrite firstn_all2 in N by (rewrite parent_len; lia). split; [exact Ls|]. split; [lia|]. auto.
      * exists (mkEdge LtoL (tgt (parent_of p), Normal) (tgt p, Normal)). split; [|split; [exact Ls|exact N]]. apply into_L_iff; [exact R|]. constructor. destruct (Nat.le_gt_cases 3 (length p)) as [A|A]; [exact A|]. exfalso. apply N. apply coarse_near.
        -- apply firstn_lt8, leaf_8, Ls.
        -- eapply T8, sub_prefix; [apply parent_prefix|exact St].
        -- rewrite firstn_length, parent_len. lia.
        -- rewrite parent_len. lia.
Qed.

(** The error that one unit of charge can cause. *)
Definition K : R := eps_l tb / side size (Z.of_nat h).
Lemma eps_nonneg : 0 <= eps_l tb.
Proof. unfold eps_l. pose proof sqrt3_lt. apply Rmult_le_pos; [apply pow_le; lra|left; apply Rinv_0_lt_compat; lra]. Qed.
Lemma K_bound c : (length c <= h)%nat -> eps_l tb / side size (ilevel (idx_of c)) <= K.
Proof.
  intros L. unfold K. apply Rmult_le_compat_l; [apply eps_nonneg|]. apply Rinv_le_contravar; [apply side_pos, Hsize|]. rewrite idx_level. rewrite (side_down size (Z.of_nat (length c)) (Z.of_nat h - Z.of_nat (length c))) by lia. replace (Z.of_nat (length c) + (Z.of_nat h - Z.of_nat (length c)))%Z with (Z.of_nat h) by lia.
  pose proof (side_pos size (Z.of_nat h) Hsize) as P. assert (O : 1 <= IZR (2 ^ (Z.of_nat h - Z.of_nat (length c)))) by (apply IZR_le; assert (0 < 2 ^ (Z.of_nat h - Z.of_nat (length c)))%Z by (apply Z.pow_pos_nonneg; lia); lia). nra.
Qed.
Lemma K_nonneg : 0 <= K.
Proof. unfold K. apply Rmult_le_pos; [apply eps_nonneg|left; apply Rinv_0_lt_compat, side_pos, Hsize]. Qed.
Lemma radius_lt i : radius size (ilevel i) < 3 / 2 * side size (ilevel i).
Proof. unfold radius. pose proof sqrt3_lt. pose proof (side_pos size (ilevel i) Hsize). nra. Qed.

Lemma target_inside q t : In t (records T q) -> inside corner size (idx_of q) t.
Proof. unfold records. destruct (sub T q) as [n|] eqn:Sq; [|intros []]. intros I. eapply (HTb q n t); eassumption. Qed.

Lemma mtt_ok c q t ls M : sub S c <> None -> (length q <= length c)%nat -> ~ near c q -> In t (records T q) ->
  upward tb corner size (idx_of c) (flat_map chg ls) M -> (forall s, In s ls -> leaf_at S s /\ prefix c s) ->
  exists v, M_to_T (tb_p tb) (tb_sqf tb) (level_scale size (ilevel (idx_of c))) (box_center corner size (idx_of c)) M t 0 = Ok v /\
    Rabs (v - potential (flat_map chg ls) t) <= total_charge (flat_map chg ls) * K.
Proof.
  intros Sc Lq F It UM IM. pose proof (clear_far corner size c q t Hsize Lq F (target_inside q t It)) as Far. pose proof (radius_lt (idx_of c)) as Rl. set (i := idx_of c) in *. set (l := flat_map chg ls) in *.
  destruct (up_value corner size Hsize tb HS i l M t 0 UM ltac:(lra)) as (v & Ev & Bv). rewrite Rplus_0_l in Ev. exists v. split; [exact Ev|].
  rewrite (regular_rounded (middle corner size i) t) in Bv by (apply (HTp q t It); left; exact Sc). rewrite <- potential_far in Bv.
  - eapply Rle_trans; [exact Bv|]. eapply Rle_trans with (total_charge l * (eps_l tb / side size (ilevel i))).
    + pose proof (side_pos size (ilevel i) Hsize) as P. pose proof sqrt3_lt as S3. unfold Rdiv. rewrite !Rmult_assoc. apply Rmult_le_compat_l; [apply total_nonneg|].
      set (d := dist (middle corner size i) t) in *. set (r := radius size (ilevel i)) in *. set (s := side size (ilevel i)) in *. assert (Er : r = sqrt 3 / 2 * s) by reflexivity.
      apply Rle_trans with (/ (3 / 2 * s - r) * (sqrt 3 / 2 / (3 / 2)) ^ Datatypes.S (tb_p tb)).
      * apply Rmult_le_compat; [left; apply Rinv_0_lt_compat; lra|apply pow_le; apply Rmult_le_pos; [rewrite Er; nra|left; apply Rinv_0_lt_compat; lra]|apply Rinv_le_contravar; lra|].
        apply pow_incr. split; [apply Rmult_le_pos; [rewrite Er; nra|left; apply Rinv_0_lt_compat; lra]|]. apply Rmult_le_reg_r with d; [lra|]. rewrite Rmult_assoc, Rinv_l by lra. rewrite Er. assert (A : sqrt 3 / 2 / (3 / 2) * (3 / 2 * s) <= sqrt 3 / 2 / (3 / 2) * d) by (apply Rmult_le_compat_l; [lra|exact Far]). lra.
      * pose proof (eps_stl tb) as Ee. replace (/ (3 / 2 * s - r) * (sqrt 3 / 2 / (3 / 2)) ^ Datatypes.S (tb_p tb)) with ((sqrt 3 / 2 / (3 / 2)) ^ Datatypes.S (tb_p tb) / (3 / 2 - sqrt 3 / 2) * / s) by (rewrite Er; field; split; [lra|split; [|nra]]; nra). apply Rmult_le_compat_r; [left; apply Rinv_0_lt_compat, P|exact Ee].
    + apply Rmult_le_compat_l; [apply total_nonneg|]. apply K_bound. apply HSh, Sc.
  - intros x J Ex. apply in_flat_map in J. destruct J as (s & Js & J). destruct (IM s Js) as [_ Ps]. pose proof (records_below S c s x Hg Ps J) as Jc. pose proof (inside_radius corner size i (cpos x) Hsize (chg_inside corner size S HSb x c Jc)) as D. rewrite Ex in D. lra.
Qed.
Lemma ltt_ok q t ls L : sub T q <> None -> In t (records T q) ->
  downward tb corner size (idx_of q) (flat_map chg ls) L -> (forall s, In s ls -> leaf_at S s /\ ~ near (firstn (length q) s) q) ->
  exists v, L_to_T (tb_p tb) (tb_sqf tb) (level_scale size (ilevel (idx_of q))) (box_center corner size (idx_of q)) L t 0 = Ok v /\
    Rabs (v - potential (flat_map chg ls) t) <= total_charge (flat_map chg ls) * K.
Proof.
  intros Sq It DL IL. pose proof (inside_radius corner size (idx_of q) t Hsize (target_inside q t It)) as Din. pose proof (radius_lt (idx_of q)) as Rl. assert (Rg : regular (middle corner size (idx_of q)) t) by (apply (HTp q t It); right; exact Sq).
  assert (Dp : 0 < dist (middle corner size (idx_of q)) t) by (apply dist_pos, regular_ne, Rg).
  destruct (dn_value corner size Hsize tb HS _ _ L t 0 DL (Logic.conj Dp Din)) as (v & Ev & Bv). rewrite Rplus_0_l in Ev. exists v. split; [exact Ev|]. rewrite (regular_rounded _ t Rg) in Bv. rewrite <- potential_far in Bv.
  - eapply Rle_trans; [exact Bv|]. unfold Rdiv at 1. rewrite Rmult_assoc. apply Rmult_le_compat_l; [apply total_nonneg|]. eapply Rle_trans; [|apply (K_bound q); apply HTh, Sq]. right. unfold eps_l, Rdiv. ring.
  - intros x J Ex. apply in_flat_map in J. destruct J as (s & Js & J). destruct (IL s Js) as [Ls F]. pose proof (records_below S (firstn (length q) s) s x Hg (firstn_prefix _ _) J) as Jc. pose proof (chg_inside corner size S HSb x _ Jc) as Ins.
    pose proof (clear_far corner size q (firstn (length q) s) (cpos x) Hsize ltac:(rewrite firstn_length; lia) ltac:(intros Y; apply F, near_sym, Y) Ins) as Far. rewrite Ex in Far. lra.
Qed.

Inductive into_T (q : path) : edge -> Prop :=
| it_w c : list_W S q c -> into_T q (mkEdge MtoT (src c, Normal) (tgt q, Parts))
| it_u c : list_U S q c -> into_T q (mkEdge StoT (src c, Parts) (tgt q, Parts))
| it_l : (2 <= length q)%nat -> into_T q (mkEdge LtoT (tgt q, Normal) (tgt q, Parts)).
Lemma into_T_iff q e : ended unif same S T q -> (In e (LinkSpec.into (tgt q, Parts) E) <-> into_T q e).
Proof.
  intros R. rewrite into_in, HE. split.
  - intros [I Et]. destruct I; cbn [eto] in Et; try discriminate Et; injection Et as Ed; subst q; constructor; assumption.
  - intros I. split; [|destruct I; reflexivity]. destruct I as [c V|c X|L]; constructor; assumption.
Qed.
Definition QT (q : path) (e : edge) (s : path) : Prop :=
  match eop e with
  | MtoT => leaf_at S s /\ prefix (snd (fst (efrom e))) s
  | StoT => leaf_at S s /\ s = snd (fst (efrom e))
  | _ => leaf_at S s /\ ~ near (firstn (length q) s) q
  end.
Lemma QT_cover q s : ended unif same S T q -> leaf_at S s -> exists e, In e (LinkSpec.into (tgt q, Parts) E) /\ QT q e s.
Proof.
  intros R Ls. pose proof R as [[St _] _]. destruct (near_dec s q) as [N|N].
  - exists (mkEdge StoT (src s, Parts) (tgt q, Parts)). split; [apply into_T_iff; [exact R|]; constructor; split; assumption|]. split; [exact Ls|reflexivity].
  - destruct (near_dec (firstn (length q) s) q) as [Y|Y].
    + destruct (Nat.le_gt_cases (length s) (length q)) as [A|A]; [rewrite firstn_all2 in Y by lia; contradiction|].
      destruct (crossing s q (length q) ltac:(lia) Y N) as (m & Hm & N1 & N2). assert (Lm : length (firstn (Datatypes.S m) s) = Datatypes.S m) by (rewrite firstn_length; lia).
      exists (mkEdge MtoT (src (firstn (Datatypes.S m) s), Normal) (tgt q, Parts)). split; [|split; [exact Ls|apply firstn_prefix]]. apply into_T_iff; [exact R|]. constructor. split; [eapply sub_prefix; [apply firstn_prefix|apply leaf_sub, Ls]|]. split; [lia|]. split; [exact N2|]. rewrite firstn_parent by lia. exact N1.
    + exists (mkEdge LtoT (tgt q, Normal) (tgt q, Parts)). split; [|split; [exact Ls|exact Y]]. apply into_T_iff; [exact R|]. constructor. destruct (Nat.le_gt_cases 2 (length q)) as [A|A]; [exact A|]. exfalso. apply Y. apply coarse_near; [apply firstn_lt8, leaf_8, Ls|apply T8, St|rewrite firstn_length; lia|lia].
Qed.
Lemma W_W q c1 c2 s : leaf_at S s -> list_W S q c1 -> list_W S q c2 -> prefix c1 s -> prefix c2 s -> (length c1 < length c2)%nat -> False.
Proof.
  intros Ls (_ & _ & F1 & _) (_ & L2 & _ & N2) P1 P2 L. apply F1. eapply near_prefix; [| |exact N2]; [eapply S8, sub_prefix; [|apply leaf_sub, Ls]; eapply prefix_trans; [apply parent_prefix|exact P2]|]. apply (prefix_two _ _ s); [exact P1|eapply prefix_trans; [apply parent_prefix|exact P2]|rewrite parent_len; lia].
Qed.
Lemma W_L q c s : leaf_at S s -> list_W S q c -> prefix c s -> near (firstn (length q) s) q.
Proof.
  intros Ls (_ & L & _ & N) P. eapply near_prefix; [| |exact N]; [eapply S8, sub_prefix; [|apply leaf_sub, Ls]; eapply prefix_trans; [apply parent_prefix|exact P]|]. apply (prefix_two _ _ s); [apply firstn_prefix|eapply prefix_trans; [apply parent_prefix|exact P]|rewrite firstn_length, parent_len; lia].
Qed.

Definition PT (q : path) (ls : list path) (phis : list cplx) : Prop := close (flat_map chg ls) (total_charge (flat_map chg ls) * K) (records T q) phis.
Lemma PT_padd q l1 l2 a b : PT q l1 a -> PT q l2 b -> PT q (l1 ++ l2) (padd a b).
Proof. unfold PT. intros H1 H2. rewrite flat_map_app, total_app, Rmult_plus_distr_r. apply close_padd; assumption. Qed.

Theorem target_ok q : ended unif same S T q ->
  exists phis, val (tgt q, Parts) = Array phis /\ close (info S) (total_charge (info S) * K) (records T q) phis.
Proof.
  intros R. pose proof R as [Rq Fq]. pose proof Rq as [St _]. pose proof (T8 q St) as Q8. rewrite (Sv (tgt q, Parts)). cbn [is_source tgt]. set (g := fun e => edge_value tb corner size (records T) e (val (efrom e))).
  destruct (sum_ex g (PT q) (QT q) (PT_padd q) (LinkSpec.into (tgt q, Parts) E) (into_nodup E NE _)) as (ls & phis & Ep & Pp & Np & Ip).
  - destruct (has_leaf S) as [s Ls]. destruct (QT_cover q s R Ls) as (e & I & _). intros Z. rewrite Z in I. exact I.
  - intros e J. pose proof J as JE. apply (into_T_iff q e R) in J. destruct J as [c W|c U|L2].
    + pose proof W as (Sc & Lc & F & N). assert (L2 : (2 <= length c)%nat) by (destruct (Nat.le_gt_cases 2 (length c)) as [A|A]; [exact A|]; exfalso; apply F; apply coarse_near; [apply S8, Sc|exact Q8|lia|lia]).
      destruct (up_at c Sc L2) as (ls & M & EM & UM & NM & IM). exists ls. unfold g. cbn [efrom]. rewrite EM. unfold edge_value. cbn [eop efrom eto fst snd src tgt].
      edestruct at_targets_ok as (phis & Ea & Ca); [intros t It; exact (mtt_ok c q t ls M Sc ltac:(lia) F It UM (fun s I => proj1 (IM s) I))|]. exists phis. split; [exact Ea|]. split; [exact Ca|]. split; [exact NM|]. exact IM.
    + destruct U as [Lf N]. exists [c]. unfold g. cbn [efrom]. rewrite (val_source corner size tb S E (records T) val Sv). unfold edge_value. cbn [eop efrom eto fst snd src tgt].
      edestruct (at_targets_ok (fun t => Ok (S_to_T (chg c) t 0)) (flat_map chg [c]) (total_charge (flat_map chg [c]) * K)) as (phis & Ea & Ca).
      * intros t It. eexists. split; [reflexivity|]. rewrite S_to_T_ok, Rplus_0_l. cbn [flat_map]. rewrite app_nil_r. rewrite Rminus_diag_eq, Rabs_R0 by reflexivity. apply Rmult_le_pos; [apply total_nonneg|apply K_nonneg].
      * exists phis. split; [exact Ea|]. split; [exact Ca|]. split; [constructor; [intros []|constructor]|]. intros s. unfold QT. cbn [eop efrom fst snd src In]. split; [intros [<-|[]]; auto|]. intros [_ ->]. auto.
    + destruct (dn_ok (length q) q eq_refl Rq L2) as (ls & L & EL & DL & NL & IL); [apply (Hfed (mkEdge LtoT (tgt q, Normal) (tgt q, Parts))); [apply into_in in JE; apply JE|reflexivity]|].
      exists ls. unfold g. cbn [efrom]. rewrite EL. unfold edge_value. cbn [eop efrom eto fst snd src tgt].
      edestruct at_targets_ok as (phis & Ea & Ca); [intros t It; exact (ltt_ok q t ls L St It DL (fun s I => proj1 (IL s) I))|]. exists phis. split; [exact Ea|]. split; [exact Ca|]. split; [exact NL|]. exact IL.
  - intros e1 e2 s J1 J2 Q1 Q2. apply (into_T_iff q _ R) in J1. apply (into_T_iff q _ R) in J2. destruct J1 as [c1 V1|c1 X1|L1], J2 as [c2 V2|c2 X2|L2']; unfold QT in Q1, Q2; cbn [eop efrom fst snd src] in Q1, Q2; destruct Q1 as [Ls Q1], Q2 as [_ Q2].
    + destruct (Nat.lt_trichotomy (length c1) (length c2)) as [A|[A|A]]; [exfalso; exact (W_W q c1 c2 s Ls V1 V2 Q1 Q2 A)| |exfalso; exact (W_W q c2 c1 s Ls V2 V1 Q2 Q1 A)]. rewrite (prefix_eq c1 c2 s Q1 Q2 A). reflexivity.
    + exfalso. subst s. destruct V1 as (_ & _ & F & _), X2 as [_ N]. apply F. eapply near_prefix; [apply leaf_8, Ls|exact Q1|exact N].
    + exfalso. apply Q2. eapply W_L; eassumption.
    + exfalso. subst s. destruct V2 as (_ & _ & F & _), X1 as [_ N]. apply F. eapply near_prefix; [apply leaf_8, Ls|exact Q2|exact N].
    + congruence.
    + exfalso. subst s. destruct X1 as [_ N]. apply Q2. eapply near_prefix; [apply leaf_8, Ls|apply firstn_prefix|exact N].
    + exfalso. apply Q1. eapply W_L; eassumption.
    + exfalso. subst s. destruct X2 as [_ N]. apply Q1. eapply near_prefix; [apply leaf_8, Ls|apply firstn_prefix|exact N].
    + reflexivity.
  - exists phis. split; [exact Ep|]. assert (Pm : Permutation (flat_map chg ls) (info S)).
    { apply leaves_permute; [exact Hg|exact Np|]. intros s. rewrite Ip. split.
      - intros (e & J & Q). unfold QT in Q. destruct (eop e); apply Q.
      - intros Ls. apply QT_cover; assumption. }
    unfold PT in Pp. rewrite (total_perm _ _ Pm) in Pp. eapply close_perm; eassumption.
Qed.
End Fmm.
