(** The values at the targets of the Direct and the Barnes-Hut methods. *)
From Coq Require Import Reals ZArith List Bool Arith Lia Lra Psatz Permutation.
From Verif Require Import Base ListFacts IndexModel TreeModel TreeFacts LookupModel DagModel DagSpec DagProofs DagPaths MethodModel MethodTasks LinkSpec EvalModel EvalSpec LapModel LapSpec LapArrays LapProofs TranModel TranTable TranSpec TranProofs TranProps PotModel PotSpec PotFacts PotBoxes PotUp PotProofs.
Import ListNotations.
Open Scope R_scope.

Section Direct.
Context (corner : pt) (size : R) (tb : table) (S : tree (list charge)) (T : tree (list pt)) (Hg : gathered S).
Context (E : list edge) (NE : NoDup E) (HE : forall e, In e E <-> exists s q, leaf_at S s /\ leaf_at T q /\ e = mkEdge StoT (src s, Parts) (tgt q, Parts)).
Context (val : dnode -> value) (Sv : solves value_zero value_add (edge_value tb corner size (records T)) (leaf_value S) E val).
Notation chg := (records S).
Definition QD (e : edge) (s : path) : Prop := leaf_at S s /\ s = snd (fst (efrom e)).
Lemma into_D q e : leaf_at T q -> (In e (LinkSpec.into (tgt q, Parts) E) <-> exists s, leaf_at S s /\ e = mkEdge StoT (src s, Parts) (tgt q, Parts)).
Proof.
  intros Lq. rewrite into_in, HE. split.
  - intros [(s & q' & Ls & _ & ->) Et]. cbn in Et. injection Et as ->. eauto.
  - intros (s & Ls & ->). split; [exists s, q; auto|reflexivity].
Qed.
Lemma direct_ok q : leaf_at T q -> exists phis, val (tgt q, Parts) = Array phis /\ close (info S) 0 (records T q) phis.
Proof.
  intros Lq. rewrite (Sv (tgt q, Parts)). cbn [is_source tgt]. set (g := fun e => edge_value tb corner size (records T) e (val (efrom e))).
  destruct (sum_ex g (fun ls phis => close (flat_map chg ls) 0 (records T q) phis) QD) with (es := LinkSpec.into (tgt q, Parts) E) as (ls & phis & Ep & Pp & Np & Ip).
  - intros l1 l2 a b H1 H2. rewrite flat_map_app. replace 0 with (0 + 0) by ring. apply close_padd; assumption.
  - apply into_nodup, NE.
  - destruct (has_leaf S) as [s Ls]. intros Z. assert (J : In (mkEdge StoT (src s, Parts) (tgt q, Parts)) (LinkSpec.into (tgt q, Parts) E)) by (apply into_D; eauto). rewrite Z in J. exact J.
  - intros e J. apply (into_D q e Lq) in J. destruct J as (c & Lc & ->). exists [c]. unfold g. cbn [efrom]. rewrite (val_source corner size tb S E (records T) val Sv). unfold edge_value. cbn [eop efrom eto fst snd src tgt].
    destruct (at_targets_ok (fun t => Ok (S_to_T (chg c) t 0)) (flat_map chg [c]) 0 (records T q)) as (phis & Ea & Ca).
    + intros t It. eexists. split; [reflexivity|]. rewrite S_to_T_ok, Rplus_0_l. cbn [flat_map]. rewrite app_nil_r. rewrite Rminus_diag_eq, Rabs_R0 by reflexivity. lra.
    + exists phis. split; [exact Ea|]. split; [exact Ca|]. split; [constructor; [intros []|constructor]|]. intros s. unfold QD. cbn [efrom fst snd src In]. split; [intros [<-|[]]; auto|]. intros [_ ->]. auto.
  - intros e1 e2 s J1 J2 [_ Q1] [_ Q2]. apply (into_D q _ Lq) in J1. apply (into_D q _ Lq) in J2. destruct J1 as (c1 & _ & ->), J2 as (c2 & _ & ->). cbn in Q1, Q2. congruence.
  - exists phis. split; [exact Ep|]. apply (close_perm (flat_map chg ls)); [|exact Pp]. apply leaves_permute; [exact Hg|exact Np|]. intros s. rewrite Ip. split.
    + intros (e & _ & Q). apply Q.
    + intros Ls. exists (mkEdge StoT (src s, Parts) (tgt q, Parts)). split; [apply into_D; eauto|split; [exact Ls|reflexivity]].
Qed.
End Direct.

Section BH.
Context (corner : pt) (size : R) (Hsize : 0 < size) (tb : table) (HS : sound tb) (Etb : table_of_order (tb_p tb) = Ok tb).
Context (S : tree (list charge)) (T : tree (list pt)) (fuel h : nat) (HS8 : eight S) (HSl : lower fuel S).
Context (HSb : boxed cpos corner size S) (Hg : gathered S).
Context (HSp : forall s, In s (info S) -> plain corner size S T (cpos s)) (HTp : forall q t, In t (records T q) -> plain corner size S T t).
Context (HSh : levels h S) (accept : path -> path -> bool) (theta : R) (Hth : 0 < theta < 2 / sqrt 3).
Context (Hacc : forall c q t, accept c q = true -> In t (records T q) -> side size (ilevel (idx_of c)) <= theta * dist (middle corner size (idx_of c)) t).
Context (E : list edge) (NE : NoDup E) (stop : path -> Prop).
Context (Hup : forall c e, sub S c <> None -> (In e E /\ eto e = (src c, Normal) <->
    (leaf_at S c /\ e = mkEdge StoM (src c, Parts) (src c, Normal)) \/ exists w, sub S (c ++ [w]) <> None /\ e = mkEdge MtoM (src (c ++ [w]), Normal) (src c, Normal))).
Context (Hto : forall q e, In e E -> eto e = (tgt q, Parts) -> exists c, sub S c <> None /\
    ((e = mkEdge MtoT (src c, Normal) (tgt q, Parts) /\ accept c q = true) \/ (e = mkEdge StoT (src c, Parts) (tgt q, Parts) /\ leaf_at S c))).
Context (Hone : forall s q, leaf_at S s -> stop q -> exists! es, chain E (src s, Parts) es (tgt q, Parts) /\ effective es).
Context (Hroute : forall s q es, chain E (src s, Parts) es (tgt q, Parts) -> bh_route s q es).
Context (val : dnode -> value) (Sv : solves value_zero value_add (edge_value tb corner size (records T)) (leaf_value S) E val).
Notation chg := (records S).

Lemma up_bh c : sub S c <> None ->
  exists ls M, val (src c, Normal) = Array M /\ upward tb corner size (idx_of c) (flat_map chg ls) M /\ NoDup ls /\ forall s, In s ls <-> leaf_at S s /\ prefix c s.
Proof.
  intros Sc. apply (up_ok corner size Hsize tb HS Etb S T fuel HS8 HSl HSb HSp Hg E NE (records T) val (val_source corner size tb S E (records T) val Sv) (val_multipole corner size tb S E (records T) val Sv) 0 (fun c e H _ => Hup c e H) (Datatypes.S fuel) c); [lia|exact Sc|lia].
Qed.

(** The truncation error of one unit of charge seen under the angle [theta]. *)
Definition Kb : R := (sqrt 3 / 2 * theta) ^ Datatypes.S (tb_p tb) / (1 / theta - sqrt 3 / 2) / side size (Z.of_nat h).
Lemma theta_facts : 0 < sqrt 3 / 2 * theta < 1 /\ 0 < 1 / theta - sqrt 3 / 2.
Proof.
  pose proof sqrt3_lt as S3. destruct Hth as [T0 T1]. assert (A : theta * sqrt 3 < 2) by (apply (Rmult_lt_compat_r (sqrt 3)) in T1; [|lra]; unfold Rdiv in T1; rewrite Rmult_assoc, Rinv_l in T1 by lra; lra).
  assert (B : 0 < sqrt 3 / 2 * theta < 1) by (split; nra). split; [exact B|]. apply Rmult_lt_reg_l with theta; [exact T0|]. rewrite Rmult_0_r, Rmult_minus_distr_l. unfold Rdiv at 1. rewrite Rmult_1_l, Rinv_r by lra. lra.
Qed.
Lemma Kb_nonneg : 0 <= Kb.
Proof. destruct theta_facts as [A B]. unfold Kb, Rdiv. apply Rmult_le_pos; [apply Rmult_le_pos|]; [apply pow_le; lra|left; apply Rinv_0_lt_compat; lra|left; apply Rinv_0_lt_compat, side_pos, Hsize]. Qed.

Lemma mtt_bh c q t ls M : sub S c <> None -> accept c q = true -> In t (records T q) ->
  upward tb corner size (idx_of c) (flat_map chg ls) M -> (forall s, In s ls -> leaf_at S s /\ prefix c s) ->
  exists v, M_to_T (tb_p tb) (tb_sqf tb) (level_scale size (ilevel (idx_of c))) (box_center corner size (idx_of c)) M t 0 = Ok v /\
    Rabs (v - potential (flat_map chg ls) t) <= total_charge (flat_map chg ls) * Kb.
Proof.
  intros Sc Ac It UM IM. pose proof (Hacc c q t Ac It) as Far. destruct theta_facts as [Th1 Th2]. set (l := flat_map chg ls) in *. set (i := idx_of c) in *. pose proof (side_pos size (ilevel i) Hsize) as P. pose proof sqrt3_lt as S3. destruct Hth as [T0 T1].
  set (d := dist (middle corner size i) t) in *. set (s := side size (ilevel i)) in *. assert (Er : radius size (ilevel i) = sqrt 3 / 2 * s) by reflexivity.
  assert (D1 : 1 / theta * s <= d) by (apply Rmult_le_reg_l with theta; [exact T0|]; unfold Rdiv; rewrite <- Rmult_assoc, Rmult_1_l, Rinv_r by lra; lra).
  assert (D2 : (1 / theta - sqrt 3 / 2) * s <= d - radius size (ilevel i)) by (rewrite Er; lra). assert (D3 : 0 < (1 / theta - sqrt 3 / 2) * s) by (apply Rmult_lt_0_compat; assumption).
  destruct (up_value corner size Hsize tb HS i l M t 0 UM ltac:(fold d; lra)) as (v & Ev & Bv). rewrite Rplus_0_l in Ev. exists v. split; [exact Ev|].
  rewrite (regular_rounded (middle corner size i) t) in Bv by (apply (HTp q t It); left; exact Sc). fold d in Bv. rewrite <- potential_far in Bv.
  - eapply Rle_trans; [exact Bv|]. unfold Rdiv at 1. rewrite Rmult_assoc. apply Rmult_le_compat_l; [apply total_nonneg|].
    apply Rle_trans with (/ ((1 / theta - sqrt 3 / 2) * s) * (sqrt 3 / 2 * theta) ^ Datatypes.S (tb_p tb)).
    + assert (Dp : 0 < d) by nra. assert (Rp : 0 <= radius size (ilevel i) / d) by (apply Rmult_le_pos; [rewrite Er; nra|left; apply Rinv_0_lt_compat, Dp]). apply Rmult_le_compat; [left; apply Rinv_0_lt_compat; lra|apply pow_le, Rp|apply Rinv_le_contravar; lra|].
      apply pow_incr. split; [exact Rp|]. apply Rmult_le_reg_r with d; [exact Dp|]. unfold Rdiv at 1. rewrite Rmult_assoc, Rinv_l by lra. rewrite Er, Rmult_1_r, Rmult_assoc. apply Rmult_le_compat_l; [lra|exact Far].
    + unfold Kb. rewrite Rinv_mult. unfold Rdiv at 5. rewrite (Rmult_comm _ (/ s)), Rmult_assoc. rewrite (Rmult_comm (_ ^ _) (/ _)) || idtac.
      assert (C : / s <= / side size (Z.of_nat h)).
      { apply Rinv_le_contravar; [apply side_pos, Hsize|]. unfold s, i. rewrite idx_level. pose proof (HSh c Sc) as L. rewrite (side_down size (Z.of_nat (length c)) (Z.of_nat h - Z.of_nat (length c))) by lia. replace (Z.of_nat (length c) + (Z.of_nat h - Z.of_nat (length c)))%Z with (Z.of_nat h) by lia.
        pose proof (side_pos size (Z.of_nat h) Hsize) as P'. assert (O : 1 <= IZR (2 ^ (Z.of_nat h - Z.of_nat (length c)))) by (apply IZR_le; assert (0 < 2 ^ (Z.of_nat h - Z.of_nat (length c)))%Z by (apply Z.pow_pos_nonneg; lia); lia). nra. }
      set (w := (sqrt 3 / 2 * theta) ^ Datatypes.S (tb_p tb)). assert (W0 : 0 <= w) by (apply pow_le; lra). set (z := / (1 / theta - sqrt 3 / 2)). assert (Z0 : 0 <= z) by (left; apply Rinv_0_lt_compat, Th2). unfold Rdiv. fold z. assert (X : 0 <= w * z) by (apply Rmult_le_pos; assumption). pose proof (Rmult_le_compat_l (w * z) _ _ X C) as F. clear - F. unfold Rdiv in *. fold z in F |- *. lra.
  - intros x J Ex. apply in_flat_map in J. destruct J as (s' & Js & J). destruct (IM s' Js) as [_ Ps]. pose proof (records_below S c s' x Hg Ps J) as Jc. pose proof (inside_radius corner size i (cpos x) Hsize (chg_inside corner size S HSb x c Jc)) as D. rewrite Ex in D. fold d in D. lra.
Qed.

Definition QB (e : edge) (s : path) : Prop :=
  match eop e with
  | MtoT => leaf_at S s /\ prefix (snd (fst (efrom e))) s
  | _ => leaf_at S s /\ s = snd (fst (efrom e))
  end.
Fixpoint climb (r c : path) : list edge :=
  match r with [] => [] | w :: r => climb r (c ++ [w]) ++ [mkEdge MtoM (src (c ++ [w]), Normal) (src c, Normal)] end.
Lemma chain_app es : forall a b c fs, chain E a es b -> chain E b fs c -> chain E a (es ++ fs) c.
Proof. induction es as [|e es IH]; intros a b c fs H1 H2; cbn [chain app] in *; [subst; exact H2|]. destruct H1 as (I & F & H1). split; [exact I|]. split; [exact F|]. eapply IH; eassumption. Qed.
Lemma climb_ok r : forall c, sub S (c ++ r) <> None -> chain E (src (c ++ r), Normal) (climb r c) (src c, Normal) /\ Forall quiet (climb r c).
Proof.
  induction r as [|w r IH]; intros c Sc; cbn [climb]; [rewrite app_nil_r; split; [reflexivity|constructor]|].
  replace (c ++ w :: r) with ((c ++ [w]) ++ r) in * by (rewrite <- app_assoc; reflexivity). destruct (IH _ Sc) as [C Q]. assert (Sw : sub S (c ++ [w]) <> None) by (eapply sub_prefix; [exists r; reflexivity|exact Sc]). assert (S0 : sub S c <> None) by (eapply sub_prefix; [exists [w]; reflexivity|exact Sw]). split.
  - eapply chain_app; [exact C|]. cbn [chain efrom eto]. split; [|auto]. apply (Hup c); [exact S0|]. right. exists w. auto.
  - apply Forall_app. split; [exact Q|]. constructor; [|constructor]. unfold quiet. discriminate.
Qed.
(** The route of a leaf through an edge into the target. *)
Lemma route_ok q e s : In e E -> eto e = (tgt q, Parts) -> QB e s -> exists es, chain E (src s, Parts) (es ++ [e]) (tgt q, Parts) /\ effective (es ++ [e]).
Proof.
  intros I Et Q. destruct (Hto q e I Et) as (c & Sc & [[-> Ac]|[-> Lc]]); unfold QB in Q; cbn [eop efrom fst snd src] in Q; destruct Q as [Ls Q].
  - destruct Q as [r ->]. destruct (climb_ok r c (leaf_sub S _ Ls)) as [C Qt]. exists (mkEdge StoM (src (c ++ r), Parts) (src (c ++ r), Normal) :: climb r c). split.
    + cbn [app chain]. split; [apply (Hup (c ++ r)); [apply leaf_sub, Ls|left; auto]|]. split; [reflexivity|]. cbn [eto]. eapply chain_app; [exact C|]. cbn [chain efrom eto]. auto.
    + apply quiet_effective. cbn [app]. constructor; [discriminate|]. apply Forall_app. split; [exact Qt|]. constructor; [discriminate|constructor].
  - subst s. exists []. split; [cbn [app chain efrom eto]; auto|]. cbn. exact Logic.I.
Qed.
Lemma chain_last es : forall a e b, chain E a (es ++ [e]) b -> In e E /\ eto e = b.
Proof. induction es as [|f es IH]; intros a e b H; cbn [app chain] in H; [destruct H as (I & _ & H); auto|]. destruct H as (_ & _ & H). eapply IH; exact H. Qed.

Lemma bh_ok q : stop q -> exists phis, val (tgt q, Parts) = Array phis /\ close (info S) (total_charge (info S) * Kb) (records T q) phis.
Proof.
  intros R.
  assert (Cover : forall s, leaf_at S s -> exists e, In e (LinkSpec.into (tgt q, Parts) E) /\ QB e s).
  { intros s Ls. destruct (Hone s q Ls R) as (es & (C & _) & _). destruct (Hroute s q es C) as [-> |(c & ups & Pc & _ & ->)].
    - destruct (chain_last [] _ _ _ C) as [I Et]. exists (mkEdge StoT (src s, Parts) (tgt q, Parts)). split; [apply into_in; auto|]. split; [exact Ls|reflexivity].
    - rewrite app_comm_cons in C. destruct (chain_last _ _ _ _ C) as [I Et]. exists (mkEdge MtoT (src c, Normal) (tgt q, Parts)). split; [apply into_in; auto|]. split; [exact Ls|exact Pc]. }
  rewrite (Sv (tgt q, Parts)). cbn [is_source tgt]. set (g := fun e => edge_value tb corner size (records T) e (val (efrom e))).
  destruct (sum_ex g (fun ls phis => close (flat_map chg ls) (total_charge (flat_map chg ls) * Kb) (records T q) phis) QB) with (es := LinkSpec.into (tgt q, Parts) E) as (ls & phis & Ep & Pp & Np & Ip).
  - intros l1 l2 a b H1 H2. rewrite flat_map_app, total_app, Rmult_plus_distr_r. apply close_padd; assumption.
  - apply into_nodup, NE.
  - destruct (has_leaf S) as [s Ls]. destruct (Cover s Ls) as (e & I & _). intros Z. rewrite Z in I. exact I.
  - intros e J. apply into_in in J. destruct J as [J Et]. destruct (Hto q e J Et) as (c & Sc & [[-> Ac]|[-> Lc]]).
    + destruct (up_bh c Sc) as (ls & M & EM & UM & NM & IM). exists ls. unfold g. cbn [efrom]. rewrite EM. unfold edge_value. cbn [eop efrom eto fst snd src tgt].
      edestruct at_targets_ok as (phis & Ea & Ca); [intros t It; exact (mtt_bh c q t ls M Sc Ac It UM (fun s I => proj1 (IM s) I))|]. exists phis. split; [exact Ea|]. split; [exact Ca|]. split; [exact NM|]. exact IM.
    + exists [c]. unfold g. cbn [efrom]. rewrite (val_source corner size tb S E (records T) val Sv). unfold edge_value. cbn [eop efrom eto fst snd src tgt].
      destruct (at_targets_ok (fun t => Ok (S_to_T (chg c) t 0)) (flat_map chg [c]) (total_charge (flat_map chg [c]) * Kb) (records T q)) as (phis & Ea & Ca).
      * intros t It. eexists. split; [reflexivity|]. rewrite S_to_T_ok, Rplus_0_l. cbn [flat_map]. rewrite app_nil_r. rewrite Rminus_diag_eq, Rabs_R0 by reflexivity. apply Rmult_le_pos; [apply total_nonneg|apply Kb_nonneg].
      * exists phis. split; [exact Ea|]. split; [exact Ca|]. split; [constructor; [intros []|constructor]|]. intros s. unfold QB. cbn [eop efrom fst snd src In]. split; [intros [<-|[]]; auto|]. intros [_ ->]. auto.
  - intros e1 e2 s J1 J2 Q1 Q2. apply into_in in J1. apply into_in in J2. destruct J1 as [J1 E1], J2 as [J2 E2]. assert (Ls : leaf_at S s) by (unfold QB in Q1; destruct (eop e1); apply Q1).
    destruct (route_ok q e1 s J1 E1 Q1) as (es1 & C1). destruct (route_ok q e2 s J2 E2 Q2) as (es2 & C2). destruct (Hone s q Ls R) as (es & _ & U). pose proof (U _ C1) as A1. pose proof (U _ C2) as A2. rewrite A1 in A2. apply app_inj_tail in A2. apply A2.
  - exists phis. split; [exact Ep|]. assert (Pm : Permutation (flat_map chg ls) (info S)).
    { apply leaves_permute; [exact Hg|exact Np|]. intros s. rewrite Ip. split.
      - intros (e & J & Q). unfold QB in Q. destruct (eop e); apply Q.
      - apply Cover. }
    rewrite (total_perm _ _ Pm) in Pp. eapply close_perm; eassumption.
Qed.
End BH.
