(** The values at the nodes of the DAG of the Barnes-Hut method with LaplaceCOMAcc. *)
From Coq Require Import Reals ZArith List Bool Arith Lia Lra Psatz Permutation.
From Verif Require Import Base ListFacts IndexModel TreeModel TreeFacts LookupModel DagModel DagSpec DagProofs DagPaths MethodModel MethodTasks LinkSpec EvalModel EvalSpec ComModel ComSpec ComProofs ComRunMath LapModel LapSpec LapArrays LapProofs TranModel TranSpec TranProofs PotModel PotSpec PotFacts PotBoxes PotUp PotProofs PotOther BhOwnProofs ComRunModel ComRunProofs AccModel AccSpec AccProofs AccMath FieldRunModel FieldRunSpec FieldRunProofs.
Import ListNotations.
Open Scope R_scope.

(** ** The error at a target *)
Lemma field_scaled l t : (forall s, In s l -> cpos s <> t) ->
  field l t = (scaled_field sx (px t) (map com_source l) (px t) (py t) (pz t) 1, scaled_field sy (py t) (map com_source l) (px t) (py t) (pz t) 1, scaled_field sz (pz t) (map com_source l) (px t) (py t) (pz t) 1).
Proof.
  intros H. unfold field. rewrite others_far by exact H.
  assert (K : forall c cs L, (forall s, cs (com_source s) = c (cpos s)) -> pull_along c l t = moment (fun s => (c t - (centre cs L + 1 * dev cs L s)) / (scaled_dist2 L (px t) (py t) (pz t) 1 s * sqrt (scaled_dist2 L (px t) (py t) (pz t) 1 s))) (map com_source l)).
  { intros c cs L Hc. unfold pull_along. induction l as [|s k IH]; [reflexivity|]. cbn [map fold_right]. rewrite moment_cons, <- IH by (intros; apply H; right; assumption). f_equal. cbn [com_source ComModel.charge]. f_equal.
    assert (Ed : scaled_dist2 L (px t) (py t) (pz t) 1 (com_source s) = (px t - px (cpos s)) ^ 2 + (py t - py (cpos s)) ^ 2 + (pz t - pz (cpos s)) ^ 2) by (unfold scaled_dist2, dev; cbn [com_source sx sy sz]; ring). fold (com_source s). rewrite Ed.
    assert (P : 0 < dist t (cpos s)) by (apply dist_pos, H; left; reflexivity). assert (Sq : (px t - px (cpos s)) ^ 2 + (py t - py (cpos s)) ^ 2 + (pz t - pz (cpos s)) ^ 2 = dist t (cpos s) * dist t (cpos s)) by (unfold dist; rewrite sqrt_sqrt; [reflexivity|]; apply Rplus_le_le_0_compat; [apply Rplus_le_le_0_compat|]; apply pow2_ge_0).
    rewrite Sq, sqrt_square by lra. unfold dev. rewrite Hc. field. lra. }
  unfold scaled_field. rewrite <- (K px sx), <- (K py sy), <- (K pz sz) by reflexivity. reflexivity.
Qed.
Lemma acc_box_error corner size i l e t m : 0 < size -> l <> [] -> (forall s, In s l -> 0 < cq s) -> (forall s, In s l -> inside corner size i (cpos s)) ->
  expansion_of (map com_source l) e -> 0 < m -> m <= dist (middle corner size i) t - radius size (ilevel i) ->
  exists v, acc_M_to_T e (px t) (py t) (pz t) = Ok v /\ near_field l (3 * sqrt 3 * total_charge l * side size (ilevel i) ^ 3 / m ^ 5) t v.
Proof.
  intros Hs Ne Pos Ins Ex Hm Far. pose proof (side_pos size (ilevel i) Hs) as P. set (h := side size (ilevel i)) in *. set (c := middle corner size i) in *. set (L := map com_source l).
  assert (F : List.Forall (fun s => 0 < ComModel.charge s) L) by (apply com_source_pos, Pos). assert (NeL : L <> []) by (unfold L; destruct l; [contradiction|discriminate]).
  set (rd := radius size (ilevel i)) in *. assert (Rd : rd = sqrt 3 / 2 * h) by reflexivity. pose proof (sqrt_pos 3) as S3. assert (Q3 : sqrt 3 * sqrt 3 = 3) by (apply sqrt_sqrt; lra).
  assert (Rb : rd * rd = 3 / 4 * (h * h)) by (rewrite Rd; replace (sqrt 3 / 2 * h * (sqrt 3 / 2 * h)) with (sqrt 3 * sqrt 3 / 4 * (h * h)) by field; rewrite Q3; field). assert (Rp : 0 <= rd) by (rewrite Rd; nra).
  assert (Sq : forall x y, dist x y * dist x y = (px x - px y) ^ 2 + (py x - py y) ^ 2 + (pz x - pz y) ^ 2) by (intros x y; unfold dist; apply sqrt_sqrt; apply Rplus_le_le_0_compat; [apply Rplus_le_le_0_compat|]; apply pow2_ge_0).
  assert (Dx : forall s, In s l -> dist c (cpos s) <= rd) by (intros s I; exact (inside_radius corner size i (cpos s) Hs (Ins s I))).
  destruct (spread L (px c) (py c) (pz c) (rd * rd) F NeL) as [S1 S2].
  { intros s I. apply in_map_iff in I. destruct I as (x & <- & I). cbn [com_source sx sy sz]. rewrite <- Sq. specialize (Dx x I). rewrite dist_sym in Dx. assert (0 <= dist (cpos x) c) by (unfold dist; apply sqrt_pos). nra. }
  set (g := mkPt (centre sx L) (centre sy L) (centre sz L)). assert (Dg : dist c g <= rd).
  { apply Rsqr_incr_0_var; [|exact Rp]. unfold Rsqr. rewrite Sq. unfold g. cbn [px py pz]. replace ((px c - centre sx L) ^ 2 + (py c - centre sy L) ^ 2 + (pz c - centre sz L) ^ 2) with ((centre sx L - px c) ^ 2 + (centre sy L - py c) ^ 2 + (centre sz L - pz c) ^ 2) by ring. exact S2. }
  (* the points between the centre of charge and a charge *)
  assert (Seg : forall s u, In s L -> 0 <= u <= 1 -> m * m <= scaled_dist2 L (px t) (py t) (pz t) u s).
  { intros s u I Hu. apply in_map_iff in I. destruct I as (x & <- & I). set (y := mkPt (centre sx L + u * dev sx L (com_source x)) (centre sy L + u * dev sy L (com_source x)) (centre sz L + u * dev sz L (com_source x))).
    assert (Ey : scaled_dist2 L (px t) (py t) (pz t) u (com_source x) = dist t y * dist t y) by (rewrite Sq; reflexivity). rewrite Ey.
    assert (Dy : dist c y <= rd).
    { apply Rsqr_incr_0_var; [|exact Rp]. unfold Rsqr. rewrite Sq. specialize (Dx x I). assert (0 <= dist c (cpos x)) by (unfold dist; apply sqrt_pos). assert (0 <= dist c g) by (unfold dist; apply sqrt_pos).
      assert (B1 : dist c (cpos x) * dist c (cpos x) <= rd * rd) by nra. assert (B2 : dist c g * dist c g <= rd * rd) by nra. rewrite Sq in B1, B2. unfold y, g, dev in *. cbn [com_source sx sy sz px py pz] in *.
      assert (V : forall a b e', (a - (b + u * (e' - b))) ^ 2 <= (1 - u) * (a - b) ^ 2 + u * (a - e') ^ 2).
      { intros a b e'. assert (Z : (1 - u) * (a - b) ^ 2 + u * (a - e') ^ 2 - (a - (b + u * (e' - b))) ^ 2 = u * (1 - u) * ((e' - b) * (e' - b))) by ring. assert (0 <= u * (1 - u) * ((e' - b) * (e' - b))) by (apply Rmult_le_pos; [nra|apply Rle_0_sqr]). lra. }
      pose proof (V (px c) (centre sx L) (px (cpos x))). pose proof (V (py c) (centre sy L) (py (cpos x))). pose proof (V (pz c) (centre sz L) (pz (cpos x))). nra. }
    assert (m <= dist t y) by (pose proof (BhOwnProofs.triangle c y t); rewrite (dist_sym t y); lra). nra. }
  assert (Mx : forall s, In s l -> m <= dist t (cpos s)) by (intros s I; pose proof (BhOwnProofs.triangle c (cpos s) t); specialize (Dx s I); rewrite (dist_sym t); lra).
  destruct (acc_error L (px t) (py t) (pz t) m F NeL Hm Seg e Ex) as (ax & ay & az & Ea & Be). exists (ax, ay, az). split; [exact Ea|].
  unfold near_field. rewrite field_scaled by (intros s I Es; specialize (Mx s I); rewrite Es in Mx; pose proof (Sq t t) as Z; replace ((px t - px t) ^ 2 + (py t - py t) ^ 2 + (pz t - pz t) ^ 2) with 0 in Z by ring; nra).
  cbn [dist3]. eapply Rle_trans; [exact Be|].
  assert (Pm : 0 < m ^ 5) by (apply pow_lt, Hm). rewrite <- (total_sources l Pos). fold L.
  assert (B : moment (fun s => sqrt (dist2 L s) ^ 3) L <= sqrt 3 * h * moment (dist2 L) L).
  { rewrite <- moment_scal. apply moment_mono; [exact F|]. intros s I. apply in_map_iff in I. destruct I as (x & <- & I).
    assert (D0 : 0 <= dist2 L (com_source x)) by (unfold dist2; apply Rplus_le_le_0_compat; [apply Rplus_le_le_0_compat|]; apply Rle_0_sqr).
    assert (Es : sqrt (dist2 L (com_source x)) = dist g (cpos x)) by (unfold dist, dist2, dev, g; cbn [com_source sx sy sz px py pz]; f_equal; ring).
    replace (sqrt (dist2 L (com_source x)) ^ 3) with (sqrt (dist2 L (com_source x)) * (sqrt (dist2 L (com_source x)) * sqrt (dist2 L (com_source x)))) by ring. rewrite sqrt_sqrt by exact D0. apply Rmult_le_compat_r; [exact D0|]. rewrite Es.
    pose proof (BhOwnProofs.triangle g c (cpos x)) as Tr. rewrite (dist_sym g c) in Tr. specialize (Dx x I). rewrite Rd in Dx, Dg. lra. }
  assert (Mo : moment (fun s => sqrt (dist2 L s) ^ 3) L <= sqrt 3 * h * (ComSpec.total L * (rd * rd))) by (eapply Rle_trans; [exact B|]; apply Rmult_le_compat_l; [nra|exact S1]).
  replace (3 * sqrt 3 * ComSpec.total L * h ^ 3 / m ^ 5) with (4 / m ^ 5 * (sqrt 3 * h * (ComSpec.total L * (3 / 4 * (h * h))))) by (field; lra). rewrite <- Rb. apply Rmult_le_compat_l; [left; apply Rdiv_lt_0_compat; lra|exact Mo].
Qed.

(** ** The Barnes-Hut method *)
Section BH.
Context (corner : pt) (size : R) (Hsize : 0 < size).
Context (S : tree (list LapModel.charge)) (T : tree (list pt)) (fuel h : nat) (HSl : lower fuel S).
Context (HSb : boxed cpos corner size S) (Hg : gathered S) (Hne : forall s, leaf_at S s -> records S s <> []) (Hpos : forall s, In s (info S) -> 0 < cq s).
Context (HSh : levels h S) (accept : path -> path -> bool) (theta : R) (Hth : 0 < theta < 2 / sqrt 3).
Context (Hacc : forall c q t, accept c q = true -> In t (records T q) -> side size (ilevel (idx_of c)) <= theta * dist (middle corner size (idx_of c)) t).
Context (E : list edge) (NE : NoDup E) (stop : path -> Prop).
Context (Hup : forall c e, sub S c <> None -> (In e E /\ eto e = (src c, Normal) <->
    (leaf_at S c /\ e = mkEdge StoM (src c, Parts) (src c, Normal)) \/ exists w, sub S (c ++ [w]) <> None /\ e = mkEdge MtoM (src (c ++ [w]), Normal) (src c, Normal))).
Context (Hto : forall q e, In e E -> eto e = (tgt q, Parts) -> exists c, sub S c <> None /\
    ((e = mkEdge MtoT (src c, Normal) (tgt q, Parts) /\ accept c q = true) \/ (e = mkEdge StoT (src c, Parts) (tgt q, Parts) /\ leaf_at S c))).
Context (Hone : forall s q, leaf_at S s -> stop q -> exists! es, chain E (src s, Parts) es (tgt q, Parts) /\ effective es).
Context (Hroute : forall s q es, chain E (src s, Parts) es (tgt q, Parts) -> bh_route s q es).
Context (val : dnode -> fvalue (R * R * R)) (Sv : solves fvalue_zero (fvalue_add add3) (acc_edge (records T)) (field_leaf S) E val).
Notation chg := (records S).

(** The charges below a box: they are there, positive, and in the box. *)
Lemma chg_pos s c : In s (chg c) -> 0 < cq s.
Proof. unfold records. destruct (sub S c) as [n|] eqn:Sc; [|intros []]. intros I. apply Hpos. eapply (records_root S Hg); eassumption. Qed.
Lemma flat_pos ls s : In s (flat_map chg ls) -> 0 < cq s.
Proof. intros I. apply in_flat_map in I. destruct I as (c & _ & I). exact (chg_pos s c I). Qed.
Lemma flat_ne ls : ls <> [] -> (forall s, In s ls -> leaf_at S s) -> flat_map chg ls <> [].
Proof. intros Ne H. destruct ls as [|c ls]; [contradiction|]. cbn [flat_map]. pose proof (Hne c (H c (or_introl eq_refl))) as X. destruct (chg c); [contradiction|discriminate]. Qed.

(** What a multipole stands for. *)
Definition stands (ls : list path) (t : com) : Prop := flat_map chg ls <> [] /\ expansion_of (map com_source (flat_map chg ls)) t.
Lemma stands_pos ls t : stands ls t -> 0 < mtot t.
Proof.
  intros [Ne (E1 & _)]. rewrite E1. destruct (total_pos (map com_source (flat_map chg ls)) (com_source_pos _ (fun s => flat_pos ls s))) as [X|X]; [|exact X]. destruct (flat_map chg ls); [contradiction|discriminate].
Qed.
Lemma stands_add l1 l2 a b : stands l1 a -> stands l2 b -> exists c, fvalue_add add3 (FExp a) (FExp b) = FExp c /\ stands (l1 ++ l2) c.
Proof.
  intros H1 H2. pose proof (stands_pos _ _ H1) as P1. pose proof (stands_pos _ _ H2) as P2. destruct H1 as [N1 X1], H2 as [N2 X2]. destruct (fvalue_add_exp add3 a b P1 P2) as (Ev & _ & Ea). exists (acc_add a b). split; [exact Ev|].
  pose proof X1 as (T1 & _). pose proof X2 as (T2 & _). rewrite T1 in P1. rewrite T2 in P2.
  destruct (add_spec _ _ a b (or_intror (Rgt_not_eq _ _ P1)) (or_intror (Rgt_not_eq _ _ P2)) ltac:(rewrite ComProofs.total_app; lra) X1 X2) as (v' & Ev' & X). rewrite Ea in Ev'. injection Ev' as <-.
  split; [rewrite flat_map_app; destruct (flat_map chg l1); [contradiction|discriminate]|]. rewrite flat_map_app, map_app. exact X.
Qed.
Lemma acc_up_ok : forall k c, (fuel - length c < k)%nat -> sub S c <> None ->
  exists ls t, val (src c, Normal) = FExp t /\ stands ls t /\ NoDup ls /\ forall s, In s ls <-> leaf_at S s /\ prefix c s.
Proof.
  induction k as [|k IH]; intros c Hk Sc; [lia|].
  rewrite (Sv (src c, Normal)). cbn [is_source src]. set (g := fun e => acc_edge (records T) e (val (efrom e))).
  pose (Q := fun (e : edge) (s : path) => leaf_at S s /\ prefix (snd (fst (efrom e))) s).
  assert (Hin : forall e, In e (LinkSpec.into (src c, Normal) E) <-> (leaf_at S c /\ e = mkEdge StoM (src c, Parts) (src c, Normal)) \/ exists w, sub S (c ++ [w]) <> None /\ e = mkEdge MtoM (src (c ++ [w]), Normal) (src c, Normal)) by (intros e; rewrite into_in; apply Hup; assumption).
  change ((SrcTree, c), Normal) with (src c, Normal).
  destruct (fsum_ex add3 FExp g stands Q stands_add (LinkSpec.into (src c, Normal) E) (into_nodup E NE _)) as (ls & M & EM & UM & NM & IM).
  - destruct (sub S c) as [n|] eqn:Sn; [|congruence]. destruct (leaf_or S c n Sn) as [Lf|(w & Sw)]; intros Z.
    + assert (J : In (mkEdge StoM (src c, Parts) (src c, Normal)) (LinkSpec.into (src c, Normal) E)) by (apply Hin; left; auto). rewrite Z in J. exact J.
    + assert (J : In (mkEdge MtoM (src (c ++ [w]), Normal) (src c, Normal)) (LinkSpec.into (src c, Normal) E)) by (apply Hin; right; eauto). rewrite Z in J. exact J.
  - intros e J. apply Hin in J. destruct J as [[Lf ->]|(w & Sw & ->)].
    + exists [c]. unfold g. cbn [efrom]. rewrite (Sv (src c, Parts)). cbn [is_source src]. unfold field_leaf, acc_edge. cbn [eop efrom eto fst snd src].
      exists (ComModel.S_to_M (map com_source (chg c))). split; [rewrite acc_S_to_M_eq; reflexivity|]. split; [|split; [constructor; [intros []|constructor]|]].
      * assert (N : flat_map chg [c] <> []) by (apply flat_ne; [discriminate|]; intros s [<-|[]]; exact Lf). split; [exact N|]. cbn [flat_map] in N |- *. rewrite app_nil_r in N |- *. apply S_to_M_spec.
        destruct (total_pos (map com_source (chg c)) (com_source_pos _ (fun s I => chg_pos s c I))) as [X|X]; [destruct (chg c); [contradiction|discriminate]|lra].
      * intros s. unfold Q. cbn [efrom fst snd src]. split; [intros [<-|[]]; split; [exact Lf|exists []; symmetry; apply app_nil_r]|]. intros [Ls Ps]. left. symmetry. eapply leaf_only; [exact Lf|exact Ps|apply leaf_sub, Ls].
    + destruct (IH (c ++ [w])) as (ls & M & EM & UM & NM & IM).
      * destruct (sub S (c ++ [w])) as [n|] eqn:Sn; [|congruence]. pose proof (HSl _ _ Sn) as Lw. rewrite app_length in *. cbn [length] in *. lia.
      * exact Sw.
      * exists ls, M. unfold g. cbn [efrom]. rewrite EM. unfold acc_edge. cbn [eop efrom eto fst snd src]. split; [rewrite acc_copy; reflexivity|]. split; [exact UM|]. split; [exact NM|]. exact IM.
  - intros e1 e2 s J1 J2 [Ls Q1] [_ Q2]. apply Hin in J1. apply Hin in J2. destruct J1 as [[L1 ->]|(w1 & S1 & ->)], J2 as [[L2 ->]|(w2 & S2 & ->)]; cbn [efrom fst snd src] in *.
    + reflexivity.
    + exfalso. destruct L1 as (n & En & K). rewrite sub_snoc, En, K in S2. congruence.
    + exfalso. destruct L2 as (n & En & K). rewrite sub_snoc, En, K in S1. congruence.
    + assert (X : c ++ [w1] = c ++ [w2]) by (eapply prefix_eq; [exact Q1|exact Q2|rewrite !app_length; reflexivity]). apply app_inj_tail in X. destruct X as [_ ->]. reflexivity.
  - exists ls, M. split; [exact EM|]. split; [exact UM|]. split; [exact NM|]. intros s. rewrite IM. split.
    + intros (e & J & Ls & Ps). split; [exact Ls|]. apply Hin in J. destruct J as [[_ ->]|(w & _ & ->)]; cbn [efrom fst snd src] in Ps; [exact Ps|]. eapply prefix_trans; [|exact Ps]. exists [w]. reflexivity.
    + intros [Ls Ps]. destruct (prefix_snoc_inv c s Ps) as [->|(w & Pw)].
      * exists (mkEdge StoM (src c, Parts) (src c, Normal)). split; [apply Hin; left; auto|]. split; [exact Ls|exact Ps].
      * exists (mkEdge MtoM (src (c ++ [w]), Normal) (src c, Normal)). split; [|split; [exact Ls|exact Pw]]. apply Hin. right. exists w. split; [|reflexivity]. destruct Pw as [r ->]. apply leaf_sub in Ls. rewrite sub_app in Ls. destruct (sub S (c ++ [w])); congruence.
Qed.

(** The error for one unit of charge seen under the angle [theta]. *)
Definition Ka : R := 3 * sqrt 3 / (1 / theta - sqrt 3 / 2) ^ 5 / (side size (Z.of_nat h) * side size (Z.of_nat h)).
Lemma Ka_nonneg : 0 <= Ka.
Proof. destruct (theta_facts theta Hth) as [_ B]. pose proof (side_pos size (Z.of_nat h) Hsize). unfold Ka. apply div_nonneg; [|nra]. apply div_nonneg; [pose proof (sqrt_pos 3); lra|apply pow_lt, B]. Qed.
Lemma acc_mtt c q t ls M : sub S c <> None -> accept c q = true -> In t (records T q) ->
  stands ls M -> (forall s, In s ls -> leaf_at S s /\ prefix c s) ->
  exists v, acc_M_to_T M (px t) (py t) (pz t) = Ok v /\ near_field (flat_map chg ls) (total_charge (flat_map chg ls) * Ka) t v.
Proof.
  intros Sc Ac It [Ne X] IM. pose proof (Hacc c q t Ac It) as Far. destruct (theta_facts theta Hth) as [_ Th2]. set (i := idx_of c) in *. pose proof (side_pos size (ilevel i) Hsize) as P. destruct Hth as [T0 _].
  set (d := dist (middle corner size i) t) in *. set (s := side size (ilevel i)) in *. assert (Er : radius size (ilevel i) = sqrt 3 / 2 * s) by reflexivity. set (k := 1 / theta - sqrt 3 / 2) in *.
  assert (D1 : 1 / theta * s <= d) by (apply Rmult_le_reg_l with theta; [exact T0|]; unfold Rdiv; rewrite <- Rmult_assoc, Rmult_1_l, Rinv_r by lra; lra).
  assert (D2 : k * s <= d - radius size (ilevel i)) by (rewrite Er; unfold k; lra). assert (D3 : 0 < k * s) by (apply Rmult_lt_0_compat; assumption).
  destruct (acc_box_error corner size i (flat_map chg ls) M t (k * s) Hsize Ne (flat_pos ls)) as (v & Ev & Bv); [|exact X|exact D3|exact D2|].
  { intros x J. apply in_flat_map in J. destruct J as (s' & Js & J). destruct (IM s' Js) as [_ Ps]. apply (chg_inside corner size S HSb). exact (records_below S c s' x Hg Ps J). }
  exists v. split; [exact Ev|]. unfold near_field in *. eapply Rle_trans; [exact Bv|]. fold s. set (m := total_charge (flat_map chg ls)). assert (M0 : 0 <= m) by apply total_nonneg.
  replace (3 * sqrt 3 * m * s ^ 3 / (k * s) ^ 5) with (m * (3 * sqrt 3 / k ^ 5 * / (s * s))) by (field; lra). apply Rmult_le_compat_l; [exact M0|]. unfold Ka. fold k. apply Rmult_le_compat_l; [apply div_nonneg; [pose proof (sqrt_pos 3); lra|apply pow_lt, Th2]|].
  pose proof (side_pos size (Z.of_nat h) Hsize) as P'.
  assert (L : side size (Z.of_nat h) <= s). { unfold s, i. rewrite idx_level. pose proof (HSh c Sc) as L. rewrite (side_down size (Z.of_nat (length c)) (Z.of_nat h - Z.of_nat (length c))) by lia. replace (Z.of_nat (length c) + (Z.of_nat h - Z.of_nat (length c)))%Z with (Z.of_nat h) by lia.
    assert (O : 1 <= IZR (2 ^ (Z.of_nat h - Z.of_nat (length c)))) by (apply IZR_le; assert (0 < 2 ^ (Z.of_nat h - Z.of_nat (length c)))%Z by (apply Z.pow_pos_nonneg; lia); lia). nra. }
  apply Rinv_le_contravar; [nra|]. nra.
Qed.

Lemma acc_bh_ok q : stop q -> exists vs, val (tgt q, Parts) = FVals vs /\ all_near near_field (info S) (total_charge (info S) * Ka) (records T q) vs.
Proof.
  intros R.
  assert (Cover : forall s, leaf_at S s -> exists e, In e (LinkSpec.into (tgt q, Parts) E) /\ QB S e s).
  { intros s Ls. destruct (Hone s q Ls R) as (es & (C & _) & _). destruct (Hroute s q es C) as [-> |(c & ups & Pc & _ & ->)].
    - destruct (chain_last E [] _ _ _ C) as [I Et]. exists (mkEdge StoT (src s, Parts) (tgt q, Parts)). split; [apply into_in; auto|]. split; [exact Ls|reflexivity].
    - rewrite app_comm_cons in C. destruct (chain_last E _ _ _ _ C) as [I Et]. exists (mkEdge MtoT (src c, Normal) (tgt q, Parts)). split; [apply into_in; auto|]. split; [exact Ls|exact Pc]. }
  rewrite (Sv (tgt q, Parts)). cbn [is_source tgt]. set (g := fun e => acc_edge (records T) e (val (efrom e))).
  destruct (fsum_ex add3 (@FVals _) g (fun ls vs => all_near near_field (flat_map chg ls) (total_charge (flat_map chg ls) * Ka) (records T q) vs) (QB S)) with (es := LinkSpec.into (tgt q, Parts) E) as (ls & vs & Ep & Pp & Np & Ip).
  - intros l1 l2 a b H1 H2. destruct (near_fadd add3 near_field near_field_add _ _ _ _ _ _ _ H1 H2) as (c & Ec & Cc). exists c. split; [exact Ec|]. rewrite flat_map_app, PotProofs.total_app, Rmult_plus_distr_r. exact Cc.
  - apply into_nodup, NE.
  - destruct (has_leaf S) as [s Ls]. destruct (Cover s Ls) as (e & I & _). intros Z. rewrite Z in I. exact I.
  - intros e J. apply into_in in J. destruct J as [J Et]. destruct (Hto q e J Et) as (c & Sc & [[-> Ac]|[-> Lc]]).
    + destruct (acc_up_ok (Datatypes.S fuel) c ltac:(lia) Sc) as (ls & M & EM & UM & NM & IM). exists ls. unfold g. cbn [efrom]. rewrite EM. unfold acc_edge. cbn [eop efrom eto fst snd src tgt].
      edestruct (for_targets_ok near_field) as (vs & Ea & Ca); [intros t It; exact (acc_mtt c q t ls M Sc Ac It UM (fun s I => proj1 (IM s) I))|]. exists vs. split; [exact Ea|]. split; [exact Ca|]. split; [exact NM|]. exact IM.
    + exists [c]. unfold g. cbn [efrom]. rewrite (Sv (src c, Parts)). cbn [is_source src]. unfold field_leaf, acc_edge. cbn [eop efrom eto fst snd src tgt].
      destruct (for_targets_ok near_field (acc_kernel (chg c)) (flat_map chg [c]) (total_charge (flat_map chg [c]) * Ka) (records T q)) as (vs & Ea & Ca).
      * intros t It. cbn [flat_map]. rewrite app_nil_r. destruct (acc_kernel_ok (chg c) t) as (v & Ev & Bv). exists v. split; [exact Ev|]. unfold near_field in *. eapply Rle_trans; [exact Bv|]. apply Rmult_le_pos; [apply total_nonneg|apply Ka_nonneg].
      * exists vs. split; [exact Ea|]. split; [exact Ca|]. split; [constructor; [intros []|constructor]|]. intros s. unfold QB. cbn [eop efrom fst snd src In]. split; [intros [<-|[]]; auto|]. intros [_ ->]. auto.
  - intros e1 e2 s J1 J2 Q1 Q2. apply into_in in J1. apply into_in in J2. destruct J1 as [J1 E1], J2 as [J2 E2]. assert (Ls : leaf_at S s) by (unfold QB in Q1; destruct (eop e1); apply Q1).
    destruct (route_ok S accept E Hup Hto q e1 s J1 E1 Q1) as (es1 & C1). destruct (route_ok S accept E Hup Hto q e2 s J2 E2 Q2) as (es2 & C2). destruct (Hone s q Ls R) as (es & _ & U). pose proof (U _ C1) as A1. pose proof (U _ C2) as A2. rewrite A1 in A2. apply app_inj_tail in A2. apply A2.
  - exists vs. split; [exact Ep|]. assert (Pm : Permutation (flat_map chg ls) (info S)).
    { apply leaves_permute; [exact Hg|exact Np|]. intros s. rewrite Ip. split.
      - intros (e & J & Q). unfold QB in Q. destruct (eop e); apply Q.
      - apply Cover. }
    rewrite (total_perm _ _ Pm) in Pp. eapply (all_near_perm near_field near_field_perm); eassumption.
Qed.
End BH.
