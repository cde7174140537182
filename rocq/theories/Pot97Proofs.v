(** The values at the nodes of the DAG of the FMM97 method. *)
From Coq Require Import Reals ZArith List Bool Arith Lia Lra Psatz Permutation.
From Verif Require Import Base ListFacts IndexModel IndexSpec GeomModel GridProofs TreeModel TreeFacts LookupModel DagModel DagSpec DagProofs MethodModel MethodTasks FmmProofs LinkSpec ListsSpec ListsProofs ListsCount EvalModel EvalSpec EvalProofs LapModel LapSpec LapArrays LapProofs LapProps TranModel TranTable TranSpec TranProofs TranProps MergeShiftModel MergeShiftSpec WaveModel WaveSpec WaveChain WaveProps PotModel PotSpec PotFacts PotBoxes PotUp PotProofs PotProps Pot97Model Pot97Spec Pot97Facts Pot97Waves.
Import ListNotations.
Open Scope R_scope.

Lemma single {X} (a : X) l : NoDup l -> (forall x, In x l <-> x = a) -> l = [a].
Proof.
  intros N H. destruct l as [|x l]; [exfalso; apply (proj2 (H a) eq_refl)|]. assert (x = a) by (apply H; left; reflexivity). subst x. destruct l as [|y l]; [reflexivity|]. exfalso. inversion N as [|? ? Ni _]; subst. assert (y = a) by (apply H; right; left; reflexivity). subst y. apply Ni. left. reflexivity.
Qed.

(** ** truncation at the distance of a box that is not touched *)
Definition eps_s (tb : table) : R := (sqrt 3 / 2 / (3 / 2)) ^ S (tb_p tb) / (3 / 2 - sqrt 3 / 2).
Lemma eps_s_nonneg tb : 0 <= eps_s tb.
Proof. unfold eps_s. pose proof sqrt3_lt. apply Rmult_le_pos; [apply pow_le; lra|left; apply Rinv_0_lt_compat; lra]. Qed.
Lemma eps_s_bound tb s r d : 0 < s -> 0 <= r <= sqrt 3 / 2 * s -> 3 / 2 * s <= d -> / (d - r) * (r / d) ^ S (tb_p tb) <= eps_s tb / s.
Proof.
  intros P Hr Hd. pose proof sqrt3_lt as S3. apply Rle_trans with (/ (3 / 2 * s - sqrt 3 / 2 * s) * (sqrt 3 / 2 / (3 / 2)) ^ S (tb_p tb)).
  - apply Rmult_le_compat; [left; apply Rinv_0_lt_compat; nra|apply pow_le; apply Rmult_le_pos; [lra|left; apply Rinv_0_lt_compat; nra]|apply Rinv_le_contravar; nra|].
    apply pow_incr. split; [apply Rmult_le_pos; [lra|left; apply Rinv_0_lt_compat; nra]|]. assert (D : 0 < d) by nra. apply Rmult_le_reg_r with d; [exact D|]. unfold Rdiv at 1. rewrite Rmult_assoc, Rinv_l by lra. assert (A : sqrt 3 / 2 / (3 / 2) * (3 / 2 * s) <= sqrt 3 / 2 / (3 / 2) * d) by (apply Rmult_le_compat_l; lra). lra.
  - right. unfold eps_s. field. split; [lra|]. split; nra.
Qed.

Section Fmm97.
Context (n : nat) (tb : table) (wt : wtab) (Et : laplace_table n = Ok tb) (Ew : wave_table n = Ok wt).
Context (corner : pt) (size : R) (Hsize : 0 < size) (HS : sound tb) (Etb : table_of_order (tb_p tb) = Ok tb).
Context (eps : R) (Hacc : accurate (w_q wt) (tb_p tb) eps).
Context (S : tree (list charge)) (T : tree (list pt)) (unif fuel h : nat) (same : bool) (HU : usable unif fuel S T).
Context (HSb : boxed cpos corner size S) (HTb : boxed (fun x => x) corner size T) (Hg : gathered S) (HgT : gathered T).
Context (HSp : forall s, In s (info S) -> plain corner size S T (cpos s)) (HTp : forall q t, In t (records T q) -> plain corner size S T t).
Context (HSh : levels h S) (HTh : levels h T).
Context (E : list edge) (NE : NoDup E) (HE : forall e, In e E <-> fmm97_edge unif same S T e).
Context (Hfed : forall e, In e E -> is_source (efrom e) = false -> LinkSpec.into (efrom e) E <> []).
Context (val : dnode -> value97) (Sv : solves zero97 add97 (edge_value97 tb wt corner size (records T)) (leaf_value97 S) E val).
Notation chg := (records S).
Notation reach := (reached unif same S T).
Notation S8 := (S8 S T unif fuel HU).
Notation T8 := (T8 S T unif fuel HU).
Notation leaf_8 := (leaf_8 S T unif fuel HU).
Notation into := LinkSpec.into.
Notation reached_prefix := (reached_prefix corner size S T unif same HTp).

(** The error that one unit of charge can cause. *)
Definition K97 : R := Rmax eps (eps_s tb) / side size (Z.of_nat h).
Lemma max_nonneg : 0 <= Rmax eps (eps_s tb).
Proof. eapply Rle_trans; [apply (eps_s_nonneg tb)|apply Rmax_r]. Qed.
Lemma K97_nonneg : 0 <= K97.
Proof. apply Rmult_le_pos; [apply max_nonneg|left; apply Rinv_0_lt_compat, side_pos, Hsize]. Qed.
Lemma K97_bound c : (length c <= h)%nat -> Rmax eps (eps_s tb) / side size (ilevel (idx_of c)) <= K97.
Proof.
  intros L. unfold K97. apply Rmult_le_compat_l; [apply max_nonneg|]. apply Rinv_le_contravar; [apply side_pos, Hsize|]. rewrite idx_level. rewrite (side_down size (Z.of_nat (length c)) (Z.of_nat h - Z.of_nat (length c))) by lia. replace (Z.of_nat (length c) + (Z.of_nat h - Z.of_nat (length c)))%Z with (Z.of_nat h) by lia.
  pose proof (side_pos size (Z.of_nat h) Hsize) as P. assert (O : 1 <= IZR (2 ^ (Z.of_nat h - Z.of_nat (length c)))) by (apply IZR_le; assert (0 < 2 ^ (Z.of_nat h - Z.of_nat (length c)))%Z by (apply Z.pow_pos_nonneg; lia); lia). nra.
Qed.
Lemma K97_eps c x : (length c <= h)%nat -> x <= Rmax eps (eps_s tb) -> x / side size (ilevel (idx_of c)) <= K97.
Proof.
  intros L H. eapply Rle_trans; [|apply (K97_bound c L)]. apply Rmult_le_compat_r; [left; apply Rinv_0_lt_compat, side_pos, Hsize|exact H].
Qed.

(** ** the multipole expansions *)
Lemma v_source c : val (src c, Parts) = Plain (Sources (chg c)).
Proof. rewrite (Sv (src c, Parts)). reflexivity. Qed.
Lemma plain_sum v (es : list edge) : is_source v = false -> into v E = es -> (forall e, In e es -> eop e <> MtoI /\ eop e <> ItoI /\ eop e <> ItoL) ->
  val v = Plain (sum value_zero value_add (map (fun e => edge_value tb corner size (records T) e (flat (val (efrom e)))) es)).
Proof.
  intros Hv Hi H. rewrite (Sv v), Hv, Hi. rewrite <- sum_plain. f_equal. apply map_ext_in. intros e I. destruct (H e I) as (A & B & C). unfold edge_value97. destruct (eop e); try contradiction; reflexivity.
Qed.
Lemma v_multi c : val (src c, Normal) = Plain (sum value_zero value_add (map (fun e => edge_value tb corner size (records T) e (flat (val (efrom e)))) (into (src c, Normal) E))).
Proof.
  apply plain_sum; [reflexivity|reflexivity|]. intros e I. apply into_in in I. destruct I as [I Ee]. apply HE in I. destruct I; cbn [eto] in Ee; try discriminate Ee; cbn [eop]; repeat split; discriminate.
Qed.
Lemma up97 c : sub S c <> None -> (2 <= length c)%nat ->
  exists ls M, val (src c, Normal) = Plain (Array M) /\ upward tb corner size (idx_of c) (flat_map chg ls) M /\ NoDup ls /\ forall s, In s ls <-> leaf_at S s /\ prefix c s.
Proof.
  intros Sc Lc. destruct HU as (S8' & _ & Sl & _).
  assert (He : forall d e, sub S d <> None -> (2 <= length d)%nat -> (In e E /\ eto e = (src d, Normal) <-> leaf_at S d /\ e = mkEdge StoM (src d, Parts) (src d, Normal) \/ exists w, sub S (d ++ [w]) <> None /\ e = mkEdge MtoM (src (d ++ [w]), Normal) (src d, Normal))).
  { intros d e Sd Ld. split.
    - intros [I Ee]. apply HE in I. destruct I; cbn [eto] in Ee; try discriminate Ee; injection Ee as Ed; subst d; [left; auto|right; eauto].
    - intros [[Lf ->]|(w & Sw & ->)]; (split; [apply HE|reflexivity]); constructor; assumption. }
  destruct (up_ok corner size Hsize tb HS Etb S T fuel S8' Sl HSb HSp Hg E NE (records T) (fun v => flat (val v)) (fun c => f_equal flat (v_source c)) (fun c => f_equal flat (v_multi c)) 2 He (Datatypes.S fuel) c) as (ls & M & EM & R); [lia|exact Sc|exact Lc|].
  exists ls, M. split; [|exact R]. rewrite v_multi in EM |- *. cbn [flat] in EM. f_equal. exact EM.
Qed.
Lemma mtt97 c q t ls M : sub S c <> None -> (length q <= length c)%nat -> ~ near c q -> In t (records T q) ->
  upward tb corner size (idx_of c) (flat_map chg ls) M -> (forall s, In s ls -> leaf_at S s /\ prefix c s) ->
  exists v, M_to_T (tb_p tb) (tb_sqf tb) (level_scale size (ilevel (idx_of c))) (box_center corner size (idx_of c)) M t 0 = Ok v /\
    Rabs (v - potential (flat_map chg ls) t) <= total_charge (flat_map chg ls) * K97.
Proof.
  intros Sc Lq F It UM IM. pose proof (clear_far corner size c q t Hsize Lq F (target_inside corner size T HTb q t It)) as Far. pose proof (radius_lt size Hsize (idx_of c)) as Rl.
  destruct (up_value corner size Hsize tb HS (idx_of c) _ M t 0 UM ltac:(lra)) as (v & Ev & Bv). rewrite Rplus_0_l in Ev. exists v. split; [exact Ev|].
  rewrite (regular_rounded (middle corner size (idx_of c)) t) in Bv by (apply (HTp q t It); left; exact Sc). rewrite <- potential_far in Bv.
  - eapply Rle_trans; [exact Bv|]. unfold Rdiv at 1. rewrite Rmult_assoc. apply Rmult_le_compat_l; [apply PotProofs.total_nonneg|]. eapply Rle_trans; [apply (eps_s_bound tb (side size (ilevel (idx_of c))))|].
    + apply side_pos, Hsize.
    + unfold radius. split; [|lra]. pose proof (side_pos size (ilevel (idx_of c)) Hsize). pose proof sqrt3_lt. nra.
    + exact Far.
    + apply K97_eps; [apply HSh, Sc|apply Rmax_r].
  - intros x J Ex. apply in_flat_map in J. destruct J as (s & Js & J). destruct (IM s Js) as [_ Ps]. pose proof (records_below S c s x Hg Ps J) as Jc. pose proof (inside_radius corner size (idx_of c) (cpos x) Hsize (chg_inside corner size S HSb x c Jc)) as D. rewrite Ex in D. lra.
Qed.

(** ** the intermediate expansions of the source boxes *)
Lemma source_views c : sub S c <> None -> (2 <= length c)%nat ->
  exists ls M, val (src c, Interm) = of_views (M_to_I tb wt M) /\ upward tb corner size (idx_of c) (flat_map chg ls) M /\ NoDup ls /\ forall s, In s ls <-> leaf_at S s /\ prefix c s.
Proof.
  intros Sc Lc. destruct (up97 c Sc Lc) as (ls & M & EM & R). exists ls, M. split; [|exact R].
  rewrite (Sv (src c, Interm)). cbn [is_source src]. rewrite (single (mkEdge MtoI (src c, Normal) (src c, Interm)) (into (src c, Interm) E) (into_nodup E NE _)).
  - cbn [map efrom]. change (add97 (edge_value97 tb wt corner size (records T) (mkEdge MtoI (src c, Normal) (src c, Interm)) (val (src c, Normal))) zero97 = of_views (M_to_I tb wt M)). rewrite zero_right, EM. reflexivity.
  - intros e. rewrite into_in, HE. split.
    + intros [I Ee]. destruct I; cbn [eto] in Ee; try discriminate Ee. injection Ee as ->. reflexivity.
    + intros ->. split; [|reflexivity]. constructor; assumption.
Qed.

(** ** the intermediate expansions of the target boxes *)
Lemma I_level q c : list_I S q c -> (2 <= length c)%nat.
Proof. intros (_ & L & L1 & _). lia. Qed.
Lemma parent_len97 (p : path) : length (parent_of p) = (length p - 1)%nat.
Proof. destruct p as [|w p _] using rev_ind; [reflexivity|]. rewrite parent_snoc, app_length. cbn [length]. lia. Qed.
Lemma I_near q c : sub T q <> None -> list_I S q c -> near_child (idx_of q) (idx_of c) /\ ilevel (idx_of c) = (ilevel (idx_of q) + 1)%Z.
Proof.
  intros Sq (Sc & L & L1 & N & _). split; [|rewrite !idx_level, L; lia]. intros a. assert (Nc : c <> []) by (intros ->; discriminate). pose proof (parent_coord c a (S8 c Sc) Nc) as Pc.
  destruct (N a) as [P1 P2]. rewrite !idx_level in P1, P2. rewrite parent_len97, L in P1, P2. replace (Datatypes.S (length q) - 1)%nat with (length q) in P1, P2 by lia.
  set (k := (2 ^ Z.of_nat (length q))%Z) in *. assert (K : (0 < k)%Z) by (apply Z.pow_pos_nonneg; lia). apply Z.mul_le_mono_pos_r in P1; [|exact K]. apply Z.mul_le_mono_pos_r in P2; [|exact K].
  assert (D : (icoord a (idx_of c) / 2 = icoord a (idx_of (parent_of c)))%Z) by (symmetry; apply Z.div_unique with (icoord a (idx_of c) - 2 * icoord a (idx_of (parent_of c)))%Z; lia). rewrite D. lia.
Qed.
Definition boxes_of (cs : list path) (g : list (index * list charge)) : Prop :=
  Forall2 (fun c b => fst b = idx_of c /\ exists ls, snd b = flat_map chg ls /\ NoDup ls /\ forall s, In s ls <-> leaf_at S s /\ prefix c s) cs g.
Lemma views_sum q : sub T q <> None -> forall cs, (forall c, In c cs -> list_I S q c) ->
  exists g V, boxes_of cs g /\ merged tb wt corner size (idx_of q) (rev g) V /\ shaped (q_nexp (w_q wt)) V /\
    (sum zero97 add97 (map (fun c => edge_value97 tb wt corner size (records T) (mkEdge ItoI (src c, Interm) (tgt q, Interm)) (val (src c, Interm))) cs) = if match cs with [] => true | _ => false end then zero97 else Views V) /\
    (cs = [] -> V = no_views wt).
Proof.
  intros Sq. induction cs as [|c cs IH]; intros H.
  - exists [], (no_views wt). split; [constructor|]. split; [apply mg_new|]. split; [apply no_views_shaped|]. split; reflexivity.
  - destruct IH as (g & V & B & M & Sh & Es & En); [intros; apply H; right; assumption|]. pose proof (H c (or_introl eq_refl)) as Hc. pose proof Hc as (Sc & _).
    destruct (source_views c Sc (I_level q c Hc)) as (ls & A & Ev & UA & NA & IA). destruct (I_near q c Sq Hc) as [Nc Lv].
    destruct (views_new n tb wt Et Ew corner size Hsize (idx_of q) (idx_of c) _ A Nc UA) as (views & new & E1 & E2 & Hn).
    destruct (add_views_later _ new Hn V (no_views wt) Sh (no_views_shaped _)) as (Z & EZ & HZ & EV). rewrite (vadd_comm V (no_views wt)), (vadd_zeros _ V Sh : vadd (no_views wt) V = V) in EV.
    exists ((idx_of c, flat_map chg ls) :: g), (vadd V Z). split; [|split; [|split; [|split; [|discriminate]]]].
    + constructor; [|exact B]. split; [reflexivity|]. exists ls. auto.
    + cbn [rev]. eapply mg_add; try eassumption.
    + destruct (add_views_later _ new Hn (no_views wt) V (no_views_shaped _) Sh) as (Z' & EZ' & HZ' & _). rewrite EV in EZ'. injection EZ' as <-. exact HZ'.
    + cbn [map]. assert (X : edge_value97 tb wt corner size (records T) (mkEdge ItoI (src c, Interm) (tgt q, Interm)) (val (src c, Interm)) = Views Z).
      { rewrite Ev, E1. unfold edge_value97. cbn [eop of_views efrom eto src tgt fst snd]. rewrite E2. cbn [bind]. rewrite EZ. reflexivity. }
      rewrite X. set (rest := sum zero97 add97 _) in Es |- *. change (add97 (Views Z) rest = Views (vadd V Z)). rewrite Es. destruct cs as [|c' cs]; [rewrite zero_right, (En eq_refl); rewrite (vadd_zeros _ Z HZ : vadd (no_views wt) Z = Z); reflexivity|]. rewrite add97_vv, vadd_comm. reflexivity.
Qed.
Lemma target_views q c0 : divided unif same S T q -> list_I S q c0 ->
  exists cs g V, NoDup cs /\ (forall c, In c cs <-> list_I S q c) /\ boxes_of cs g /\ merged tb wt corner size (idx_of q) (rev g) V /\ val (tgt q, Interm) = Views V.
Proof.
  intros Dq H0. pose proof Dq as [[Sq _] _]. set (es := into (tgt q, Interm) E). set (from := fun e : edge => snd (fst (efrom e))).
  assert (He : forall e, In e es <-> exists c, list_I S q c /\ e = mkEdge ItoI (src c, Interm) (tgt q, Interm)).
  { intros e. unfold es. rewrite into_in, HE. split.
    - intros [I Ee]. destruct I; cbn [eto] in Ee; try discriminate Ee. injection Ee as <-. eauto.
    - intros (c & Hc & ->). split; [|reflexivity]. constructor; assumption. }
  assert (Em : map (fun c => mkEdge ItoI (src c, Interm) (tgt q, Interm)) (map from es) = es).
  { rewrite map_map. etransitivity; [|apply map_id]. apply map_ext_in. intros e I. apply He in I. destruct I as (c & _ & ->). reflexivity. }
  assert (Hc : forall c, In c (map from es) <-> list_I S q c).
  { intros c. rewrite in_map_iff. split.
    - intros (e & <- & I). apply He in I. destruct I as (c & Hc & ->). exact Hc.
    - intros Hc. exists (mkEdge ItoI (src c, Interm) (tgt q, Interm)). split; [reflexivity|]. apply He. eauto. }
  destruct (views_sum q Sq (map from es) (fun c => proj1 (Hc c))) as (g & V & B & M & _ & Es & _). exists (map from es), g, V. split; [|split; [exact Hc|split; [exact B|split; [exact M|]]]].
  - assert (N : NoDup (map (fun c => mkEdge ItoI (src c, Interm) (tgt q, Interm)) (map from es))) by (rewrite Em; apply (into_nodup E NE)). eapply NoDup_map_inv, N.
  - rewrite (Sv (tgt q, Interm)). cbn [is_source tgt]. fold es. rewrite <- Em at 1. rewrite map_map. cbn [efrom].
    apply Hc in H0. destruct (map from es) as [|c1 cs1]; [destruct H0|]. exact Es.
Qed.

(** ** the local expansions *)
Definition gives (p : path) (ls : list path) (L : list cplx) : Prop :=
  expansion (tb_p tb) L /\ forall t, In t (records T p) -> exists v, L_to_T (tb_p tb) (tb_sqf tb) (level_scale size (ilevel (idx_of p))) (box_center corner size (idx_of p)) L t 0 = Ok v /\
    Rabs (v - potential (flat_map chg ls) t) <= total_charge (flat_map chg ls) * K97.
Lemma in_sub q (t : pt) : In t (records T q) -> sub T q <> None.
Proof. unfold records. destruct (sub T q); [discriminate|intros []]. Qed.
Lemma gives_padd p l1 l2 a b : gives p l1 a -> gives p l2 b -> gives p (l1 ++ l2) (padd a b).
Proof.
  intros [X1 H1] [X2 H2]. split; [apply padd_expansion; assumption|]. intros t It. destruct (H1 t It) as (v1 & E1 & B1), (H2 t It) as (v2 & E2 & B2). exists (v1 + v2). split.
  - apply (padd_value n tb wt Et Ew corner size Hsize); try assumption. apply regular_ne. apply (HTp p t It). right. eapply in_sub, It.
  - rewrite flat_map_app, potential_app, PotProofs.total_app, Rmult_plus_distr_r. replace (v1 + v2 - (potential (flat_map chg l1) t + potential (flat_map chg l2) t)) with ((v1 - potential (flat_map chg l1) t) + (v2 - potential (flat_map chg l2) t)) by ring. eapply Rle_trans; [apply Rabs_triang|]. lra.
Qed.

Inductive into_L (p : path) : edge -> Prop :=
| il_i c : list_I S (parent_of p) c -> into_L p (mkEdge ItoL (tgt (parent_of p), Interm) (tgt p, Normal))
| il_x c : list_X S p c -> into_L p (mkEdge StoL (src c, Parts) (tgt p, Normal))
| il_p : (3 <= length p)%nat -> into_L p (mkEdge LtoL (tgt (parent_of p), Normal) (tgt p, Normal)).
Lemma into_L_iff p e : reach p -> p <> [] -> (In e (into (tgt p, Normal) E) <-> into_L p e).
Proof.
  intros R Np. rewrite into_in, HE. split.
  - intros [I Ee]. destruct I; cbn [eto] in Ee; try discriminate Ee; injection Ee as Ed; subst p.
    + replace (tgt p0) with (tgt (parent_of (p0 ++ [w]))) by (rewrite parent_snoc; reflexivity). apply (il_i (p0 ++ [w]) c). rewrite parent_snoc. assumption.
    + econstructor; eassumption.
    + replace (tgt p0) with (tgt (parent_of (p0 ++ [w]))) by (rewrite parent_snoc; reflexivity). constructor. rewrite app_length. cbn [length]. lia.
  - intros I. split; [|destruct I; reflexivity]. destruct (snoc_parent p Np) as [w Ew']. destruct I as [c V|c X|L].
    + rewrite Ew'. rewrite parent_snoc. econstructor; [rewrite <- Ew'; exact R|exact V].
    + constructor; assumption.
    + rewrite Ew'. rewrite parent_snoc. constructor; [rewrite <- Ew'; exact R|]. rewrite parent_len97. lia.
Qed.
Definition QL (p : path) (e : edge) (s : path) : Prop :=
  match eop e with
  | ItoL => leaf_at S s /\ exists c, list_V S p c /\ prefix c s
  | StoL => s = snd (fst (efrom e))
  | _ => leaf_at S s /\ ~ near (firstn (length (parent_of p)) s) (parent_of p)
  end.

(** Boxes of one level touch or are apart. *)
Lemma apart_near c p : length c = length p -> (apart (idx_of c) (idx_of p) <-> ~ near c p).
Proof. intros L. rewrite <- (near_well_sep c p L), <- DagSound.well_sep_apart. destruct (well_sep _ _); split; congruence. Qed.
Lemma I_V p c : p <> [] -> (list_I S (parent_of p) c /\ ~ near c p -> list_V S p c).
Proof.
  intros Np [(Sc & L & _ & N & _) F]. split; [exact Sc|]. split; [|auto]. rewrite L, parent_len97. destruct p; [contradiction|]. cbn [length]. lia.
Qed.
Lemma V_I p c : sub T p <> None -> list_V S p c -> list_I S (parent_of p) c.
Proof.
  intros Sp V. pose proof (V_coarse corner size S T unif fuel HU HTp p c Sp V) as L2. destruct V as (Sc & L & F & N). split; [exact Sc|]. rewrite parent_len97. split; [lia|]. split; [lia|]. split; [exact N|].
  intros Ep. apply F. assert (Nc : c <> []) by (intros ->; cbn in L; lia). assert (Np : p <> []) by (intros ->; cbn in L2; lia).
  intros a. pose proof (parent_coord c a (S8 c Sc) Nc). pose proof (parent_coord p a (T8 p Sp) Np). rewrite Ep in *. rewrite !idx_level, L. split; apply Z.mul_le_mono_nonneg_r; [apply Z.pow_nonneg; lia|lia|apply Z.pow_nonneg; lia|lia].
Qed.

Lemma afar_leaves p : sub T p <> None -> p <> [] -> forall cs g, NoDup cs -> (forall c, In c cs -> list_I S (parent_of p) c) -> boxes_of cs g ->
  exists ls, afar (idx_of p) g = flat_map chg ls /\ NoDup ls /\ forall s, In s ls <-> leaf_at S s /\ exists c, In c cs /\ ~ near c p /\ prefix c s.
Proof.
  intros Sp Np cs g N H B. revert N H. induction B as [|c [i l] cs g [Ei (ls & El & Nl & Il)] B IH]; intros N H.
  - exists []. split; [reflexivity|]. split; [constructor|]. intros s. split; [intros []|]. intros (_ & c & [] & _).
  - cbn [fst snd] in Ei, El. subst i l. inversion N as [|? ? Ni Nc]; subst. destruct (IH Nc (fun c' I => H c' (or_intror I))) as (ls' & E' & N' & I'). clear IH.
    assert (Lc : forall c', In c' (c :: cs) -> length c' = length p) by (intros c' I; destruct (H c' I) as (_ & L & _); rewrite L, parent_len97; destruct p; [contradiction|]; cbn [length]; lia).
    unfold afar in E' |- *. cbn [flat_map fst snd]. rewrite E'. destruct (_ || _ || _)%bool eqn:Eb.
    + apply afarb in Eb. apply (apart_near c p (Lc c (or_introl eq_refl))) in Eb. exists (ls ++ ls'). split; [rewrite flat_map_app; reflexivity|]. split.
      * apply nodup_join; [exact Nl|exact N'|]. intros s J J'. apply Il in J. apply I' in J'. destruct J as [_ P], J' as (_ & c' & I & _ & P'). apply Ni. rewrite (prefix_eq c c' s P P'); [exact I|]. transitivity (length p); [apply Lc; left; reflexivity|symmetry; apply Lc; right; exact I].
      * intros s. rewrite in_app_iff, Il, I'. split.
        -- intros [[Ls P]|(Ls & c' & I & R)]; (split; [exact Ls|]); [exists c; split; [left; reflexivity|auto]|exists c'; split; [right; exact I|exact R]].
        -- intros (Ls & c' & [<-|I] & F & P); [left; auto|right; split; [exact Ls|eauto]].
    + exists ls'. split; [reflexivity|]. split; [exact N'|]. intros s. rewrite I'. split; intros (Ls & c' & I & F & P); (split; [exact Ls|]).
      * exists c'. split; [right; exact I|auto].
      * destruct I as [<-|I]; [|eauto]. exfalso. apply (apart_near c p (Lc c (or_introl eq_refl))), afarb in F. congruence.
Qed.
Lemma boxes_in cs g i l : boxes_of cs g -> In (i, l) g -> exists c ls, In c cs /\ i = idx_of c /\ l = flat_map chg ls /\ forall s, In s ls <-> leaf_at S s /\ prefix c s.
Proof.
  induction 1 as [|c b cs g [Ei (ls & El & Nl & Il)] B IH]; intros I; [destruct I|]. destruct I as [->|I]; [cbn [fst snd] in *; exists c, ls; split; [left; reflexivity|auto]|]. destruct (IH I) as (c' & ls' & Ic & R). exists c', ls'. split; [right; exact Ic|exact R].
Qed.
Lemma boxes_rev cs g : boxes_of cs g -> boxes_of (rev cs) (rev g).
Proof. induction 1 as [|c b cs g H _ IH]; [constructor|]. cbn [rev]. apply Forall2_app; [exact IH|]. constructor; [exact H|constructor]. Qed.

(** What I_to_L brings *)
Lemma itl_ok p c0 : reach p -> (2 <= length p)%nat -> divided unif same S T (parent_of p) -> list_I S (parent_of p) c0 ->
  exists ls L V, val (tgt (parent_of p), Interm) = Views V /\ I_to_L tb wt (level_scale size (ilevel (idx_of (parent_of p)))) (idx_of p) V = Ok L /\ gives p ls L /\ NoDup ls /\ forall s, In s ls <-> leaf_at S s /\ exists c, list_V S p c /\ prefix c s.
Proof.
  intros [Sp _] L2 Dq H0. assert (Np : p <> []) by (intros ->; cbn in L2; lia). destruct (snoc_parent p Np) as [w Ew']. pose proof (T8 p Sp) as P8.
  destruct (target_views (parent_of p) c0 Dq H0) as (cs & g & V & Ncs & Ics & B & M & EV). apply boxes_rev in B.
  assert (Ics' : forall c, In c (rev cs) <-> list_I S (parent_of p) c) by (intros c; rewrite <- in_rev; apply Ics).
  destruct (afar_leaves p Sp Np (rev cs) (rev g) (NoDup_rev Ncs) (fun c => proj1 (Ics' c)) B) as (ls & Ea & Nls & Ils).
  assert (W8 : (w < 8)%nat) by (rewrite Ew' in P8; apply Forall_app in P8; destruct P8 as [_ Fw]; inversion Fw; assumption).
  assert (Ei : idx_of p = child (Z.of_nat w) (idx_of (parent_of p))) by (rewrite <- idx_snoc, <- Ew'; reflexivity).
  assert (Hc : child_of (idx_of (parent_of p)) (idx_of p)).
  { intros a. pose proof (parent_coord p a P8 Np) as Pc. destruct (follow_facts (parent_of p) root_index root_grid) as ((_ & C1 & C2 & C3) & _); [eapply T8, sub_prefix; [apply parent_prefix|exact Sp]|]. fold (idx_of (parent_of p)) in *.
    assert (0 <= icoord a (idx_of (parent_of p)))%Z by (destruct a; cbn [icoord]; lia). split; [lia|]. symmetry. apply Z.div_unique with (icoord a (idx_of p) - 2 * icoord a (idx_of (parent_of p)))%Z; lia. }
  assert (Hl : ilevel (idx_of p) = (ilevel (idx_of (parent_of p)) + 1)%Z) by (rewrite !idx_level, parent_len97; lia).
  destruct (C71_chain n tb wt corner size _ _ V _ Et Ew Hsize M Hc Hl) as (L & _ & EL & XL & _). exists ls, L, V. split; [exact EV|]. split; [exact EL|]. split; [|split; [exact Nls|]].
  - split; [exact XL|]. intros t It. assert (Rg : regular (middle corner size (idx_of p)) t) by (apply (HTp p t It); right; exact Sp). pose proof (target_inside corner size T HTb p t It) as Ins.
    destruct (C71_accuracy n tb wt corner size _ _ V _ eps t Et Ew Hsize M Hc Hl Rg) as (L' & EL' & HL).
    + intros i l c d v Hin Hcl Hd Har. destruct (boxes_in _ _ _ _ B Hin) as (c' & ls' & Ic & -> & -> & Il). apply Ics' in Ic. destruct (I_near _ _ ltac:(eapply sub_prefix; [apply parent_prefix|exact Sp]) Ic) as [Nc Lv].
      assert (G : forall a, (Z.abs (icoord a (idx_of c') - icoord a (idx_of p)) <= 3)%Z).
      { intros a. specialize (Nc a). destruct (Hc a) as [_ Ha]. pose proof (Z.div_mod (icoord a (idx_of c')) 2 ltac:(lia)). pose proof (Z.mod_pos_bound (icoord a (idx_of c')) 2 ltac:(lia)). pose proof (Z.div_mod (icoord a (idx_of p)) 2 ltac:(lia)). pose proof (Z.mod_pos_bound (icoord a (idx_of p)) 2 ltac:(lia)). lia. }
      apply (accurate_arrives (w_q wt) (tb_p tb) eps corner size d (idx_of c') (idx_of p) (cpos c) t v Hsize Hacc ltac:(lia) (G RefineModel.AX) (G RefineModel.AY) (G RefineModel.AZ) Hd); [|exact Ins|exact Har].
      apply in_flat_map in Hcl. destruct Hcl as (s & Js & J). apply Il in Js. destruct Js as [_ Ps]. apply (chg_inside corner size S HSb c c'). apply (records_below S c' s c Hg Ps J).
    + rewrite EL in EL'. injection EL' as <-. destruct (HL 0) as (v & Ev & Bv). rewrite Rplus_0_l in Ev. exists v. split; [exact Ev|]. rewrite Ea in Bv. rewrite potential_far.
      * eapply Rle_trans; [exact Bv|]. rewrite (Rmult_comm eps). unfold Rdiv. rewrite Rmult_assoc. apply Rmult_le_compat_l; [apply PotProofs.total_nonneg|]. apply K97_eps; [apply HTh, Sp|apply Rmax_l].
      * intros x J Ex. apply in_flat_map in J. destruct J as (s & Js & J). apply Ils in Js. destruct Js as (Ls & c & Ic & F & Ps). apply Ics' in Ic. pose proof (I_V p c Np (Logic.conj Ic F)) as (Sc & Lc & _). pose proof (records_below S c s x Hg Ps J) as Jc. pose proof (chg_inside corner size S HSb x _ Jc) as Ic'.
        pose proof (clear_far corner size p c (cpos x) Hsize ltac:(lia) ltac:(intros Y; apply F, near_sym, Y) Ic') as Far. rewrite Ex in Far. pose proof (inside_radius corner size (idx_of p) t Hsize Ins). pose proof (radius_lt size Hsize (idx_of p)). lra.
  - intros s. rewrite Ils. split; intros (Ls & c & Hc').
    + destruct Hc' as (Ic & F & P). split; [exact Ls|]. exists c. split; [|exact P]. apply I_V; [exact Np|]. split; [apply Ics', Ic|exact F].
    + destruct Hc' as (V' & P). split; [exact Ls|]. exists c. split; [apply Ics', V_I; assumption|]. split; [apply V'|exact P].
Qed.
(** What S_to_L brings *)
Lemma stl_ok p c : sub T p <> None -> list_X S p c ->
  exists L, S_to_L (tb_p tb) (tb_sqf tb) (level_scale size (ilevel (idx_of p))) (box_center corner size (idx_of p)) (chg c) = Ok L /\ gives p [c] L.
Proof.
  intros Sp (Lf & Lc & F & N). destruct (C64_total (tb_p tb) tb corner size (g_pos tb HS) Etb Hsize) as (TotS & _).
  assert (Far : forall x, In x (chg c) -> 3 / 2 * side size (ilevel (idx_of p)) <= dist (middle corner size (idx_of p)) (cpos x)) by (intros s J; apply (clear_far corner size p c); [exact Hsize|lia|intros Y; apply F, near_sym, Y|]; eapply chg_inside; eassumption).
  assert (Rgs : forall x, In x (chg c) -> regular (middle corner size (idx_of p)) (cpos x)) by (intros s J; apply (chg_regular corner size S T HSp Hg s c p J); right; exact Sp).
  destruct (TotS (idx_of p) (chg c)) as (L & EL); [intros s J; apply regular_ne, Rgs, J|]. exists L. split; [exact EL|]. split.
  - destruct (dn_inv corner size Hsize tb HS _ _ L (dn_sources tb corner size (idx_of p) (chg c) L Far EL)) as (co & A & B & _). exact (coefs_expansion _ _ _ A B).
  - intros t It. pose proof (inside_radius corner size (idx_of p) t Hsize (target_inside corner size T HTb p t It)) as Din. pose proof (radius_lt size Hsize (idx_of p)) as Rl. assert (Rg : regular (middle corner size (idx_of p)) t) by (apply (HTp p t It); right; exact Sp).
    destruct (C59_local_regular (tb_p tb) (tb_sqf tb) (level_scale size (ilevel (idx_of p))) (box_center corner size (idx_of p)) (chg c) (3 / 2 * side size (ilevel (idx_of p))) t 0 (g_sqf tb HS)) as (L' & v & EL' & Ev & Bv).
    + pose proof (scale_pos size Hsize (ilevel (idx_of p))). lra.
    + rewrite box_center_middle. lra.
    + rewrite box_center_middle. exact Rg.
    + rewrite box_center_middle. intros s J. split; [apply Far, J|apply Rgs, J].
    + rewrite EL in EL'. injection EL' as <-. rewrite Rplus_0_l in Ev. exists v. split; [exact Ev|]. cbn [flat_map]. rewrite app_nil_r. rewrite potential_far by (intros x J Ex; pose proof (Far x J) as Fx; rewrite Ex in Fx; lra).
      eapply Rle_trans; [exact Bv|]. rewrite box_center_middle, Nat.add_1_r. unfold Rdiv at 1. rewrite Rmult_assoc. apply Rmult_le_compat_l; [apply PotProofs.total_nonneg|]. eapply Rle_trans; [apply (eps_s_bound tb (side size (ilevel (idx_of p))))|].
      * apply side_pos, Hsize.
      * unfold radius in Din. split; [unfold dist; apply sqrt_pos|lra].
      * lra.
      * apply K97_eps; [apply HTh, Sp|apply Rmax_r].
Qed.
(** What L_to_L brings *)
Lemma ltl_ok q w ls M : sub T (q ++ [w]) <> None -> (w < 8)%nat -> gives q ls M -> exists L, L_to_L tb w M = Ok L /\ gives (q ++ [w]) ls L.
Proof.
  intros Sp W8 [XM HM]. assert (Sq : sub T q <> None) by (eapply sub_prefix; [|exact Sp]; exists [w]; reflexivity). destruct (C63_exact (tb_p tb) tb corner size (idx_of q) w M (g_pos tb HS) Etb Hsize W8 XM) as (L & EL & XL & HL). exists L. split; [exact EL|]. split; [exact XL|].
  intros t It. assert (Iq : In t (records T q)) by (eapply above; [exact HgT|exists [w]; reflexivity|exact It]). destruct (HM t Iq) as (v & Ev & Bv). exists v. split; [|exact Bv]. rewrite <- idx_snoc in HL.
  destruct (HL t 0) as (v' & E1 & E2); [apply (HTp q t Iq); right; exact Sq|apply (HTp _ t It); right; exact Sp|]. rewrite Ev in E1. injection E1 as <-. rewrite <- E2. f_equal. f_equal. rewrite !idx_level, app_length. cbn [length]. lia.
Qed.

Lemma local_sum v (es : list edge) : is_source v = false -> into v E = es -> (forall e, In e es -> exists x, edge_value97 tb wt corner size (records T) e (val (efrom e)) = Plain x) ->
  val v = Plain (sum value_zero value_add (map (fun e => flat (edge_value97 tb wt corner size (records T) e (val (efrom e)))) es)).
Proof.
  intros Hv Hi H. rewrite (Sv v), Hv, Hi. rewrite <- sum_plain. f_equal. apply map_ext_in. intros e I. destruct (H e I) as (x & Ex). rewrite Ex. reflexivity.
Qed.
Lemma divided_parent p : reach p -> p <> [] -> divided unif same S T (parent_of p).
Proof.
  intros R Np. split; [apply (reached_prefix p); [apply parent_prefix|exact R]|]. destruct R as [_ R]. apply R; [apply parent_prefix|]. intros X. apply (f_equal (@length nat)) in X. rewrite parent_len97 in X. destruct p; [contradiction|]. cbn [length] in X. lia.
Qed.

Lemma dn97_ok : forall k p, length p = k -> reach p -> (2 <= k)%nat -> into (tgt p, Normal) E <> [] ->
  exists ls L, val (tgt p, Normal) = Plain (Array L) /\ gives p ls L /\ NoDup ls /\ forall s, In s ls <-> leaf_at S s /\ ~ near (firstn (length p) s) p.
Proof.
  induction k as [|k IH]; intros p Ln R L2 Ne; [lia|]. pose proof R as [St _]. pose proof (T8 p St) as P8. assert (Np : p <> []) by (intros ->; cbn in Ln; lia). destruct (snoc_parent p Np) as [w Ew'].
  set (g := fun e => flat (edge_value97 tb wt corner size (records T) e (val (efrom e)))).
  assert (One : forall e, In e (into (tgt p, Normal) E) -> exists ls a, edge_value97 tb wt corner size (records T) e (val (efrom e)) = Plain (Array a) /\ gives p ls a /\ NoDup ls /\ forall s, In s ls <-> QL p e s).
  { intros e J. pose proof J as JE. apply (into_L_iff p e R Np) in J. destruct J as [c I|c X|L3].
    - destruct (itl_ok p c R ltac:(lia) (divided_parent p R Np) I) as (ls & L & V & EV & EL & GL & NL & IL). exists ls, L. cbn [efrom]. rewrite EV. unfold edge_value97. cbn [eop efrom eto fst snd src tgt]. rewrite EL. split; [reflexivity|]. split; [exact GL|]. split; [exact NL|]. exact IL.
    - destruct (stl_ok p c St X) as (L & EL & GL). exists [c], L. cbn [efrom]. rewrite (v_source c). unfold edge_value97, edge_value. cbn [eop efrom eto fst snd src tgt flat]. rewrite EL. split; [reflexivity|]. split; [exact GL|]. split; [constructor; [intros []|constructor]|]. intros s. unfold QL. cbn [eop efrom fst snd src In]. intuition congruence.
    - destruct (IH (parent_of p)) as (ls & M & EM & UM & NM & IM).
      + rewrite parent_len97. lia.
      + apply (reached_prefix p); [apply parent_prefix|exact R].
      + lia.
      + apply (Hfed (mkEdge LtoL (tgt (parent_of p), Normal) (tgt p, Normal))); [|reflexivity]. apply into_in in JE. apply JE.
      + assert (Wi : Z.to_nat (which_child (idx_of p)) = w) by (rewrite Ew'; apply which_of; rewrite <- Ew'; exact P8). assert (W8 : (w < 8)%nat) by (rewrite Ew' in P8; apply Forall_app in P8; destruct P8 as [_ Fw]; inversion Fw; assumption).
        destruct (ltl_ok (parent_of p) w ls M ltac:(rewrite <- Ew'; exact St) W8 UM) as (L' & EL' & GL). rewrite <- Ew' in GL. exists ls, L'. cbn [efrom]. rewrite EM. unfold edge_value97, edge_value. cbn [eop efrom eto fst snd src tgt flat]. rewrite Wi, EL'. split; [reflexivity|]. split; [exact GL|]. split; [exact NM|exact IM]. }
  rewrite (local_sum (tgt p, Normal) _ eq_refl eq_refl) by (intros e J; destruct (One e J) as (ls & a & Ea & _); eauto). fold g.
  destruct (sum_ex g (gives p) (QL p) (gives_padd p) (into (tgt p, Normal) E) (into_nodup E NE _) Ne) as (ls & L & EL & DL & NL & IL).
  - intros e J. destruct (One e J) as (ls & a & Ea & R'). exists ls, a. split; [unfold g; rewrite Ea; reflexivity|exact R'].
  - intros e1 e2 s J1 J2 Q1 Q2. apply (into_L_iff p _ R Np) in J1. apply (into_L_iff p _ R Np) in J2. destruct J1 as [c1 V1|c1 X1|L1], J2 as [c2 V2|c2 X2|L2']; unfold QL in Q1, Q2; cbn [eop efrom fst snd src] in Q1, Q2.
    + reflexivity.
    + exfalso. subst s. destruct Q1 as (_ & c & V & [r Er]). destruct V as (_ & A1 & _), X2 as (_ & A2 & _). subst c2. rewrite app_length in A2. lia.
    + exfalso. destruct Q1 as (_ & c & V & P), Q2 as [_ Q2]. apply Q2. eapply (V_parent corner size S T HTp); eassumption.
    + exfalso. subst s. destruct Q2 as (_ & c & V & [r Er]). destruct V as (_ & A1 & _), X1 as (_ & A2 & _). subst c1. rewrite app_length in A2. lia.
    + congruence.
    + exfalso. subst s. destruct Q2 as [_ Q2]. apply Q2. apply (X_parent corner size S T HTp), X1.
    + exfalso. destruct Q2 as (_ & c & V & P), Q1 as [_ Q1]. apply Q1. eapply (V_parent corner size S T HTp); eassumption.
    + exfalso. subst s. destruct Q1 as [_ Q1]. apply Q1. apply (X_parent corner size S T HTp), X2.
    + reflexivity.
  - exists ls, L. split; [f_equal; exact EL|]. split; [exact DL|]. split; [exact NL|]. intros s. rewrite IL. split.
    + intros (e & J & Q). apply (into_L_iff p e R Np) in J. destruct J as [c V|c X|L3]; unfold QL in Q; cbn [eop efrom fst snd src] in Q.
      * destruct Q as (Ls & c' & V' & Ps). split; [exact Ls|]. destruct V' as (_ & Lc & F & _). apply prefix_firstn in Ps. destruct Ps as [_ Ps]. rewrite <- Lc, Ps. exact F.
      * subst s. destruct X as (Lf & Lc & F & _). split; [exact Lf|]. rewrite firstn_all2 by lia. exact F.
      * destruct Q as [Ls F]. split; [exact Ls|]. intros N. apply F. eapply near_both; [|exact P8| |apply parent_prefix|exact N]; [apply firstn_lt8, leaf_8, Ls|]. apply prefix_firstn. rewrite !firstn_length, parent_len97. split; [lia|]. rewrite firstn_firstn. destruct (Nat.le_gt_cases (length s) (length p - 1)) as [A|A].
        -- rewrite !firstn_all2; [reflexivity| |]; lia.
        -- f_equal. lia.
    + intros [Ls F]. destruct (near_dec (firstn (length (parent_of p)) s) (parent_of p)) as [N|N].
      * destruct (Nat.le_gt_cases (length p) (length s)) as [A|A].
        -- assert (Lp : length (firstn (length p) s) = length p) by (rewrite firstn_length; lia).
           assert (V : list_V S p (firstn (length p) s)) by (split; [eapply sub_prefix; [apply firstn_prefix|apply leaf_sub, Ls]|]; split; [exact Lp|]; split; [exact F|]; rewrite (parent_firstn _ s (firstn_prefix _ _)), Lp, <- parent_len97; exact N).
           exists (mkEdge ItoL (tgt (parent_of p), Interm) (tgt p, Normal)). split.
           ++ apply into_L_iff; [exact R|exact Np|]. econstructor. apply V_I; [exact St|exact V].
           ++ unfold QL. cbn [eop efrom fst snd src]. split; [exact Ls|]. exists (firstn (length p) s). split; [exact V|apply firstn_prefix].
        -- exists (mkEdge StoL (src s, Parts) (tgt p, Normal)). split; [|reflexivity]. apply into_L_iff; [exact R|exact Np|]. constructor. rewrite firstn_all2 in F by lia. rewrite firstn_all2 in N by (rewrite parent_len97; lia). split; [exact Ls|]. split; [lia|]. auto.
      * exists (mkEdge LtoL (tgt (parent_of p), Normal) (tgt p, Normal)). split; [|split; [exact Ls|exact N]]. apply into_L_iff; [exact R|exact Np|]. constructor. destruct (Nat.le_gt_cases 3 (length p)) as [A|A]; [exact A|]. exfalso. apply N. apply coarse_near.
        -- apply firstn_lt8, leaf_8, Ls.
        -- eapply T8, sub_prefix; [apply parent_prefix|exact St].
        -- rewrite firstn_length, parent_len97. lia.
        -- rewrite parent_len97. lia.
Qed.

(** ** the targets *)
Inductive into_T97 (q : path) : edge -> Prop :=
| jt_w c : list_W S q c -> into_T97 q (mkEdge MtoT (src c, Normal) (tgt q, Parts))
| jt_u c : list_U S q c -> into_T97 q (mkEdge StoT (src c, Parts) (tgt q, Parts))
| jt_l : (2 <= length q)%nat -> into_T97 q (mkEdge LtoT (tgt q, Normal) (tgt q, Parts)).
Lemma into_T97_iff q e : ended unif same S T q -> (In e (into (tgt q, Parts) E) <-> into_T97 q e).
Proof.
  intros R. rewrite into_in, HE. split.
  - intros [I Ee]. destruct I; cbn [eto] in Ee; try discriminate Ee; injection Ee as Ed; subst q; constructor; assumption.
  - intros I. split; [|destruct I; reflexivity]. destruct I as [c V|c X|L]; constructor; assumption.
Qed.
Notation QT := (PotProofs.QT S).
Lemma QT97_cover q s : ended unif same S T q -> leaf_at S s -> exists e, In e (into (tgt q, Parts) E) /\ QT q e s.
Proof.
  intros R Ls. pose proof R as [[St _] _]. destruct (near_dec s q) as [N|N].
  - exists (mkEdge StoT (src s, Parts) (tgt q, Parts)). split; [apply into_T97_iff; [exact R|]; constructor; split; assumption|]. split; [exact Ls|reflexivity].
  - destruct (near_dec (firstn (length q) s) q) as [Y|Y].
    + destruct (Nat.le_gt_cases (length s) (length q)) as [A|A]; [rewrite firstn_all2 in Y by lia; contradiction|].
      destruct (crossing s q (length q) ltac:(lia) Y N) as (m & Hm & N1 & N2). assert (Lm : length (firstn (Datatypes.S m) s) = Datatypes.S m) by (rewrite firstn_length; lia).
      exists (mkEdge MtoT (src (firstn (Datatypes.S m) s), Normal) (tgt q, Parts)). split; [|split; [exact Ls|apply firstn_prefix]]. apply into_T97_iff; [exact R|]. constructor. split; [eapply sub_prefix; [apply firstn_prefix|apply leaf_sub, Ls]|]. split; [lia|]. split; [exact N2|]. rewrite firstn_parent by lia. exact N1.
    + exists (mkEdge LtoT (tgt q, Normal) (tgt q, Parts)). split; [|split; [exact Ls|exact Y]]. apply into_T97_iff; [exact R|]. constructor. destruct (Nat.le_gt_cases 2 (length q)) as [A|A]; [exact A|]. exfalso. apply Y. apply coarse_near; [apply firstn_lt8, leaf_8, Ls|apply T8, St|rewrite firstn_length; lia|lia].
Qed.
Definition PT97 (q : path) (ls : list path) (phis : list cplx) : Prop := close (flat_map chg ls) (total_charge (flat_map chg ls) * K97) (records T q) phis.
Lemma PT97_padd q l1 l2 a b : PT97 q l1 a -> PT97 q l2 b -> PT97 q (l1 ++ l2) (padd a b).
Proof. unfold PT97. intros H1 H2. rewrite flat_map_app, PotProofs.total_app, Rmult_plus_distr_r. apply close_padd; assumption. Qed.

Theorem target97_ok q : ended unif same S T q ->
  exists phis, val (tgt q, Parts) = Plain (Array phis) /\ close (info S) (total_charge (info S) * K97) (records T q) phis.
Proof.
  intros R. pose proof R as [Rq Fq]. pose proof Rq as [St _]. pose proof (T8 q St) as Q8. rewrite (plain_sum (tgt q, Parts) _ eq_refl eq_refl) by (intros e J; apply (into_T97_iff q e R) in J; destruct J; cbn [eop]; repeat split; discriminate).
  set (g := fun e => edge_value tb corner size (records T) e (flat (val (efrom e)))).
  destruct (sum_ex g (PT97 q) (QT q) (PT97_padd q) (into (tgt q, Parts) E) (into_nodup E NE _)) as (ls & phis & Ep & Pp & Np & Ip).
  - destruct (has_leaf S) as [s Ls]. destruct (QT97_cover q s R Ls) as (e & I & _). intros Z. rewrite Z in I. exact I.
  - intros e J. pose proof J as JE. apply (into_T97_iff q e R) in J. destruct J as [c W|c U|L2].
    + pose proof W as (Sc & Lc & F & N). assert (L2 : (2 <= length c)%nat) by (destruct (Nat.le_gt_cases 2 (length c)) as [A|A]; [exact A|]; exfalso; apply F; apply coarse_near; [apply S8, Sc|exact Q8|lia|lia]).
      destruct (up97 c Sc L2) as (ls & M & EM & UM & NM & IM). exists ls. unfold g. cbn [efrom]. rewrite EM. unfold edge_value. cbn [eop efrom eto fst snd src tgt flat].
      edestruct at_targets_ok as (phis & Ea & Ca); [intros t It; exact (mtt97 c q t ls M Sc ltac:(lia) F It UM (fun s I => proj1 (IM s) I))|]. exists phis. split; [exact Ea|]. split; [exact Ca|]. split; [exact NM|]. exact IM.
    + destruct U as [Lf N]. exists [c]. unfold g. cbn [efrom]. rewrite (v_source c). unfold edge_value. cbn [eop efrom eto fst snd src tgt flat].
      edestruct (at_targets_ok (fun t => Ok (S_to_T (chg c) t 0)) (flat_map chg [c]) (total_charge (flat_map chg [c]) * K97)) as (phis & Ea & Ca).
      * intros t It. eexists. split; [reflexivity|]. rewrite S_to_T_ok, Rplus_0_l. cbn [flat_map]. rewrite app_nil_r. rewrite Rminus_diag_eq, Rabs_R0 by reflexivity. apply Rmult_le_pos; [apply PotProofs.total_nonneg|apply K97_nonneg].
      * exists phis. split; [exact Ea|]. split; [exact Ca|]. split; [constructor; [intros []|constructor]|]. intros s. unfold PotProofs.QT. cbn [eop efrom fst snd src In]. split; [intros [<-|[]]; auto|]. intros [_ ->]. auto.
    + destruct (dn97_ok (length q) q eq_refl Rq L2) as (ls & L & EL & DL & NL & IL); [apply (Hfed (mkEdge LtoT (tgt q, Normal) (tgt q, Parts))); [apply into_in in JE; apply JE|reflexivity]|].
      exists ls. unfold g. cbn [efrom]. rewrite EL. unfold edge_value. cbn [eop efrom eto fst snd src tgt flat].
      edestruct at_targets_ok as (phis & Ea & Ca); [intros t It; exact (proj2 DL t It)|]. exists phis. split; [exact Ea|]. split; [exact Ca|]. split; [exact NL|]. exact IL.
  - intros e1 e2 s J1 J2 Q1 Q2. apply (into_T97_iff q _ R) in J1. apply (into_T97_iff q _ R) in J2. destruct J1 as [c1 V1|c1 X1|L1], J2 as [c2 V2|c2 X2|L2']; unfold PotProofs.QT in Q1, Q2; cbn [eop efrom fst snd src] in Q1, Q2; destruct Q1 as [Ls Q1], Q2 as [_ Q2].
    + destruct (Nat.lt_trichotomy (length c1) (length c2)) as [A|[A|A]]; [exfalso; exact (W_W corner size S T unif fuel HU HTp q c1 c2 s Ls V1 V2 Q1 Q2 A)| |exfalso; exact (W_W corner size S T unif fuel HU HTp q c2 c1 s Ls V2 V1 Q2 Q1 A)]. rewrite (prefix_eq c1 c2 s Q1 Q2 A). reflexivity.
    + exfalso. subst s. destruct V1 as (_ & _ & F & _), X2 as [_ N]. apply F. eapply near_prefix; [apply leaf_8, Ls|exact Q1|exact N].
    + exfalso. apply Q2. eapply (W_L corner size S T unif fuel HU HTp); eassumption.
    + exfalso. subst s. destruct V2 as (_ & _ & F & _), X1 as [_ N]. apply F. eapply near_prefix; [apply leaf_8, Ls|exact Q2|exact N].
    + congruence.
    + exfalso. subst s. destruct X1 as [_ N]. apply Q2. eapply near_prefix; [apply leaf_8, Ls|apply firstn_prefix|exact N].
    + exfalso. apply Q1. eapply (W_L corner size S T unif fuel HU HTp); eassumption.
    + exfalso. subst s. destruct X2 as [_ N]. apply Q1. eapply near_prefix; [apply leaf_8, Ls|apply firstn_prefix|exact N].
    + reflexivity.
  - exists phis. split; [f_equal; exact Ep|]. assert (Pm : Permutation (flat_map chg ls) (info S)).
    { apply leaves_permute; [exact Hg|exact Np|]. intros s. rewrite Ip. split.
      - intros (e & J & Q). unfold PotProofs.QT in Q. destruct (eop e); apply Q.
      - intros Ls. apply QT97_cover; assumption. }
    unfold PT97 in Pp. rewrite (total_perm _ _ Pm) in Pp. eapply close_perm; eassumption.
Qed.
End Fmm97.
