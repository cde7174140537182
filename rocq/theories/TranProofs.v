(** The passes over the tree keep every expansion correct. *)
From Coq Require Import Reals ZArith List Lia Lra Psatz.
From Coquelicot Require Import Coquelicot.
From Verif Require Import Base ListFacts IndexModel LegSpec LegProofs LegAdd LapModel LapSpec LapArrays LapProofs SolidProofs SolidAdd SolidPair SolidTrans SolidMtl TranModel TranArrays TranTable TranOps TranField TranMove TranMtl TranEval TranSpec.
Import ListNotations.
Open Scope R_scope.

(** ** boxes *)
Lemma pow2_pos z : 0 < powerRZ 2 z.
Proof. apply powerRZ_lt. lra. Qed.
Lemma side_pos size z : 0 < size -> 0 < side size z.
Proof. intros H. apply Rdiv_lt_0_compat; [exact H|apply pow2_pos]. Qed.
Lemma level_scale_side size z : 0 < size -> level_scale size z = / side size z.
Proof. intros H. unfold level_scale, side. pose proof (pow2_pos z). field. lra. Qed.
Lemma side_child size z : side size (z + 1) = side size z / 2.
Proof. unfold side. rewrite powerRZ_add by lra. rewrite powerRZ_1. pose proof (pow2_pos z). field. lra. Qed.
Lemma box_center_middle corner size i : box_center corner size i = middle corner size i.
Proof. unfold box_center, middle, side. pose proof (pow2_pos (ilevel i)). cbv zeta. f_equal; field; lra. Qed.

Lemma rounded_place c x : rounded c x = place c x.
Proof.
  unfold rounded, place, eff, shift. rewrite <- norm3_dist. change (off_axis c x) with (sqrt ((px x - px c) ^ 2 + (py x - py c) ^ 2)). set (d := point_sub x c).
  replace (sqrt ((px x - px c) ^ 2 + (py x - py c) ^ 2)) with (sqrt (px d * px d + py d * py d)) by (unfold d, point_sub; cbn [px py]; f_equal; ring). cbv zeta. fold tiny.
  destruct (Rle_dec (norm3 d) tiny); cbn [px py pz]; [f_equal; ring|]. destruct (Rle_dec _ tiny); cbn [px py pz]; [unfold d, point_sub; cbn [pz]; f_equal; ring|].
  unfold d, point_sub. cbn [px py pz]. destruct x as [x y z]. cbn [px py pz]. f_equal; ring.
Qed.
Lemma rounded_seen c x : x <> c -> seen c x (rounded c x).
Proof. intros H. rewrite rounded_place. apply place_seen, dist_pos, H. Qed.
Lemma rounded_dist c x : dist c (rounded c x) = dist c x.
Proof. rewrite rounded_place. apply dist_place_c. Qed.

Section Domain.
Variables (corner : pt) (size : R).
Hypothesis Hsize : 0 < size.
Notation mid := (middle corner size).

Definition rel (i : index) (x : pt) : vec := vscale (/ side size (ilevel i)) (tov (point_sub x (mid i))).
Definition rels (i : index) (l : list charge) : list (R * vec) := map (fun s => (cq s, rel i (cpos s))) l.

Lemma rel_norm i x : vnorm (rel i x) = dist (mid i) x / side size (ilevel i).
Proof.
  pose proof (side_pos size (ilevel i) Hsize) as P. assert (Q : 0 < / side size (ilevel i)) by (apply Rinv_0_lt_compat, P). rewrite <- norm3_dist. set (d := point_sub x (mid i)). unfold rel. fold d. unfold Rdiv. pose proof (norm3_nonneg d) as N.
  apply vnorm_unique; [nra|]. pose proof (norm3_sq d) as Sq. unfold vscale, tov. cbn [vx vy vz]. set (h := / side size (ilevel i)) in *. nra.
Qed.
Lemma scaled_rel i x : scaled (level_scale size (ilevel i)) (point_sub x (box_center corner size i)) = rel i (rounded (mid i) x).
Proof.
  unfold scaled, rel. rewrite level_scale_side, box_center_middle, rounded_place by exact Hsize. f_equal. unfold place, shift. set (d := eff _). destruct d as [a b c]. unfold tov, point_sub. cbn [px py pz]. apply vec_eq; cbn [vx vy vz]; ring.
Qed.
Lemma radius_rel i x : vnorm (rel i x) <= sqrt 3 / 2 <-> dist (mid i) x <= radius size (ilevel i).
Proof.
  rewrite rel_norm. unfold radius. pose proof (side_pos size (ilevel i) Hsize) as P. split; intros H.
  - apply (Rmult_le_compat_r (side size (ilevel i))) in H; [|lra]. unfold Rdiv in H at 1. rewrite Rmult_assoc, Rinv_l in H by lra. lra.
  - apply Rmult_le_reg_r with (side size (ilevel i)); [exact P|]. unfold Rdiv at 1. rewrite Rmult_assoc, Rinv_l by lra. lra.
Qed.
Lemma rel_child i k x : (k < 8)%nat -> rel i x = vscale (1 / 2) (vadd (rel (child (Z.of_nat k) i) x) (octant k)).
Proof.
  intros Hk. pose proof (side_pos size (ilevel i) Hsize) as P. set (h := side size (ilevel i)) in *.
  assert (X1 : forall a, Z.shiftl a 1 = (2 * a)%Z) by (intros; rewrite Z.shiftl_mul_pow2 by lia; lia).
  unfold rel, vscale, vadd, tov, point_sub, middle, child, octant. cbn [vx vy vz px py pz ix iy iz ilevel]. rewrite side_child. fold h. rewrite !X1.
  do 8 (destruct k as [|k]; [cbv [Z.of_nat Pos.of_succ_nat Pos.succ Z.land Pos.land Pos.Nsucc_double Pos.Ndouble Z.of_N Z.eqb Nat.testbit Nat.odd Nat.even negb Nat.div2 half_if]; rewrite ?plus_IZR, ?mult_IZR; apply vec_eq; cbn [vx vy vz]; field; lra|]). lia.
Qed.
Lemma octant_norm k : vnorm (octant k) = sqrt 3 / 2.
Proof.
  pose proof sqrt3_sq. pose proof sqrt3_pos. apply vnorm_unique; [lra|]. unfold octant, half_if. cbn [vx vy vz]. destruct (Nat.testbit k 0), (Nat.testbit k 1), (Nat.testbit k 2); lra.
Qed.
Lemma vscale_norm a x : 0 <= a -> vnorm (vscale a x) = a * vnorm x.
Proof. intros H. apply vnorm_unique; [apply Rmult_le_pos; [exact H|apply vnorm_pos]|]. pose proof (vnorm_sq x). unfold vscale. cbn [vx vy vz]. nra. Qed.
Lemma rel_child_in i k x : (k < 8)%nat -> vnorm (rel (child (Z.of_nat k) i) x) <= sqrt 3 / 2 -> vnorm (rel i x) <= sqrt 3 / 2.
Proof.
  intros Hk H. rewrite (rel_child i k x Hk), vscale_norm by lra. pose proof (vnorm_triang (rel (child (Z.of_nat k) i) x) (octant k)) as T. rewrite octant_norm in T. lra.
Qed.
Lemma rels_child i k l : (k < 8)%nat -> mapv (fun y => vscale (1 / 2) (vadd y (octant k))) (rels (child (Z.of_nat k) i) l) = rels i l.
Proof. intros Hk. unfold mapv, rels. rewrite map_map. apply map_ext. intros s. cbn [fst snd]. rewrite <- rel_child by exact Hk. reflexivity. Qed.
Lemma rels_rounded i l : map (fun s => (cq s, scaled (level_scale size (ilevel i)) (point_sub (cpos s) (box_center corner size i)))) l = rels i (rounded_charges (mid i) l).
Proof. unfold rels, rounded_charges. rewrite map_map. apply map_ext. intros s. cbn [cq cpos]. rewrite scaled_rel. reflexivity. Qed.
Lemma rels_app i l l' : rels i (l ++ l') = rels i l ++ rels i l'.
Proof. apply map_app. Qed.
Lemma weight_rels i l : weight (rels i l) = total_charge l.
Proof. induction l as [|s l IH]; [reflexivity|]. cbn [rels map weight total_charge fold_right fst]. fold (rels i l). fold (weight (rels i l)). rewrite IH. reflexivity. Qed.
Lemma total_app l l' : total_charge (l ++ l') = total_charge l + total_charge l'.
Proof. induction l as [|s l IH]; cbn [app total_charge fold_right]; [unfold total_charge; cbn [fold_right]; ring|]. fold (total_charge (l ++ l')). fold (total_charge l). rewrite IH. ring. Qed.
Lemma total_nonneg l : 0 <= total_charge l.
Proof. induction l as [|s l IH]; cbn [total_charge fold_right]; [lra|]. fold (total_charge l). pose proof (Rabs_pos (cq s)). lra. Qed.
Lemma total_rounded c l : total_charge (rounded_charges c l) = total_charge l.
Proof. induction l as [|s l IH]; [reflexivity|]. cbn [rounded_charges map total_charge fold_right cq]. fold (rounded_charges c l). fold (total_charge (rounded_charges c l)). rewrite IH. reflexivity. Qed.
Lemma coulomb_app l l' t : coulomb (l ++ l') t = coulomb l t + coulomb l' t.
Proof. induction l as [|s l IH]; cbn [app coulomb fold_right]; [unfold coulomb; cbn [fold_right]; ring|]. fold (coulomb (l ++ l') t). fold (coulomb l t). rewrite IH. ring. Qed.

(** the scaled difference of positions seen from two boxes of one level *)
Lemma rel_diff i j x t : ilevel j = ilevel i -> vnorm (vsub (vadd (voff j i) (rel j x)) (rel i t)) = dist t x / side size (ilevel i).
Proof.
  intros El. pose proof (side_pos size (ilevel i) Hsize) as P. set (h := side size (ilevel i)) in *. assert (Q : 0 < / h) by (apply Rinv_0_lt_compat, P). rewrite <- norm3_dist. set (d := point_sub x t). unfold Rdiv. pose proof (norm3_nonneg d) as N. pose proof (norm3_sq d) as Sq.
  replace (vsub (vadd (voff j i) (rel j x)) (rel i t)) with (vscale (/ h) (tov d)).
  - apply vnorm_unique; [nra|]. unfold vscale, tov. cbn [vx vy vz]. nra.
  - unfold rel, d, voff, vsub, vadd, vscale, tov, point_sub, middle. cbn [vx vy vz px py pz]. rewrite El. fold h. rewrite !minus_IZR. apply vec_eq; cbn [vx vy vz]; field; lra.
Qed.
Lemma voff_self i : voff i i = zvec 0.
Proof. unfold voff, zvec. rewrite !Z.sub_diag. reflexivity. Qed.
Lemma direct_coulomb i j l t : ilevel j = ilevel i -> (forall s, In s l -> 0 < dist t (cpos s)) -> direct (level_scale size (ilevel i)) (voff j i) (rels j l) (rel i t) = coulomb l t.
Proof.
  intros El H. induction l as [|s l IH]; [reflexivity|]. cbn [rels map direct coulomb fold_right fst snd]. fold (rels j l). fold (direct (level_scale size (ilevel i)) (voff j i) (rels j l) (rel i t)). fold (coulomb l t).
  rewrite IH by (intros; apply H; right; assumption). rewrite rel_diff, level_scale_side by assumption. f_equal. pose proof (H s (or_introl eq_refl)). pose proof (side_pos size (ilevel i) Hsize). field. lra.
Qed.
Lemma rels_in i l y : In y (rels i l) -> exists s, In s l /\ y = (cq s, rel i (cpos s)).
Proof. intros I. apply in_map_iff in I. destruct I as (s & <- & I). eauto. Qed.

(** ** the upward pass *)
Variable tb : table.
Hypothesis HS : sound tb.
Notation p := (tb_p tb).
Lemma HT : LapProofs.table p (tb_sqf tb).
Proof. apply table_ok, (g_sqf tb HS). Qed.
Lemma scale_pos z : 0 < level_scale size z.
Proof. rewrite level_scale_side by exact Hsize. apply Rinv_0_lt_compat, side_pos, Hsize. Qed.

Lemma no_centre sqf scale c l M : generate_sqf p = Ok sqf -> S_to_M p sqf scale c l = Ok M -> forall s, In s l -> cpos s <> c.
Proof.
  intros _ E s I Es. assert (F : exists e, S_to_M p sqf scale c l = Fail e).
  { apply fold_fails with (x := s); [exact I|]. intros M0. rewrite Es. unfold lap_s_to_m. rewrite !set_res_ok by (rewrite repeat_length; lia). cbn [bind]. rewrite angles_centre. reflexivity. }
  destruct F as [e F]. congruence.
Qed.
Lemma no_centre_l sqf scale c l M : generate_sqf p = Ok sqf -> S_to_L p sqf scale c l = Ok M -> forall s, In s l -> cpos s <> c.
Proof.
  intros _ E s I Es. assert (F : exists e, S_to_L p sqf scale c l = Fail e).
  { apply fold_fails with (x := s); [exact I|]. intros M0. rewrite Es. unfold lap_s_to_l. rewrite !set_res_ok by (rewrite repeat_length; lia). cbn [bind]. rewrite angles_centre. reflexivity. }
  destruct F as [e F]. congruence.
Qed.

Lemma sources_mom i l M : S_to_M p (tb_sqf tb) (level_scale size (ilevel i)) (box_center corner size i) l = Ok M -> coefs p (mom (rels i (rounded_charges (mid i) l))) M.
Proof.
  intros E. destruct (S_to_M_mom p (tb_sqf tb) (level_scale size (ilevel i)) (box_center corner size i) l HT (scale_pos _) (no_centre _ _ _ _ _ (g_sqf tb HS) E)) as (M' & E' & H).
  rewrite E in E'. injection E' as <-. rewrite rels_rounded in H. exact H.
Qed.
Lemma up_inv i l M : upward tb corner size i l M -> coefs p (mom (rels i l)) M /\ forall s, In s l -> vnorm (rel i (cpos s)) <= sqrt 3 / 2.
Proof.
  induction 1 as [i|i l M Hl E|i k l M M' Hk _ [IH1 IH2] E|i l1 l2 M1 M2 M _ [IH1 IH1'] _ [IH2 IH2'] E].
  - split; [apply new_coefs|]. intros s [].
  - split; [apply sources_mom, E|]. intros s I. apply radius_rel. unfold rounded_charges in I. apply in_map_iff in I. destruct I as (s' & <- & I). cbn [cpos]. rewrite rounded_dist. apply Hl, I.
  - destruct (M_to_M_ok tb k M _ (rels (child (Z.of_nat k) i) l) HS Hk IH1 ltac:(reflexivity)) as (M2 & E2 & H2). rewrite E in E2. injection E2 as <-. rewrite rels_child in H2 by exact Hk. split; [exact H2|].
    intros s I. apply (rel_child_in i k); auto.
  - destruct (add_coefs p _ _ M1 M2 IH1 IH2) as (M3 & E3 & H3). rewrite E in E3. injection E3 as <-. split.
    + revert H3. apply coefs_ext. intros n m _. rewrite cadd_C, rels_app, mom_app. reflexivity.
    + intros s I. apply in_app_or in I. destruct I; auto.
Qed.

Lemma far_pos i l t : (forall s, In s l -> vnorm (rel i (cpos s)) <= sqrt 3 / 2) -> sqrt 3 / 2 < vnorm (rel i t) -> forall s, In s l -> 0 < dist t (cpos s).
Proof.
  intros Hl Ht s I. apply dist_pos. intros E. specialize (Hl s I). rewrite E in Hl. lra.
Qed.
Lemma up_value i l M t phi : upward tb corner size i l M -> radius size (ilevel i) < dist (mid i) t ->
  exists v, M_to_T p (tb_sqf tb) (level_scale size (ilevel i)) (box_center corner size i) M t phi = Ok (phi + v) /\
    Rabs (v - coulomb l (rounded (mid i) t)) <= total_charge l / (dist (mid i) t - radius size (ilevel i)) * (radius size (ilevel i) / dist (mid i) t) ^ S p.
Proof.
  intros H Ht. destruct (up_inv i l M H) as [HM Hl]. pose proof (side_pos size (ilevel i) Hsize) as P. pose proof (scale_pos (ilevel i)) as Sp. pose proof sqrt3_pos as S3.
  assert (Rp : 0 < radius size (ilevel i)) by (unfold radius; apply Rmult_lt_0_compat; lra).
  assert (Hd : 0 < norm3 (point_sub t (box_center corner size i))) by (rewrite box_center_middle, norm3_dist; lra).
  pose proof (eval_m p (tb_sqf tb) _ (level_scale size (ilevel i)) _ M HT HM Hd Sp) as E. rewrite scaled_rel in E. set (x := rel i (rounded (mid i) t)) in *.
  assert (Hx : vnorm x = dist (mid i) t / side size (ilevel i)) by (unfold x; rewrite rel_norm, rounded_dist; reflexivity).
  assert (Hx2 : sqrt 3 / 2 < vnorm x). { rewrite Hx. apply Rmult_lt_reg_r with (side size (ilevel i)); [exact P|]. unfold Rdiv at 2. rewrite Rmult_assoc, Rinv_l by lra. unfold radius in Ht. lra. }
  unfold M_to_T. rewrite E. cbn [bind]. eexists. split; [reflexivity|].
  assert (B : forall s, In s (rels i l) -> vnorm (snd s) <= sqrt 3 / 2) by (intros s I; destruct (rels_in i l s I) as (s' & I' & ->); apply Hl, I').
  pose proof (m_outside p (level_scale size (ilevel i)) (rels i l) x (sqrt 3 / 2) ltac:(lra) ltac:(lra) Hx2 B) as Bd.
  rewrite <- (voff_self i) in Bd. unfold x in Bd at 3. rewrite (direct_coulomb i i l _ eq_refl (far_pos i l _ Hl Hx2)), weight_rels in Bd. eapply Rle_trans; [exact Bd|]. right.
  rewrite Hx, level_scale_side by exact Hsize. unfold radius in *. set (h := side size (ilevel i)) in *. set (r := dist (mid i) t) in *. replace (sqrt 3 / 2 / (r / h)) with (sqrt 3 / 2 * h / r) by (field; nra). set (q := (sqrt 3 / 2 * h / r) ^ S p). field. repeat split; nra.
Qed.

(** ** the downward pass *)
Definition eps_l : R := (sqrt 3 / 2) ^ S p / (2 - sqrt 3).
Lemma sqrt3_lt : 17 / 10 < sqrt 3 < 18 / 10.
Proof. pose proof sqrt3_sq. pose proof sqrt3_pos. nra. Qed.
Lemma eps_pos : 0 <= eps_l.
Proof. pose proof sqrt3_lt. apply Rmult_le_pos; [apply pow_le; lra|left; apply Rinv_0_lt_compat; lra]. Qed.
Lemma eps_mtl rho : 2 <= rho -> ((sqrt 3 / 2 + sqrt 3 / 2) / rho) ^ S p / (rho - (sqrt 3 / 2 + sqrt 3 / 2)) <= eps_l.
Proof.
  intros H. pose proof sqrt3_lt. unfold eps_l. replace (sqrt 3 / 2 + sqrt 3 / 2) with (sqrt 3) by field. unfold Rdiv at 1 3.
  apply Rmult_le_compat; [apply pow_le, Rmult_le_pos; [lra|left; apply Rinv_0_lt_compat; lra]|left; apply Rinv_0_lt_compat; lra| |apply Rinv_le_contravar; lra].
  apply pow_incr. split; [apply Rmult_le_pos; [lra|left; apply Rinv_0_lt_compat; lra]|]. unfold Rdiv. apply Rmult_le_compat_l; [lra|]. apply Rinv_le_contravar; lra.
Qed.
Lemma eps_stl : (sqrt 3 / 2 / (3 / 2)) ^ S p / (3 / 2 - sqrt 3 / 2) <= eps_l.
Proof.
  pose proof sqrt3_lt. unfold eps_l. unfold Rdiv at 1 5. apply Rmult_le_compat; [apply pow_le; lra|left; apply Rinv_0_lt_compat; lra|apply pow_incr; lra|apply Rinv_le_contravar; lra].
Qed.
Lemma separated_far s t : separated s t -> 2 <= vnorm (voff s t).
Proof.
  intros (_ & _ & H). rewrite voff_norm. replace 2 with (sqrt (IZR 4)) by (replace (IZR 4) with (2 * 2) by (simpl; ring); apply sqrt_square; lra). apply sqrt_le_1; [simpl; lra| |]; [apply (IZR_le 0)|apply IZR_le]; nia.
Qed.

Lemma dn_inv i l L : downward tb corner size i l L -> exists c, coefs p c L /\ reals p c /\
  forall t, vnorm (rel i t) <= sqrt 3 / 2 -> Rabs (val p c (rel i t) - coulomb l t) <= total_charge l * (level_scale size (ilevel i) * eps_l).
Proof.
  pose proof sqrt3_lt as S3. pose proof eps_pos as Ep.
  induction 1 as [i|i l L Hl E|i j l M L Hsep HM E|i k l L L' Hk _ (c & IH1 & IH2 & IH3) E|i l1 l2 L1 L2 L _ (c1 & A1 & A2 & A3) _ (c2 & B1 & B2 & B3) E].
  - exists (fun _ _ => RtoC 0). split; [apply new_coefs|]. split; [intros n _; reflexivity|]. intros t _. rewrite val_zero. unfold coulomb, total_charge. cbn [fold_right]. rewrite Rminus_0_r, Rabs_R0. lra.
  - pose proof (no_centre_l _ _ _ _ _ (g_sqf tb HS) E) as NC.
    destruct (S_to_L_outer p (tb_sqf tb) (level_scale size (ilevel i)) (box_center corner size i) l HT (scale_pos _) NC) as (M' & E' & H).
    rewrite E in E'. injection E' as <-. rewrite rels_rounded in H. eexists. split; [exact H|]. split; [apply outer_real|]. intros t Ht. set (l' := rounded_charges (mid i) l) in *.
    assert (F : forall s, In s l' -> 3 / 2 <= vnorm (rel i (cpos s))).
    { intros s I. unfold l', rounded_charges in I. apply in_map_iff in I. destruct I as (s' & <- & I). cbn [cpos]. rewrite rel_norm, rounded_dist. pose proof (side_pos size (ilevel i) Hsize). apply Rmult_le_reg_r with (side size (ilevel i)); [assumption|]. unfold Rdiv at 2. rewrite Rmult_assoc, Rinv_l by lra. specialize (Hl s' I). lra. }
    assert (B : forall s, In s (rels i l') -> 3 / 2 <= vnorm (snd s)) by (intros s I; destruct (rels_in i l' s I) as (s' & I' & ->); apply F, I').
    pose proof (scale_pos (ilevel i)) as Sp. pose proof (val_outer p (level_scale size (ilevel i)) (rels i l') (rel i t) (3 / 2) (sqrt 3 / 2) ltac:(lra) ltac:(lra) ltac:(lra) B Ht) as Bd.
    rewrite <- (voff_self i) in Bd. rewrite direct_coulomb, weight_rels in Bd; [|reflexivity|].
    + eapply Rle_trans; [exact Bd|]. apply Rmult_le_compat_l; [apply total_nonneg|]. apply Rmult_le_compat_l; [lra|]. apply eps_stl.
    + intros s I. apply dist_pos. intros Es. specialize (F s I). rewrite Es in F. lra.
  - destruct (up_inv j l M HM) as [HM' Hl]. pose proof (separated_far _ _ Hsep) as Far. destruct Hsep as (El & (N1 & N2 & N3) & Hs).
    destruct (M_to_L_ok tb (level_scale size (ilevel j)) j i M (mom (rels j l)) (rels j l) HS ltac:(left; apply scale_pos)) as (L2 & c & E2 & H1 & H2 & H3); [split; [|split]; lia|lia|exact HM'|reflexivity|].
    rewrite E in E2. injection E2 as <-. exists c. split; [exact H1|]. split; [exact H2|]. intros t Ht.
    assert (B : forall s, In s (rels j l) -> vnorm (snd s) <= sqrt 3 / 2) by (intros s I; destruct (rels_in j l s I) as (s' & I' & ->); apply Hl, I').
    specialize (H3 (sqrt 3 / 2) (rel i t) ltac:(lra) ltac:(lra) B Ht). rewrite El in H3. rewrite direct_coulomb, weight_rels in H3; [|exact El|].
    + eapply Rle_trans; [exact H3|]. apply Rmult_le_compat_l; [apply total_nonneg|]. unfold bound. apply Rmult_le_compat_l; [left; apply scale_pos|]. apply eps_mtl, Far.
    + intros s I. pose proof (rel_diff i j (cpos s) t El) as Df. pose proof (side_pos size (ilevel i) Hsize) as P.
      assert (T1 : vnorm (voff j i) <= vnorm (vsub (vadd (voff j i) (rel j (cpos s))) (rel i t)) + (vnorm (rel i t) + vnorm (rel j (cpos s)))).
      { set (a := voff j i). set (b := rel j (cpos s)). set (d := rel i t). replace a with (vadd (vsub (vadd a b) d) (vadd d (vopp b))) at 1 by (unfold vadd, vsub, vopp, vscale; apply vec_eq; cbn [vx vy vz]; ring).
        eapply Rle_trans; [apply vnorm_triang|]. apply Rplus_le_compat_l. rewrite <- (vopp_norm b). apply vnorm_triang. }
      specialize (Hl s I). rewrite Df in T1. assert (0 < dist t (cpos s) / side size (ilevel i)) as Q by lra. apply (Rmult_lt_compat_r (side size (ilevel i))) in Q; [|exact P]. unfold Rdiv in Q. rewrite Rmult_assoc, Rinv_l in Q by lra. lra.
  - destruct (L_to_L_ok tb k L c HS Hk IH1 IH2) as (M' & c' & E' & H1 & H2 & H3). rewrite E in E'. injection E' as <-. exists c'. split; [exact H1|]. split; [exact H2|]. intros t Ht.
    rewrite H3. replace (vadd (vscale (1 / 2) (rel (child (Z.of_nat k) i) t)) (vscale (1 / 2) (octant k))) with (rel i t) by (rewrite (rel_child i k t Hk); unfold vadd, vscale; apply vec_eq; cbn [vx vy vz]; ring).
    eapply Rle_trans; [apply IH3, (rel_child_in i k t Hk Ht)|]. apply Rmult_le_compat_l; [apply total_nonneg|]. apply Rmult_le_compat_r; [exact Ep|]. unfold child. cbn [ilevel]. rewrite !level_scale_side, side_child by exact Hsize. pose proof (side_pos size (ilevel i) Hsize). apply Rinv_le_contravar; lra.
  - destruct (add_coefs p _ _ L1 L2 A1 B1) as (M3 & E3 & H3). rewrite E in E3. injection E3 as <-. exists (fun n m => (c1 n m : C) + (c2 n m : C))%C. split; [revert H3; apply coefs_ext; intros n m _; apply cadd_C|]. split; [apply reals_plus; assumption|].
    intros t Ht. rewrite val_plus, coulomb_app, total_app, Rmult_plus_distr_r. specialize (A3 t Ht). specialize (B3 t Ht).
    replace (val p c1 (rel i t) + val p c2 (rel i t) - (coulomb l1 t + coulomb l2 t)) with ((val p c1 (rel i t) - coulomb l1 t) + (val p c2 (rel i t) - coulomb l2 t)) by ring. eapply Rle_trans; [apply Rabs_triang|]. lra.
Qed.

Lemma dn_value i l L t phi : downward tb corner size i l L -> 0 < dist (mid i) t <= radius size (ilevel i) ->
  exists v, L_to_T p (tb_sqf tb) (level_scale size (ilevel i)) (box_center corner size i) L t phi = Ok (phi + v) /\
    Rabs (v - coulomb l (rounded (mid i) t)) <= total_charge l / side size (ilevel i) * ((sqrt 3 / 2) ^ S p / (2 - sqrt 3)).
Proof.
  intros H Ht. destruct (dn_inv i l L H) as (c & HL & _ & B). assert (Hd : 0 < norm3 (point_sub t (box_center corner size i))) by (rewrite box_center_middle, norm3_dist; lra).
  pose proof (eval_l p (tb_sqf tb) _ (level_scale size (ilevel i)) _ L HT HL Hd (scale_pos _)) as E. rewrite scaled_rel in E. unfold L_to_T. rewrite E. cbn [bind]. eexists. split; [reflexivity|].
  assert (Hx : vnorm (rel i (rounded (mid i) t)) <= sqrt 3 / 2) by (apply radius_rel; rewrite rounded_dist; lra). eapply Rle_trans; [apply B, Hx|]. rewrite level_scale_side by exact Hsize. unfold eps_l, Rdiv. right. ring.
Qed.
End Domain.
