(** M_to_M, L_to_L and M_to_L as a whole. *)
From Coq Require Import Reals ZArith List Lia Lra Psatz.
From Coquelicot Require Import Coquelicot.
From Verif Require Import Base ListFacts LegSpec LegProofs LegAdd LapModel LapArrays LapProofs IndexModel SolidProofs SolidAdd SolidPair SolidTrans SolidMtl TranModel TranArrays TranWigner TranDmat TranTable TranOps TranField.
Import ListNotations.
Open Scope R_scope.

(** ** rotations *)
Lemma vec_eq a b : vx a = vx b -> vy a = vy b -> vz a = vz b -> a = b.
Proof. destruct a, b. cbn. intros -> -> ->. reflexivity. Qed.
Definition rz (a : R) : vec -> vec := rot_z (eang a).
Lemma eang_unit a : fst (eang a) * fst (eang a) + snd (eang a) * snd (eang a) = 1.
Proof. unfold eang. cbn [fst snd]. pose proof (sin2_cos2 a) as H. unfold Rsqr in H. lra. Qed.
Lemma rz_inv a y : rz (- a) (rz a y) = y.
Proof.
  pose proof (eang_unit a) as U. unfold rz, rot_z, eang in *. cbn [fst snd] in *. rewrite cos_neg, sin_neg. apply vec_eq; cbn [vx vy vz]; [| |reflexivity].
  - replace ((vx y * cos a + vy y * sin a) * cos a + (vy y * cos a - vx y * sin a) * - sin a) with (vx y * (cos a * cos a + sin a * sin a)) by ring. rewrite U. ring.
  - replace ((vy y * cos a - vx y * sin a) * cos a - (vx y * cos a + vy y * sin a) * - sin a) with (vy y * (cos a * cos a + sin a * sin a)) by ring. rewrite U. ring.
Qed.
Lemma rz_inv' a y : rz a (rz (- a) y) = y.
Proof. rewrite <- (Ropp_involutive a) at 1. apply rz_inv. Qed.
Lemma rz_add a x y : rz a (vadd x y) = vadd (rz a x) (rz a y).
Proof. unfold rz, rot_z, vadd. cbn [vx vy vz]. apply vec_eq; cbn [vx vy vz]; ring. Qed.
Lemma ry_inv c s y : c * c + s * s = 1 -> rot_y c s (rot_y c (- s) y) = y.
Proof.
  intros U. unfold rot_y. apply vec_eq; cbn [vx vy vz]; [|reflexivity|].
  - transitivity (vx y * ((c * c + s * s) * (c * c + s * s))); [ring|rewrite U; ring].
  - transitivity (vz y * ((c * c + s * s) * (c * c + s * s))); [ring|rewrite U; ring].
Qed.
Lemma ry_inv' c s y : c * c + s * s = 1 -> rot_y c (- s) (rot_y c s y) = y.
Proof. intros U. rewrite <- (Ropp_involutive s) at 2. apply ry_inv. lra. Qed.
Lemma ry_add c s x y : rot_y c s (vadd x y) = vadd (rot_y c s x) (rot_y c s y).
Proof. unfold rot_y, vadd. cbn [vx vy vz]. apply vec_eq; cbn [vx vy vz]; ring. Qed.
Lemma rz_norm a y : vnorm (rz a y) = vnorm y.
Proof.
  apply vnorm_unique; [apply vnorm_pos|]. rewrite vnorm_sq. pose proof (eang_unit a) as U. unfold rz, rot_z, eang in *. cbn [vx vy vz fst snd] in *.
  transitivity ((vx y * vx y + vy y * vy y) * (cos a * cos a + sin a * sin a) + vz y * vz y); [rewrite U; ring|ring].
Qed.
Lemma ry_norm c s y : c * c + s * s = 1 -> vnorm (rot_y c s y) = vnorm y.
Proof.
  intros U. apply vnorm_unique; [apply vnorm_pos|]. rewrite vnorm_sq. unfold rot_y. cbn [vx vy vz].
  transitivity ((vx y * vx y + vz y * vz y) * ((c * c + s * s) * (c * c + s * s)) + vy y * vy y); [rewrite U; ring|ring].
Qed.

(** the direction [k] of the azimuth [a], turned into the vertical and back *)
Section Turn.
Variables (k a : R).
Let c := cos (acos k / 2).
Let s := sin (acos k / 2).
Hypothesis Hk : -1 < k < 1.
Definition turn (y : vec) : vec := rot_y c (- s) (rz a y).
Definition back (y : vec) : vec := rz (- a) (rot_y c s y).
Lemma cs_unit : c * c + s * s = 1.
Proof. apply (acos_half k Hk). Qed.
Lemma cs_unit' : c * c + - s * - s = 1.
Proof. pose proof cs_unit. lra. Qed.
Lemma back_turn y : back (turn y) = y.
Proof. unfold back, turn. rewrite ry_inv by apply cs_unit. apply rz_inv. Qed.
Lemma turn_back y : turn (back y) = y.
Proof. unfold back, turn. rewrite rz_inv'. apply ry_inv', cs_unit. Qed.
Lemma back_add x y : back (vadd x y) = vadd (back x) (back y).
Proof. unfold back. rewrite ry_add, rz_add. reflexivity. Qed.
Lemma back_z rho : back (zvec rho) = mkVec (rho * sqrt (1 - k * k) * cos a) (rho * sqrt (1 - k * k) * sin a) (rho * k).
Proof.
  destruct (acos_half k Hk) as (_ & E1 & E2). fold c s in E1, E2. unfold back, rz, rot_z, rot_y, zvec, eang. cbn [vx vy vz fst snd]. rewrite E1, E2, cos_neg, sin_neg. apply vec_eq; cbn [vx vy vz]; ring.
Qed.
Lemma back_norm y : vnorm (back y) = vnorm y.
Proof. unfold back. rewrite rz_norm. apply ry_norm, cs_unit. Qed.
Lemma turn_norm y : vnorm (turn y) = vnorm y.
Proof. unfold turn. rewrite ry_norm by apply cs_unit'. apply rz_norm. Qed.

(** ** the common frame of the translations: turn, do something, turn back *)
Variable tb : table.
Hypothesis HS : sound tb.
Variables dp dm : list R.
Hypothesis HR : rotation_pair (tb_p tb) k dp dm.
Lemma turn_ok M W T cf : coefs (tb_p tb) cf M -> length W = tri (S (tb_p tb)) -> length T = tri (S (tb_p tb)) ->
  exists W' T' cf', rotate_z tb M a W = Ok W' /\ rotate_y tb W' dp T = Ok T' /\ length W' = tri (S (tb_p tb)) /\ coefs (tb_p tb) cf' T' /\
    (reals (tb_p tb) cf -> reals (tb_p tb) cf' /\ forall t, val (tb_p tb) cf' (turn t) = val (tb_p tb) cf t) /\
    (forall l, (forall n m, (m <= n <= tb_p tb)%nat -> cf n m = mom l n m) -> forall n m, (m <= n <= tb_p tb)%nat -> cf' n m = mom (mapv turn l) n m).
Proof.
  intros HM HW HT. destruct HR as [HP _]. fold c s in HP. destruct (rotate_z_ok tb M a W cf HM HW) as (W' & E1 & H1).
  destruct (rotate_y_ok tb c s dp W' T _ HP H1 HT) as (al & T' & E2 & H2 & Hw). exists W', T', (fun n => ry (al n) n (fun m => (cf n m : C) * cp (eang a) m)%C).
  split; [exact E1|]. split; [exact E2|]. split; [apply (sized _ _ _ H1)|]. split; [exact H2|]. split.
  - intros Hr. split; [apply (reals_ry c (- s)); [apply cs_unit'|exact Hw|apply reals_rz, Hr]|]. intros t. unfold turn. rewrite (val_ry c (- s)); [|apply cs_unit'|exact Hw|apply reals_rz, Hr]. apply val_rz, eang_unit.
  - intros l Hl n m B. transitivity (ry (al n) n (mom (mapv (rz a) l) n) m).
    + unfold ry. apply csum_ext. intros i Hi. f_equal. apply ext_ext; [lia|]. intros j Hj. rewrite Hl by lia. apply mom_rz, eang_unit.
    + rewrite (mom_ry c (- s)); [|apply cs_unit'|apply Hw; lia|lia]. rewrite mapv_mapv. reflexivity.
Qed.
Lemma back_ok M W T cf : coefs (tb_p tb) cf M -> length W = tri (S (tb_p tb)) -> length T = tri (S (tb_p tb)) ->
  exists W' T' cf', rotate_y tb M dm T = Ok T' /\ rotate_z tb T' (- a) W = Ok W' /\ coefs (tb_p tb) cf' W' /\
    (reals (tb_p tb) cf -> reals (tb_p tb) cf' /\ forall t, val (tb_p tb) cf' (back t) = val (tb_p tb) cf t) /\
    (forall l, (forall n m, (m <= n <= tb_p tb)%nat -> cf n m = mom l n m) -> forall n m, (m <= n <= tb_p tb)%nat -> cf' n m = mom (mapv back l) n m).
Proof.
  intros HM HW HT. destruct HR as [_ HP]. fold c s in HP. destruct (rotate_y_ok tb c (- s) dm M T cf HP HM HT) as (al & T' & E2 & H2 & Hw). rewrite Ropp_involutive in Hw.
  destruct (rotate_z_ok tb T' (- a) W _ H2 HW) as (W' & E1 & H1). exists W', T', (fun n m => ry (al n) n (cf n) m * cp (eang (- a)) m)%C.
  split; [exact E2|]. split; [exact E1|]. split; [exact H1|]. split.
  - intros Hr. assert (Hr' : reals (tb_p tb) (fun n => ry (al n) n (cf n))) by (apply (reals_ry c s); [apply cs_unit|exact Hw|exact Hr]). split; [apply reals_rz, Hr'|].
    intros t. unfold back, rz. rewrite (val_rz (eang (- a)) (tb_p tb) (fun n => ry (al n) n (cf n))) by apply eang_unit. apply val_ry; [apply cs_unit|exact Hw|exact Hr].
  - intros l Hl n m B. transitivity (mom (mapv (rot_y c s) l) n m * cp (eang (- a)) m)%C.
    + f_equal. rewrite <- (mom_ry c s (al n)); [|apply cs_unit|apply Hw; lia|lia]. unfold ry. apply csum_ext. intros i Hi. f_equal. apply ext_ext; [lia|]. intros j Hj. apply Hl. lia.
    + rewrite mom_rz by apply eang_unit. rewrite mapv_mapv. reflexivity.
Qed.
End Turn.

(** ** the eight directions *)
Definition half_if (b : bool) : R := if b then 1 / 2 else - (1 / 2).
Definition octant (which : nat) : vec := mkVec (half_if (Nat.testbit which 0)) (half_if (Nat.testbit which 1)) (half_if (Nat.testbit which 2)).
Definition diag_cos (which : nat) : R := if (which <? 4)%nat then 1 / sqrt 3 else - 1 / sqrt 3.
Lemma sqrt3_sq : sqrt 3 * sqrt 3 = 3.
Proof. apply sqrt_sqrt. lra. Qed.
Lemma sqrt3_pos : 0 < sqrt 3.
Proof. apply sqrt_lt_R0. lra. Qed.
Lemma diag_key which : In (diag_cos which) keys.
Proof. unfold diag_cos. destruct (which <? 4)%nat; apply key_diag. Qed.
Lemma diag_sin which : sqrt 3 / 2 * sqrt (1 - diag_cos which * diag_cos which) = / sqrt 2.
Proof.
  pose proof sqrt3_sq. pose proof sqrt3_pos. assert (E : 1 - diag_cos which * diag_cos which = 2 / 3).
  { unfold diag_cos. destruct (which <? 4)%nat; [replace (1 / sqrt 3 * (1 / sqrt 3)) with (/ (sqrt 3 * sqrt 3)) by (field; lra)|replace (-1 / sqrt 3 * (-1 / sqrt 3)) with (/ (sqrt 3 * sqrt 3)) by (field; lra)]; rewrite sqrt3_sq; field. }
  rewrite E. rewrite sqrt_div by lra. assert (P : 0 < sqrt 2) by (apply sqrt_lt_R0; lra). assert (sqrt 2 * sqrt 2 = 2) by (apply sqrt_sqrt; lra). field_simplify_eq; [|lra]. nra.
Qed.
Lemma cs_7 : cos (7 * (PI / 4)) = / sqrt 2 /\ sin (7 * (PI / 4)) = - / sqrt 2.
Proof.
  replace (7 * (PI / 4)) with (- (PI / 4) + 2 * INR 1 * PI) by (cbn [INR]; field). rewrite cos_period, sin_period, cos_neg, sin_neg, cos_PI4, sin_PI4. unfold Rdiv. split; ring.
Qed.
Lemma octant_dir which k : nth_res tab_alpha which = Ok k -> back (diag_cos which) (k * (PI / 4)) (zvec (- sqrt 3 / 2)) = octant which.
Proof.
  intros E. rewrite back_z by apply keys_bound, diag_key. replace (- sqrt 3 / 2 * sqrt (1 - diag_cos which * diag_cos which)) with (- / sqrt 2) by (rewrite <- (diag_sin which); field).
  assert (P : 0 < sqrt 2) by (apply sqrt_lt_R0; lra). assert (I2 : / sqrt 2 * / sqrt 2 = 1 / 2) by (rewrite <- Rinv_mult; rewrite sqrt_sqrt by lra; field).
  pose proof sqrt3_pos as P3.
  assert (C1 : cos (1 * (PI / 4)) = / sqrt 2) by (rewrite Rmult_1_l, cos_PI4; unfold Rdiv; ring). assert (S1 : sin (1 * (PI / 4)) = / sqrt 2) by (rewrite Rmult_1_l, sin_PI4; unfold Rdiv; ring).
  assert (C3 : cos (3 * (PI / 4)) = - / sqrt 2) by (rewrite cos_3PI4; unfold Rdiv; ring). assert (S3 : sin (3 * (PI / 4)) = / sqrt 2) by (rewrite sin_3PI4; unfold Rdiv; ring).
  assert (C5 : cos (5 * (PI / 4)) = - / sqrt 2) by (rewrite cos_5PI4; unfold Rdiv; ring). assert (S5 : sin (5 * (PI / 4)) = - / sqrt 2) by (rewrite sin_5PI4; unfold Rdiv; ring).
  destruct cs_7 as [C7 S7].
  do 8 (destruct which as [|which]; [injection E as <-; unfold octant, half_if, diag_cos; cbn [Nat.testbit Nat.ltb Nat.leb Nat.odd Nat.even Nat.div2 negb]; rewrite ?C1, ?S1, ?C3, ?S3, ?C5, ?S5, ?C7, ?S7; apply vec_eq; cbn [vx vy vz]; try (field; lra); nra|]).
  destruct which; discriminate E.
Qed.
Lemma tab_alpha_some which : (which < 8)%nat -> exists k, nth_res tab_alpha which = Ok k.
Proof. intros H. do 8 (destruct which as [|which]; [eexists; reflexivity|]). lia. Qed.

(** ** M_to_M *)
Lemma M_to_M_ok tb which M cf l : sound tb -> (which < 8)%nat -> coefs (tb_p tb) cf M -> (forall n m, (m <= n <= tb_p tb)%nat -> cf n m = mom l n m) ->
  exists M', M_to_M tb which M = Ok M' /\ coefs (tb_p tb) (mom (mapv (fun y => vscale (1 / 2) (vadd y (octant which))) l)) M'.
Proof.
  intros HS Hw HM Hl. unfold M_to_M, lap_m_to_m, translate. fold (diag_cos which). set (v := diag_cos which).
  destruct (g_keys tb HS v (diag_key which)) as (dp & dm & Ep & Em & HR). unfold dmat_plus, dmat_minus. rewrite Ep. cbn [bind]. rewrite Em. cbn [bind].
  destruct (powers_ok (tb_p tb) (- sqrt 3 / 2)) as (pr & Epr & Hpr). rewrite Epr. cbn [bind]. destruct (tab_alpha_some which Hw) as (k & Ek). rewrite Ek. cbn [bind].
  pose proof (keys_bound v (diag_key which)) as Hv. set (al := k * (PI / 4)).
  destruct (turn_ok v al Hv tb dp dm HR M (new_expansion (tb_p tb)) (repeat (0, 0) ((tb_p tb + 1) * (tb_p tb + 2) / 2)) cf HM (blank _) (blank _)) as (W1 & T1 & c1 & E1 & E2 & L1 & H1 & _ & V1).
  rewrite E1. cbn [bind]. rewrite E2. cbn [bind]. destruct (shift_m_ok tb T1 (- sqrt 3 / 2) pr W1 c1 HS H1 L1 Hpr) as (W2 & E3 & H2). rewrite E3. cbn [bind].
  destruct (back_ok v al Hv tb dp dm HR W2 W2 T1 _ H2 (sized _ _ _ H2) (sized _ _ _ H1)) as (W3 & T2 & c3 & E4 & E5 & H3 & _ & V3). rewrite E4. cbn [bind]. rewrite E5. cbn [bind].
  destruct (halve_ok (tb_p tb) W3 c3 H3) as (W4 & E6 & H4). exists W4. split; [exact E6|]. apply (coefs_ext _ _ _ _ (fun n m B => eq_refl)) in H4. revert H4. apply coefs_ext. intros n m B.
  rewrite (V3 (mapv (fun y => vadd y (zvec (- sqrt 3 / 2))) (mapv (turn v al) l))); [|intros n' m' B'|exact B].
  - rewrite mom_half, !mapv_mapv. f_equal. apply mapv_ext. intros y. rewrite back_add, (back_turn v al Hv). f_equal. f_equal. apply octant_dir, Ek.
  - transitivity (up (- sqrt 3 / 2) (mom (mapv (turn v al) l)) n' m').
    + unfold up. apply csum_ext. intros i Hi. f_equal. apply (V1 l Hl). lia.
    + apply mom_up. lia.
Qed.

(** ** L_to_L *)
Lemma L_to_L_ok tb which M cf : sound tb -> (which < 8)%nat -> coefs (tb_p tb) cf M -> reals (tb_p tb) cf ->
  exists M' cf', L_to_L tb which M = Ok M' /\ coefs (tb_p tb) cf' M' /\ reals (tb_p tb) cf' /\
    forall t, val (tb_p tb) cf' t = val (tb_p tb) cf (vadd (vscale (1 / 2) t) (vscale (1 / 2) (octant which))).
Proof.
  intros HS Hw HM Hl. unfold L_to_L, lap_l_to_l, translate. fold (diag_cos which). set (v := diag_cos which).
  destruct (g_keys tb HS v (diag_key which)) as (dp & dm & Ep & Em & HR). unfold dmat_plus, dmat_minus. rewrite Ep. cbn [bind]. rewrite Em. cbn [bind].
  destruct (powers_ok (tb_p tb) (- sqrt 3 / 4)) as (pr & Epr & Hpr). rewrite Epr. cbn [bind]. destruct (tab_alpha_some which Hw) as (k & Ek). rewrite Ek. cbn [bind].
  pose proof (keys_bound v (diag_key which)) as Hv. set (al := k * (PI / 4)).
  destruct (turn_ok v al Hv tb dp dm HR M (new_expansion (tb_p tb)) (repeat (0, 0) ((tb_p tb + 1) * (tb_p tb + 2) / 2)) cf HM (blank _) (blank _)) as (W1 & T1 & c1 & E1 & E2 & L1 & H1 & V1 & _).
  rewrite E1. cbn [bind]. rewrite E2. cbn [bind]. destruct (shift_l_ok tb T1 (- sqrt 3 / 4) pr W1 c1 HS H1 L1 Hpr) as (W2 & E3 & H2). rewrite E3. cbn [bind].
  destruct (back_ok v al Hv tb dp dm HR W2 W2 T1 _ H2 (sized _ _ _ H2) (sized _ _ _ H1)) as (W3 & T2 & c3 & E4 & E5 & H3 & V3 & _). rewrite E4. cbn [bind]. rewrite E5. cbn [bind].
  destruct (halve_ok (tb_p tb) W3 c3 H3) as (W4 & E6 & H4). destruct (V1 Hl) as [R1 X1]. destruct (V3 (reals_down _ _ _ R1)) as [R3 X3].
  exists W4, (fun n m => (c3 n m : C) * RtoC ((1 / 2) ^ n))%C. split; [exact E6|]. split; [exact H4|]. split; [apply (reals_scal (fun n => (1 / 2) ^ n)), R3|].
  intros t. rewrite val_half. rewrite <- (back_turn v al Hv (vscale (1 / 2) t)) at 1. rewrite X3, val_down. rewrite <- (turn_back v al Hv (vadd _ _)), X1. f_equal. rewrite back_add, (back_turn v al Hv). f_equal.
  rewrite <- (octant_dir which k Ek). fold v al. rewrite !back_z by exact Hv. unfold vscale. cbn [vx vy vz]. apply vec_eq; cbn [vx vy vz]; field.
Qed.
