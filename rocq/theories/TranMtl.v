(** M_to_L. *)
From Coq Require Import Reals ZArith List Lia Lra Psatz.
From Coquelicot Require Import Coquelicot.
From Verif Require Import Base ListFacts LegSpec LegProofs LegAdd LapModel LapArrays LapProofs IndexModel SolidProofs SolidAdd SolidPair SolidTrans SolidMtl TranModel TranArrays TranWigner TranDmat TranTable TranOps TranField TranMove.
Import ListNotations.
Open Scope R_scope.

Definition weight (l : list (R * vec)) : R := fold_right (fun s v => Rabs (fst s) + v) 0 l.
Definition direct (scale : R) (D : vec) (l : list (R * vec)) (t : vec) : R :=
  fold_right (fun s v => scale * (fst s * / vnorm (vsub (vadd D (snd s)) t)) + v) 0 l.
Lemma field_bound p scale rho l S D t e : 0 <= scale -> 0 <= e -> (forall s, In s l ->
    Rabs (rsum (fun n => rsum (fun j => S n j (snd s) / rho ^ (n + j + 1)) (Datatypes.S p)) (Datatypes.S p) - / vnorm (vsub (vadd D (snd s)) t)) <= e) ->
  Rabs (field p scale rho l S - direct scale D l t) <= weight l * (scale * e).
Proof.
  intros Hs He. induction l as [|s l IH]; intros H; cbn [field direct weight fold_right].
  - rewrite Rminus_eq_0, Rabs_R0. lra.
  - fold (field p scale rho l S). fold (direct scale D l t). fold (weight l). specialize (IH (fun s' I => H s' (or_intror I))). specialize (H s (or_introl eq_refl)).
    set (A := rsum _ _) in *. set (B := / vnorm _) in *.
    replace (scale * (fst s * A) + field p scale rho l S - (scale * (fst s * B) + direct scale D l t)) with (fst s * scale * (A - B) + (field p scale rho l S - direct scale D l t)) by ring.
    eapply Rle_trans; [apply Rabs_triang|]. rewrite Rmult_plus_distr_r. apply Rplus_le_compat; [|exact IH]. rewrite !Rabs_mult, (Rabs_pos_eq scale Hs), Rmult_assoc. apply Rmult_le_compat_l; [apply Rabs_pos|]. apply Rmult_le_compat_l; assumption.
Qed.

Lemma pow_m1_even (z : Z) (k : nat) : z = Z.of_nat k -> pow_m1 z = (-1) ^ k.
Proof. intros ->. apply pow_m1_sgn. left. reflexivity. Qed.
Lemma sg_zp (n j k : nat) : pow_m1 (Z.of_nat n + Z.of_nat k) = (-1) ^ n * (-1) ^ k.
Proof. rewrite (pow_m1_even _ (n + k)) by lia. apply pow_add. Qed.
Lemma sg_zm (n j k : nat) : pow_m1 (Z.of_nat k + Z.of_nat j) = (-1) ^ j * (-1) ^ k.
Proof. rewrite (pow_m1_even _ (j + k)) by lia. apply pow_add. Qed.

Lemma err_nonneg a rho p : 0 < a -> 2 * a < rho -> 0 <= ((a + a) / rho) ^ S p / (rho - (a + a)).
Proof. intros. apply Rmult_le_pos; [apply pow_le, Rmult_le_pos; [lra|left; apply Rinv_0_lt_compat; lra]|left; apply Rinv_0_lt_compat; lra]. Qed.
Lemma vopp_norm y : vnorm (vopp y) = vnorm y.
Proof. apply vnorm_unique; [apply vnorm_pos|]. rewrite vnorm_sq. unfold vopp, vscale. cbn [vx vy vz]. ring. Qed.

Section MtL.
Variables (tb : table) (scale rho : R) (pr : list R).
Hypothesis HS : sound tb.
Hypothesis Hscale : 0 <= scale.
Hypothesis Hpr : forall j, (j <= 2 * tb_p tb)%nat -> nth_error pr j = Some (/ rho ^ S j).
Definition bound (a : R) : R := scale * (((a + a) / rho) ^ S (tb_p tb) / (rho - (a + a))).

Lemma across_mom sg cf l j k : (forall n m, (m <= n <= tb_p tb)%nat -> cf n m = mom l n m) -> across (tb_p tb) sg scale rho cf j k = across (tb_p tb) sg scale rho (mom l) j k.
Proof.
  intros H. unfold across. f_equal. apply csum_ext. intros n Hn. destruct (Nat.leb_spec k n); [|reflexivity]. rewrite H by lia. reflexivity.
Qed.
Lemma zp_ok M L cf l : coefs (tb_p tb) cf M -> length L = tri (S (tb_p tb)) -> (forall n m, (m <= n <= tb_p tb)%nat -> cf n m = mom l n m) ->
  exists L' c, M_to_L_zp tb scale M pr L = Ok L' /\ coefs (tb_p tb) c L' /\ reals (tb_p tb) c /\
    forall a t, 0 < a -> 2 * a < rho -> (forall s, In s l -> vnorm (snd s) <= a) -> vnorm t <= a -> Rabs (val (tb_p tb) c t - direct scale (zvec rho) l t) <= weight l * bound a.
Proof.
  intros HM HL Hl. destruct (m_to_l_z_ok tb (fun n j k => n + k)%Z (fun n j k => (-1) ^ n * (-1) ^ k) scale M rho pr L cf HS HM HL sg_zp Hpr) as (L' & E & H).
  exists L', (across (tb_p tb) (fun n j k => (-1) ^ n * (-1) ^ k) scale rho (mom l)). split; [exact E|]. split; [revert H; apply coefs_ext; intros; apply across_mom, Hl|]. split; [apply reals_across, reals_mom|].
  intros a t Ha Hr Hy Ht. rewrite (val_across _ _ _ _ _ _ (fun n j y => core n j (vopp y) t)).
  - apply field_bound; [exact Hscale|apply err_nonneg; assumption|]. intros s Hin. eapply Rle_trans; [|apply (core_total (tb_p tb) (vopp (snd s)) t a a rho); [rewrite vopp_norm; apply Hy, Hin|exact Ht|exact Ha|exact Ha|lra]].
    right. do 4 f_equal. apply vec_eq; unfold vsub, vadd, vopp, vscale, zvec; cbn [vx vy vz]; ring.
  - intros n j k. cbn [pow]. ring.
  - intros n j y. cbn [pow]. rewrite core_opp_l. ring.
Qed.
Lemma zm_ok M L cf l : coefs (tb_p tb) cf M -> length L = tri (S (tb_p tb)) -> (forall n m, (m <= n <= tb_p tb)%nat -> cf n m = mom l n m) ->
  exists L' c, M_to_L_zm tb scale M pr L = Ok L' /\ coefs (tb_p tb) c L' /\ reals (tb_p tb) c /\
    forall a t, 0 < a -> 2 * a < rho -> (forall s, In s l -> vnorm (snd s) <= a) -> vnorm t <= a -> Rabs (val (tb_p tb) c t - direct scale (zvec (- rho)) l t) <= weight l * bound a.
Proof.
  intros HM HL Hl. destruct (m_to_l_z_ok tb (fun n j k => k + j)%Z (fun n j k => (-1) ^ j * (-1) ^ k) scale M rho pr L cf HS HM HL sg_zm Hpr) as (L' & E & H).
  exists L', (across (tb_p tb) (fun n j k => (-1) ^ j * (-1) ^ k) scale rho (mom l)). split; [exact E|]. split; [revert H; apply coefs_ext; intros; apply across_mom, Hl|]. split; [apply reals_across, reals_mom|].
  intros a t Ha Hr Hy Ht. rewrite (val_across _ _ _ _ _ _ (fun n j y => core n j y (vopp t))).
  - apply field_bound; [exact Hscale|apply err_nonneg; assumption|]. intros s Hin. eapply Rle_trans; [|apply (core_total (tb_p tb) (snd s) (vopp t) a a rho); [apply Hy, Hin|rewrite vopp_norm; exact Ht|exact Ha|exact Ha|lra]].
    right. do 3 f_equal. rewrite <- vopp_norm. f_equal. f_equal. apply vec_eq; unfold vsub, vadd, vopp, vscale, zvec; cbn [vx vy vz]; ring.
  - intros n j k. cbn [pow]. ring.
  - intros n j y. cbn [pow]. rewrite core_opp_r. ring.
Qed.
End MtL.

Definition voff (s t : index) : vec := mkVec (IZR (ix s - ix t)) (IZR (iy s - iy t)) (IZR (iz s - iz t)).
Definition near3 (s t : index) : Prop := (-3 <= ix s - ix t <= 3 /\ -3 <= iy s - iy t <= 3 /\ -3 <= iz s - iz t <= 3)%Z.
Lemma voff_norm s t : vnorm (voff s t) = sqrt (IZR ((ix s - ix t) * (ix s - ix t) + (iy s - iy t) * (iy s - iy t) + (iz s - iz t) * (iz s - iz t))).
Proof. unfold vnorm, voff. cbn [vx vy vz]. rewrite !plus_IZR, !mult_IZR. reflexivity. Qed.

Lemma sqrt_ge1 z : (1 <= z)%Z -> 1 <= sqrt (IZR z).
Proof. intros H. rewrite <- sqrt_1. apply sqrt_le_1; [lra|apply (IZR_le 0); lia|apply (IZR_le 1), H]. Qed.
Lemma tiny_lt1 : tiny < 1.
Proof. unfold tiny. rewrite <- Rinv_1. apply Rinv_lt_contravar; [rewrite Rmult_1_l; apply pow_lt; lra|]. apply Rlt_pow_R1; [lra|lia]. Qed.

(** the azimuth *)
Definition azimuth (y : Z) (q : R) : R := if (y <? 0)%Z then 2 * PI - acos q else acos q.
Lemma azimuth_ok x y proj : 0 < proj -> proj * proj = IZR x * IZR x + IZR y * IZR y -> proj * cos (azimuth y (IZR x / proj)) = IZR x /\ proj * sin (azimuth y (IZR x / proj)) = IZR y.
Proof.
  intros P E. assert (B : -1 <= IZR x / proj <= 1).
  { assert (- proj <= IZR x <= proj) by nra. split; apply Rmult_le_reg_r with proj; try lra; unfold Rdiv; rewrite Rmult_assoc, Rinv_l by lra; lra. }
  assert (Cq : cos (acos (IZR x / proj)) = IZR x / proj) by (apply cos_acos, B). assert (Sq : sin (acos (IZR x / proj)) = sqrt (1 - (IZR x / proj)²)) by (apply sin_acos, B).
  assert (Sv : proj * sqrt (1 - (IZR x / proj)²) = Rabs (IZR y)).
  { rewrite <- (Rabs_pos_eq (proj * _)) by (apply Rmult_le_pos; [lra|apply sqrt_pos]). apply Rsqr_eq_abs_0. rewrite Rsqr_mult, Rsqr_sqrt.
    - unfold Rsqr. field_simplify_eq; [nra|lra].
    - unfold Rsqr. assert (IZR x / proj * (IZR x / proj) <= 1) by nra. lra. }
  unfold azimuth. destruct (Z.ltb_spec y 0) as [L|G].
  - replace (2 * PI - acos (IZR x / proj)) with (- acos (IZR x / proj) + 2 * INR 1 * PI) by (cbn [INR]; ring). rewrite cos_period, sin_period, cos_neg, sin_neg, Cq, Sq. split; [field; lra|].
    apply IZR_lt in L. rewrite Rabs_left in Sv by exact L. nra.
  - rewrite Cq, Sq. split; [field; lra|]. apply IZR_le in G. rewrite Rabs_pos_eq in Sv by exact G. exact Sv.
Qed.

Lemma direct_turn v al (Hv : -1 < v < 1) scale rho l t : direct scale (zvec rho) (mapv (turn v al) l) (turn v al t) = direct scale (back v al (zvec rho)) l t.
Proof.
  induction l as [|s l IH]; [reflexivity|]. cbn [mapv map direct fold_right fst snd]. fold (mapv (turn v al) l). fold (direct scale (zvec rho) (mapv (turn v al) l) (turn v al t)). fold (direct scale (back v al (zvec rho)) l t). rewrite IH. do 4 f_equal.
  rewrite <- (back_norm v al Hv). f_equal. rewrite <- (back_turn v al Hv (snd s)) at 2. rewrite <- (back_turn v al Hv t) at 2. unfold back, rz, rot_z, rot_y, vsub, vadd. cbn [vx vy vz]. apply vec_eq; cbn [vx vy vz]; ring.
Qed.
Lemma weight_mapv f l : weight (mapv f l) = weight l.
Proof. induction l as [|s l IH]; [reflexivity|]. cbn [mapv map weight fold_right fst]. fold (mapv f l). fold (weight (mapv f l)). rewrite IH. reflexivity. Qed.

Theorem M_to_L_ok tb scale s t M cf l : sound tb -> 0 <= scale -> near3 s t -> (ix s <> ix t \/ iy s <> iy t \/ iz s <> iz t) -> coefs (tb_p tb) cf M -> (forall n m, (m <= n <= tb_p tb)%nat -> cf n m = mom l n m) ->
  exists L c, M_to_L tb scale s t M = Ok L /\ coefs (tb_p tb) c L /\ reals (tb_p tb) c /\
    forall a x, 0 < a -> 2 * a < vnorm (voff s t) -> (forall s, In s l -> vnorm (snd s) <= a) -> vnorm x <= a ->
      Rabs (val (tb_p tb) c x - direct scale (voff s t) l x) <= weight l * bound tb scale (vnorm (voff s t)) a.
Proof.
  intros HS Hsc Hn Hne HM Hl. unfold M_to_L. rewrite voff_norm. set (x := (ix s - ix t)%Z). set (y := (iy s - iy t)%Z). set (z := (iz s - iz t)%Z).
  set (rho := sqrt (IZR (x * x + y * y + z * z))). assert (Pr : 1 <= rho) by (apply sqrt_ge1; assert (N : (x <> 0 \/ y <> 0 \/ z <> 0)%Z) by (unfold x, y, z; lia); clear - N; nia).
  assert (Sr : rho * rho = IZR x * IZR x + IZR y * IZR y + IZR z * IZR z) by (unfold rho; rewrite sqrt_sqrt; [rewrite !plus_IZR, !mult_IZR; reflexivity|apply (IZR_le 0); nia]).
  rewrite rdiv_ok by lra. cbn [bind]. rewrite set_res_ok by (rewrite repeat_length; lia). cbn [bind].
  destruct (fill_ok _ (fun v => rdiv v rho) (fun j => / rho ^ S j) (tb_p tb * 2) (upd (repeat 0 (tb_p tb * 2 + 1)) 0 (1 / rho))) as (pr & Epr & Hpr0).
  { rewrite upd_length, repeat_length. lia. }
  { rewrite nth_upd0 by lia. f_equal. simpl. field. lra. }
  { intros j _. rewrite rdiv_ok by lra. f_equal. cbn [pow]. field. split; [apply pow_nonzero; lra|lra]. }
  rewrite Epr. cbn [bind]. assert (Hpr : forall j, (j <= 2 * tb_p tb)%nat -> nth_error pr j = Some (/ rho ^ S j)) by (intros; apply Hpr0; lia).
  set (proj := sqrt (IZR (x * x + y * y))).
  assert (Sp : proj * proj = IZR x * IZR x + IZR y * IZR y) by (unfold proj; rewrite sqrt_sqrt; [rewrite !plus_IZR, !mult_IZR; reflexivity|apply (IZR_le 0); nia]).
  destruct (Rlt_dec proj tiny) as [Sm|Bg].
  - assert (XY : x = 0%Z /\ y = 0%Z).
    { destruct (Z.eq_dec (x * x + y * y) 0) as [E0|N0]; [nia|]. exfalso. pose proof (sqrt_ge1 (x * x + y * y) ltac:(nia)) as G. fold proj in G. pose proof tiny_lt1. lra. }
    destruct XY as [X0 Y0]. assert (Ez : rho = Rabs (IZR z)).
    { rewrite <- (Rabs_pos_eq rho) by lra. apply Rsqr_eq_abs_0. unfold Rsqr. rewrite Sr, X0, Y0. ring. }
    assert (Vo : voff s t = zvec (IZR z)) by (unfold voff, zvec; fold x y z; rewrite X0, Y0; reflexivity). rewrite Vo.
    destruct (Z.ltb_spec 0 z) as [Zp|Zn].
    + apply IZR_lt in Zp. rewrite Rabs_pos_eq in Ez by lra. rewrite <- Ez. apply (zp_ok tb scale rho pr HS Hsc Hpr M _ cf l HM (blank _) Hl).
    + apply IZR_le in Zn. rewrite Rabs_left1 in Ez by exact Zn. replace (IZR z) with (- rho) by lra. apply (zm_ok tb scale rho pr HS Hsc Hpr M _ cf l HM (blank _) Hl).
  - assert (Pp : 0 < proj) by (pose proof tiny_pos; lra). rewrite rdiv_ok by lra. cbn [bind]. fold (azimuth y (IZR x / proj)). set (be := azimuth y (IZR x / proj)).
    rewrite rdiv_ok by lra. cbn [bind]. set (v := IZR z / rho).
    assert (Nxy : (x <> 0 \/ y <> 0)%Z) by (destruct (Z.eq_dec x 0); [right|left; assumption]; destruct (Z.eq_dec y 0); [|assumption]; exfalso; subst x y; rewrite e, e0 in Sp; nra).
    destruct Hn as (Nx & Ny & Nz). fold x in Nx. fold y in Ny. fold z in Nz.
    assert (Kv : In v keys) by (apply key_offset; assumption). pose proof (keys_bound v Kv) as Hv.
    destruct (g_keys tb HS v Kv) as (dp & dm & Ep & Em & HR). unfold dmat_plus, dmat_minus. rewrite Ep. cbn [bind]. rewrite Em. cbn [bind].
    destruct (turn_ok v be Hv tb dp dm HR M (new_expansion (tb_p tb)) (repeat (0, 0) ((tb_p tb + 1) * (tb_p tb + 2) / 2)) cf HM (blank _) (blank _)) as (W1 & T1 & c1 & E1 & E2 & L1 & H1 & _ & V1).
    rewrite E1. cbn [bind]. rewrite E2. cbn [bind]. destruct (zp_ok tb scale rho pr HS Hsc Hpr T1 W1 c1 (mapv (turn v be) l) H1 L1 (V1 l Hl)) as (W2 & c2 & E3 & H2 & R2 & B2). rewrite E3. cbn [bind].
    destruct (back_ok v be Hv tb dp dm HR W2 W2 T1 _ H2 (sized _ _ _ H2) (sized _ _ _ H1)) as (W3 & T2 & c3 & E4 & E5 & H3 & V3 & _). rewrite E4. cbn [bind].
    destruct (V3 R2) as [R3 X3]. exists W3, c3. split; [exact E5|]. split; [exact H3|]. split; [exact R3|]. intros a w Pa Ba Hy Hw.
    assert (Vo : voff s t = back v be (zvec rho)).
    { rewrite back_z by exact Hv. destruct (azimuth_ok x y proj Pp Sp) as [Ca Sa]. fold be in Ca, Sa.
      assert (Ev : rho * sqrt (1 - v * v) = proj).
      { rewrite <- (Rabs_pos_eq (rho * _)) by (apply Rmult_le_pos; [lra|apply sqrt_pos]). rewrite <- (Rabs_pos_eq proj) by lra. apply Rsqr_eq_abs_0. rewrite Rsqr_mult, Rsqr_sqrt by nra. unfold Rsqr, v. field_simplify_eq; [nra|lra]. }
      rewrite Ev, Ca, Sa. unfold voff. fold x y z. f_equal. unfold v. field. lra. }
    rewrite <- (back_turn v be Hv w) at 1. rewrite X3, Vo, <- direct_turn by exact Hv. rewrite <- (weight_mapv (turn v be) l). apply B2; try assumption.
    + intros s' I. apply in_map_iff in I. destruct I as (s0 & <- & I). cbn [snd]. rewrite turn_norm by exact Hv. apply Hy, I.
    + rewrite turn_norm by exact Hv. exact Hw.
Qed.
