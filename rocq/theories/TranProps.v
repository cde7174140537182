(** C61-C64: the tables and the translations of the Laplace expansions. *)
From Coq Require Import Reals ZArith List Lia Lra Psatz.
From Coquelicot Require Import Coquelicot.
From Verif Require Import Base ListFacts IndexModel LapModel LapSpec LapArrays LapProofs SolidProofs SolidPair SolidTrans SolidAdd SolidMtl TranModel TranArrays TranDmat TranTable TranOps TranField TranMove TranMtl TranEval TranSpec TranProofs LapProps.
Import ListNotations.
Open Scope R_scope.

(** ** the tables *)

(** The table can be made for one to fourteen digits.  It then holds the square roots of the
    binomial coefficients. *)
Theorem C61_table : forall n_digits, (1 <= n_digits <= 14)%nat -> exists tb, laplace_table n_digits = Ok tb /\ nth_error expan_length n_digits = Some (tb_p tb) /\ table_of_order (tb_p tb) = Ok tb /\ (1 <= tb_p tb)%nat.
Proof.
  intros n H. unfold laplace_table. assert (E : exists p, nth_error expan_length n = Some p /\ (1 <= p)%nat) by (do 15 (destruct n as [|n]; [first [exfalso; lia|eexists; split; [reflexivity|lia]]|]); lia).
  destruct E as (p & E & Hp). unfold nth_res. rewrite E. cbn [bind]. destruct (table_of_order_ok p Hp) as (tb & Et & Ep & _). exists tb. rewrite Ep. auto.
Qed.
Print Assumptions C61_table.

Theorem C61_binomials : forall p tb, (1 <= p)%nat -> table_of_order p = Ok tb -> forall n k, (k <= n <= 2 * p)%nat ->
  nth_error (tb_sqbinom tb) (n * (n + 1) / 2 + k) = Some (sqrt (INR (fact n) / (INR (fact k) * INR (fact (n - k))))).
Proof. intros p tb Hp E n k H. destruct (table_good p tb Hp E) as [Ep HS]. rewrite <- Ep in H. exact (g_binom tb HS n k H). Qed.
Print Assumptions C61_binomials.

Lemma holds_rotation p beta d : holds p (cos (beta / 2)) (sin (beta / 2)) d -> rotation_matrix p beta d.
Proof.
  intros (a & _ & H & W) n m B. exists (a n m). split.
  - intros k Hk. rewrite <- (H n m k) by (try split; lia). f_equal. unfold dn. do 2 f_equal. pose proof (base_six n) as Z6. destruct n as [|n]; [reflexivity|].
    apply (Nat.mul_cancel_l _ _ 6); [lia|]. assert (X : (S n * (S n + 1) * (4 * S n - 1) = base (S n) * 6)%nat) by (apply Nat2Z.inj; rewrite !Nat2Z.inj_mul, Nat2Z.inj_add, Nat2Z.inj_sub, !Nat2Z.inj_mul by lia; change (Z.of_nat 1) with 1%Z; change (Z.of_nat 4) with 4%Z; change (Z.of_nat 6) with 6%Z; lia).
    rewrite X, Nat.div_mul by lia. reflexivity.
  - intros u v. etransitivity; [|exact (W n ltac:(lia) m ltac:(lia) u v)]. assert (G : forall f K, rsum_upto f K = rsum f (S K)) by (intros f K; induction K as [|K IH]; cbn [rsum_upto rsum] in *; [ring|rewrite IH; reflexivity]). apply G.
Qed.

(** For every direction between two boxes at most three boxes apart in each coordinate, other
    than straight up or down, dmat_plus and dmat_minus find the matrices of the rotations by
    the angle between the direction and the z axis. *)
Theorem C61_rotations : forall p tb x y z, (1 <= p)%nat -> table_of_order p = Ok tb -> (Z.abs x <= 3 /\ Z.abs y <= 3 /\ Z.abs z <= 3)%Z -> (x <> 0 \/ y <> 0)%Z ->
  let c := IZR z / sqrt (IZR (x * x + y * y + z * z)) in
  exists dp dm, dmat_plus tb c = Ok dp /\ dmat_minus tb c = Ok dm /\ rotation_matrix p (acos c) dp /\ rotation_matrix p (- acos c) dm.
Proof.
  intros p tb x y z Hp E (Hx & Hy & Hz) N c. destruct (table_good p tb Hp E) as [Ep HS]. destruct (g_keys tb HS c) as (dp & dm & E1 & E2 & R1 & R2); [apply key_offset; lia|]. exists dp, dm. rewrite Ep in R1, R2.
  split; [exact E1|]. split; [exact E2|]. split; apply holds_rotation; [exact R1|]. replace (- acos c / 2) with (- (acos c / 2)) by field. rewrite cos_neg, sin_neg. exact R2.
Qed.
Print Assumptions C61_rotations.

(** The keys are compared after rounding down to multiples of 1e-6.  No cosine in use but 0 is
    within 1e-9 of such a multiple, so an error in computing it does no harm. *)
Theorem C61_rounding : forall p tb x y z v, (1 <= p)%nat -> table_of_order p = Ok tb -> (Z.abs x <= 3 /\ Z.abs y <= 3 /\ Z.abs z <= 3)%Z -> (x <> 0 \/ y <> 0)%Z -> z <> 0%Z ->
  let c := IZR z / sqrt (IZR (x * x + y * y + z * z)) in Rabs (v - c) < 1 / 10 ^ 9 -> dmat_plus tb v = dmat_plus tb c /\ dmat_minus tb v = dmat_minus tb c.
Proof.
  intros p tb x y z v Hp E (Hx & Hy & Hz) N Nz c Hv. assert (I : In c keys) by (apply key_offset; lia).
  assert (F : fl v = fl c).
  { apply fl_near; [exact I| |replace 1000000000 with (10 ^ 9) by ring; exact Hv]. intros C0. unfold c, Rdiv in C0. apply Rmult_integral in C0. destruct C0 as [C0|C0]; [apply (eq_IZR z 0) in C0; lia|].
    revert C0. apply Rinv_neq_0_compat. apply Rgt_not_eq, sqrt_lt_R0, (IZR_lt 0). nia. }
  split; apply map_at_fl, F.
Qed.
Print Assumptions C61_rounding.

(** Four boxes apart is too far: the table has no matrix for the offset (4, 0, 1) and M_to_L
    throws. *)
Theorem C61_too_far : forall p tb scale s t M, (1 <= p)%nat -> table_of_order p = Ok tb -> (ix s - ix t = 4)%Z -> (iy s - iy t = 0)%Z -> (iz s - iz t = 1)%Z -> M_to_L tb scale s t M = Fail Oob.
Proof.
  intros p tb scale s t M Hp E Hx Hy Hz. destruct (table_good p tb Hp E) as [Ep HS]. unfold M_to_L. rewrite Hx, Hy, Hz. change (4 * 4 + 0 * 0 + 1 * 1)%Z with 17%Z. change (4 * 4 + 0 * 0)%Z with 16%Z.
  assert (S16 : sqrt (IZR 16) = 4) by (replace (IZR 16) with (4 * 4) by (simpl; ring); apply sqrt_square; lra). assert (S17 : 0 < sqrt (IZR 17)) by (apply sqrt_lt_R0; lra).
  unfold rdiv at 1. destruct (Req_EM_T (sqrt (IZR 17)) 0) as [Z0|Z0]; [lra|]. cbn [bind]. rewrite set_res_ok by (rewrite repeat_length; lia). cbn [bind].
  destruct (fill_ok _ (fun v => rdiv v (sqrt (IZR 17))) (fun j => / sqrt (IZR 17) ^ S j) (tb_p tb * 2) (upd (repeat 0 (tb_p tb * 2 + 1)) 0 (1 / sqrt (IZR 17)))) as (pr & Epr & _).
  - rewrite upd_length, repeat_length. lia.
  - rewrite upd_same by (rewrite repeat_length; lia). f_equal. simpl pow. field. lra.
  - intros j _. unfold rdiv. destruct (Req_EM_T (sqrt (IZR 17)) 0); [lra|]. f_equal. set (r := sqrt (IZR 17)) in *. change (r ^ S (S j)) with (r * r ^ S j). assert (r ^ S j <> 0) by (apply pow_nonzero; lra). field. split; [assumption|lra].
  - rewrite Epr. cbn [bind]. rewrite S16. pose proof tiny_lt1. destruct (Rlt_dec 4 tiny); [lra|]. unfold rdiv at 1. destruct (Req_EM_T 4 0); [lra|]. cbn [bind]. unfold rdiv at 1. destruct (Req_EM_T (sqrt (IZR 17)) 0); [lra|]. cbn [bind].
    destruct (g_other tb HS (1 / sqrt (IZR 17)) key_missing) as [F _]. rewrite F. reflexivity.
Qed.
Print Assumptions C61_too_far.

(** With no digits, or with more than fourteen, the constructor writes or reads outside of its
    arrays. *)
Theorem C61_digits_refuted : laplace_table 0 = Fail Oob /\ forall n, (14 < n)%nat -> laplace_table n = Fail Oob.
Proof.
  split.
  - unfold laplace_table. cbn [expan_length nth_res nth_error bind]. unfold table_of_order. destruct (sqf_ok 0) as (a & E & _). rewrite E. cbn [bind]. reflexivity.
  - intros n H. unfold laplace_table, nth_res. replace (nth_error expan_length n) with (@None nat); [reflexivity|]. symmetry. apply nth_error_None. cbn. lia.
Qed.
Print Assumptions C61_digits_refuted.

Example C61_nonvacuous : exists tb dp dm, laplace_table 3 = Ok tb /\ tb_p tb = 9%nat /\ dmat_plus tb (-2 / 3) = Ok dp /\ dmat_minus tb (-2 / 3) = Ok dm /\ rotation_matrix 9 (acos (-2 / 3)) dp /\ dmat_plus tb (- (666666666 / 10 ^ 9)) = Ok dp.
Proof.
  destruct (C61_table 3 ltac:(lia)) as (tb & E & Ep & Et & Hp). assert (P9 : tb_p tb = 9%nat) by (cbn in Ep; congruence). rewrite P9 in *. exists tb.
  assert (S9 : IZR (-2) / sqrt (IZR (2 * 2 + 1 * 1 + -2 * -2)) = -2 / 3) by (replace (IZR (2 * 2 + 1 * 1 + -2 * -2)) with (3 * 3) by (simpl; ring); rewrite sqrt_square by lra; reflexivity).
  destruct (C61_rotations 9 tb 2 1 (-2) Hp Et ltac:(lia) ltac:(lia)) as (dp & dm & E1 & E2 & R1 & _). exists dp, dm. rewrite S9 in *.
  destruct (C61_rounding 9 tb 2 1 (-2) (- (666666666 / 10 ^ 9)) Hp Et ltac:(lia) ltac:(lia) ltac:(lia)) as [F _]; rewrite S9 in *; [apply Rabs_def1; lra|].
  repeat split; try assumption. rewrite F. exact E1.
Qed.

(** ** where points are taken to lie *)

(** [rounded] is close and at the same distance, and does nothing away from the directions
    the code rounds. *)
Theorem C62_rounded : forall c x, x <> c -> seen c x (rounded c x).
Proof. exact rounded_seen. Qed.
Print Assumptions C62_rounded.
Lemma regular_rounded c x : regular c x -> rounded c x = x.
Proof.
  intros H. assert (N : x <> c). { intros ->. destruct H as [H _]. assert (T : 0 < / 10 ^ 14) by (apply Rinv_0_lt_compat, pow_lt; lra). unfold dist in H. replace ((px c - px c) ^ 2 + (py c - py c) ^ 2 + (pz c - pz c) ^ 2) with 0 in H by ring. rewrite sqrt_0 in H. lra. }
  apply (rounded_seen c x N), H.
Qed.
Lemma rounded_regular c l : (forall s, In s l -> regular c (cpos s)) -> rounded_charges c l = l.
Proof.
  intros H. unfold rounded_charges. rewrite <- (map_id l) at 2. apply map_ext_in. intros s I. rewrite regular_rounded by (apply H, I). destruct s; reflexivity.
Qed.

(** ** M_to_M *)

(** Translating the multipole expansion of a child gives the expansion that S_to_M makes for
    the parent from the same sources: nothing is lost. *)
Theorem C62_exact : forall p tb corner size i k l M, (1 <= p)%nat -> table_of_order p = Ok tb -> 0 < size -> (k < 8)%nat ->
  (forall s, In s l -> regular (middle corner size i) (cpos s) /\ regular (middle corner size (child (Z.of_nat k) i)) (cpos s)) ->
  S_to_M p (tb_sqf tb) (level_scale size (ilevel i + 1)) (box_center corner size (child (Z.of_nat k) i)) l = Ok M ->
  exists M', M_to_M tb k M = Ok M' /\ S_to_M p (tb_sqf tb) (level_scale size (ilevel i)) (box_center corner size i) l = Ok M'.
Proof.
  intros p tb corner size i k l M Hp E Hs Hk Hl EM. destruct (table_good p tb Hp E) as [Ep HS]. subst p. set (i' := child (Z.of_nat k) i) in *.
  pose proof (sources_mom corner size Hs tb HS i' l M EM) as HM. destruct (M_to_M_ok tb k M _ (rels corner size i' (rounded_charges (middle corner size i') l)) HS Hk HM ltac:(reflexivity)) as (M' & E' & H').
  rewrite (rounded_regular (middle corner size i')) in H' by (intros; apply Hl; assumption). unfold i' in H'. rewrite (rels_child corner size Hs) in H' by exact Hk. exists M'. split; [exact E'|].
  assert (T : 0 < / 10 ^ 14) by (apply Rinv_0_lt_compat, pow_lt; lra).
  destruct (C60_only_centre (tb_p tb) (tb_sqf tb) (level_scale size (ilevel i)) (box_center corner size i) l (g_sqf tb HS)) as [[_ X] _]; [pose proof (scale_pos size Hs (ilevel i)); lra|].
  destruct X as [M2 E2].
  { intros s I Ec. destruct (Hl s I) as [[R _] _]. rewrite Ec, box_center_middle in R. unfold dist in R. set (c := middle corner size i) in *. replace ((px c - px c) ^ 2 + (py c - py c) ^ 2 + (pz c - pz c) ^ 2) with 0 in R by ring. rewrite sqrt_0 in R. lra. }
  rewrite E2. apply f_equal. pose proof (sources_mom corner size Hs tb HS i l M2 E2) as H2. rewrite (rounded_regular (middle corner size i)) in H2 by (intros; apply Hl; assumption). exact (coefs_unique _ _ _ _ H2 H').
Qed.
Print Assumptions C62_exact.

(** In the upward pass no operation fails, except S_to_M for a source at the centre of its box. *)
Theorem C62_total : forall p tb corner size, (1 <= p)%nat -> table_of_order p = Ok tb -> 0 < size ->
  (forall i l, (forall s, In s l -> cpos s <> middle corner size i) -> exists M, S_to_M p (tb_sqf tb) (level_scale size (ilevel i)) (box_center corner size i) l = Ok M) /\
  (forall i k l M, (k < 8)%nat -> upward tb corner size (child (Z.of_nat k) i) l M -> exists M', M_to_M tb k M = Ok M') /\
  (forall i l1 l2 M1 M2, upward tb corner size i l1 M1 -> upward tb corner size i l2 M2 -> exists M, add_expansion M1 M2 = Ok M).
Proof.
  intros p tb corner size Hp E Hs. destruct (table_good p tb Hp E) as [Ep HS]. subst p. split; [|split].
  - intros i l Hl. apply C60_only_centre; [apply (g_sqf tb HS)|pose proof (scale_pos size Hs (ilevel i)); lra|]. intros s I. rewrite box_center_middle. apply Hl, I.
  - intros i k l M Hk H. destruct (up_inv corner size Hs tb HS _ _ _ H) as [HM _]. destruct (M_to_M_ok tb k M _ _ HS Hk HM ltac:(reflexivity)) as (M' & E' & _). eauto.
  - intros i l1 l2 M1 M2 H1 H2. destruct (up_inv corner size Hs tb HS _ _ _ H1) as [A1 _]. destruct (up_inv corner size Hs tb HS _ _ _ H2) as [A2 _]. destruct (add_coefs _ _ _ _ _ A1 A2) as (M & EM & _). eauto.
Qed.
Print Assumptions C62_total.

(** A multipole expansion made by any sequence of S_to_M, M_to_M and additions, evaluated by
    M_to_T outside of the sphere around its box, is off by no more than the truncation error of
    one expansion of all its sources. *)
Theorem C62_upward : forall p tb corner size i l M t phi, (1 <= p)%nat -> table_of_order p = Ok tb -> 0 < size -> upward tb corner size i l M ->
  let c := middle corner size i in let a := radius size (ilevel i) in a < dist c t ->
  exists v, M_to_T p (tb_sqf tb) (level_scale size (ilevel i)) (box_center corner size i) M t phi = Ok (phi + v) /\
    Rabs (v - coulomb l (rounded c t)) <= total_charge l / (dist c t - a) * (a / dist c t) ^ (p + 1).
Proof.
  intros p tb corner size i l M t phi Hp E Hs H c a Ht. destruct (table_good p tb Hp E) as [Ep HS]. subst p. rewrite Nat.add_1_r. exact (up_value corner size Hs tb HS i l M t phi H Ht).
Qed.
Print Assumptions C62_upward.

(** ** L_to_L *)

(** The local expansion of a child gives, at every point, the same value as that of the
    parent it was made from. *)
Theorem C63_exact : forall p tb corner size i k L, (1 <= p)%nat -> table_of_order p = Ok tb -> 0 < size -> (k < 8)%nat -> expansion p L ->
  exists L', L_to_L tb k L = Ok L' /\ expansion p L' /\ forall t phi, regular (middle corner size i) t -> regular (middle corner size (child (Z.of_nat k) i)) t ->
    exists v, L_to_T p (tb_sqf tb) (level_scale size (ilevel i)) (box_center corner size i) L t phi = Ok v /\
              L_to_T p (tb_sqf tb) (level_scale size (ilevel i + 1)) (box_center corner size (child (Z.of_nat k) i)) L' t phi = Ok v.
Proof.
  intros p tb corner size i k L Hp E Hs Hk [Len Hre]. destruct (table_good p tb Hp E) as [Ep HS]. subst p.
  assert (HL : coefs (tb_p tb) (fun n m => nth (midx n m) L (0, 0)) L).
  { split; [rewrite Len; apply size_tri|]. intros n m B. apply nth_error_nth'. rewrite Len, size_tri. apply midx_lt; lia. }
  assert (Rl : reals (tb_p tb) (fun n m => nth (midx n m) L (0, 0))).
  { intros n Hn. destruct (Hre n Hn) as [v Ev]. unfold midx. rewrite Nat.add_0_r, (nth_error_nth _ _ _ Ev). reflexivity. }
  destruct (L_to_L_ok tb k L _ HS Hk HL Rl) as (L' & c' & E' & H1 & H2 & H3). exists L'. split; [exact E'|]. split.
  { destruct H1 as [Len' H1]. split; [rewrite Len'; symmetry; apply size_tri|]. intros n Hn. exists (fst (c' n 0%nat)). specialize (H1 n 0%nat ltac:(lia)). unfold midx in H1. rewrite Nat.add_0_r in H1. rewrite H1. f_equal. rewrite (surjective_pairing (c' n 0%nat)) at 1. f_equal. apply H2, Hn. }
  intros t phi R1 R2. assert (T : 0 < / 10 ^ 14) by (apply Rinv_0_lt_compat, pow_lt; lra).
  assert (D1 : 0 < norm3 (point_sub t (box_center corner size i))) by (rewrite box_center_middle, norm3_dist; destruct R1; lra).
  assert (D2 : 0 < norm3 (point_sub t (box_center corner size (child (Z.of_nat k) i)))) by (rewrite box_center_middle, norm3_dist; destruct R2; lra).
  pose proof (eval_l _ _ _ (level_scale size (ilevel i)) _ L (HT tb HS) HL D1 (scale_pos size Hs _)) as E1. pose proof (eval_l _ _ _ (level_scale size (ilevel (child (Z.of_nat k) i))) _ L' (HT tb HS) H1 D2 (scale_pos size Hs _)) as E2.
  rewrite scaled_rel, regular_rounded in E1, E2 by assumption. unfold L_to_T. rewrite E1. change (ilevel i + 1)%Z with (ilevel (child (Z.of_nat k) i)). rewrite E2. cbn [bind]. eexists. split; [reflexivity|]. do 2 f_equal.
  rewrite H3. f_equal. rewrite (rel_child corner size Hs i k t Hk). unfold vadd, vscale. apply vec_eq; cbn [vx vy vz]; ring.
Qed.
Print Assumptions C63_exact.

(** ** M_to_L and the downward pass *)

Theorem C64_total : forall p tb corner size, (1 <= p)%nat -> table_of_order p = Ok tb -> 0 < size ->
  (forall i l, (forall s, In s l -> cpos s <> middle corner size i) -> exists L, S_to_L p (tb_sqf tb) (level_scale size (ilevel i)) (box_center corner size i) l = Ok L) /\
  (forall i j l M, separated j i -> upward tb corner size j l M -> exists L, M_to_L tb (level_scale size (ilevel j)) j i M = Ok L) /\
  (forall i k l L, (k < 8)%nat -> downward tb corner size i l L -> exists L', L_to_L tb k L = Ok L') /\
  (forall i l1 l2 L1 L2, downward tb corner size i l1 L1 -> downward tb corner size i l2 L2 -> exists L, add_expansion L1 L2 = Ok L).
Proof.
  intros p tb corner size Hp E Hs. destruct (table_good p tb Hp E) as [Ep HS]. subst p. split; [|split; [|split]].
  - intros i l Hl. apply C60_only_centre; [apply (g_sqf tb HS)|pose proof (scale_pos size Hs (ilevel i)); lra|]. intros s I. rewrite box_center_middle. apply Hl, I.
  - intros i j l M (_ & (N1 & N2 & N3) & F) H. destruct (up_inv corner size Hs tb HS _ _ _ H) as [HM _]. destruct (M_to_L_ok tb (level_scale size (ilevel j)) j i M _ (rels corner size j l) HS ltac:(left; apply scale_pos, Hs) ltac:(split; [|split]; lia) ltac:(lia) HM ltac:(reflexivity)) as (L & _ & EL & _). eauto.
  - intros i k l L Hk H. destruct (dn_inv corner size Hs tb HS _ _ _ H) as (c & HL & Rl & _). destruct (L_to_L_ok tb k L _ HS Hk HL Rl) as (L' & _ & EL & _). eauto.
  - intros i l1 l2 L1 L2 H1 H2. destruct (dn_inv corner size Hs tb HS _ _ _ H1) as (c1 & A1 & _). destruct (dn_inv corner size Hs tb HS _ _ _ H2) as (c2 & A2 & _). destruct (add_coefs _ _ _ _ _ A1 A2) as (L & EL & _). eauto.
Qed.
Print Assumptions C64_total.

(** One M_to_L: the error is that of truncating both expansions, for sources and target
    within [a] of the centres of their boxes. *)
Theorem C64_m_to_l : forall p tb corner size s t l M a, (1 <= p)%nat -> table_of_order p = Ok tb -> 0 < size -> ilevel s = ilevel t ->
  (Z.abs (ix s - ix t) <= 3 /\ Z.abs (iy s - iy t) <= 3 /\ Z.abs (iz s - iz t) <= 3)%Z ->
  let R := dist (middle corner size s) (middle corner size t) in
  0 < a -> 2 * a < R -> (forall q, In q l -> dist (middle corner size s) (cpos q) <= a /\ regular (middle corner size s) (cpos q)) ->
  S_to_M p (tb_sqf tb) (level_scale size (ilevel s)) (box_center corner size s) l = Ok M ->
  exists L, M_to_L tb (level_scale size (ilevel s)) s t M = Ok L /\ expansion p L /\
    forall x phi, dist (middle corner size t) x <= a -> regular (middle corner size t) x ->
      exists v, L_to_T p (tb_sqf tb) (level_scale size (ilevel t)) (box_center corner size t) L x phi = Ok (phi + v) /\
        Rabs (v - coulomb l x) <= total_charge l / (R - 2 * a) * (2 * a / R) ^ (p + 1).
Proof.
  intros p tb corner size s t l M a Hp E Hs El (N1 & N2 & N3) R Ha HR Hl EM. destruct (table_good p tb Hp E) as [Ep HS]. subst p. pose proof (side_pos size (ilevel t) Hs) as P. set (h := side size (ilevel t)) in *.
  assert (ER : R = h * vnorm (voff s t)).
  { unfold R. rewrite <- norm3_dist. symmetry. pose proof (rel_diff corner size Hs t s (middle corner size s) (middle corner size t) El) as D. rewrite <- norm3_dist in D. fold h in D.
    replace (vsub (vadd (voff s t) (rel corner size s (middle corner size s))) (rel corner size t (middle corner size t))) with (voff s t) in D by (unfold rel, vsub, vadd, vscale, tov, point_sub, voff; apply vec_eq; cbn [vx vy vz px py pz]; ring).
    rewrite D. replace (norm3 (point_sub (middle corner size t) (middle corner size s))) with (norm3 (point_sub (middle corner size s) (middle corner size t))) by (unfold norm3, point_sub; cbn [px py pz]; f_equal; ring). field. lra. }
  assert (Ne : ix s <> ix t \/ iy s <> iy t \/ iz s <> iz t).
  { destruct (Z.eq_dec (ix s) (ix t)) as [X|]; [|left; assumption]. destruct (Z.eq_dec (iy s) (iy t)) as [Y|]; [|right; left; assumption]. right. right. intros Z. exfalso. replace (vnorm (voff s t)) with 0 in ER; [lra|].
    symmetry. apply vnorm_unique; [lra|]. unfold voff. rewrite X, Y, Z, !Z.sub_diag. cbn [vx vy vz]. ring. }
  pose proof (sources_mom corner size Hs tb HS s l M EM) as HM. rewrite rounded_regular in HM by (intros; apply Hl; assumption).
  destruct (M_to_L_ok tb (level_scale size (ilevel s)) s t M _ (rels corner size s l) HS ltac:(left; apply scale_pos, Hs) ltac:(split; [|split]; lia) Ne HM ltac:(reflexivity)) as (L & c & EL & H1 & H2 & H3). exists L. split; [exact EL|]. split.
  { destruct H1 as [Len' H1]. split; [rewrite Len'; symmetry; apply size_tri|]. intros n Hn. exists (fst (c n 0%nat)). specialize (H1 n 0%nat ltac:(lia)). unfold midx in H1. rewrite Nat.add_0_r in H1. rewrite H1. f_equal. rewrite (surjective_pairing (c n 0%nat)) at 1. f_equal. apply H2, Hn. }
  intros x phi Hx Rx. assert (T : 0 < / 10 ^ 14) by (apply Rinv_0_lt_compat, pow_lt; lra). assert (D1 : 0 < norm3 (point_sub x (box_center corner size t))) by (rewrite box_center_middle, norm3_dist; destruct Rx; lra).
  pose proof (eval_l _ _ _ (level_scale size (ilevel t)) _ L (HT tb HS) H1 D1 (scale_pos size Hs _)) as E1. rewrite scaled_rel, regular_rounded in E1 by assumption. unfold L_to_T. rewrite E1. cbn [bind]. eexists. split; [reflexivity|].
  assert (In1 : forall q, In q l -> vnorm (rel corner size s (cpos q)) <= a / h). { intros q I. rewrite rel_norm, El by exact Hs. fold h. unfold Rdiv. apply Rmult_le_compat_r; [left; apply Rinv_0_lt_compat, P|apply Hl, I]. }
  assert (In2 : vnorm (rel corner size t x) <= a / h). { rewrite rel_norm by exact Hs. fold h. unfold Rdiv. apply Rmult_le_compat_r; [left; apply Rinv_0_lt_compat, P|exact Hx]. }
  assert (Vn : vnorm (voff s t) = R / h) by (rewrite ER; field; lra). assert (Q : 0 < / h) by (apply Rinv_0_lt_compat, P).
  specialize (H3 (a / h) (rel corner size t x)). rewrite El, direct_coulomb, weight_rels in H3; [|exact Hs|exact El|].
  - eapply Rle_trans; [apply H3|].
    + apply Rdiv_lt_0_compat; assumption.
    + rewrite Vn. unfold Rdiv. nra.
    + intros y I. destruct (rels_in corner size s l y I) as (q & I' & ->). apply In1, I'.
    + exact In2.
    + rewrite Vn. unfold bound. rewrite level_scale_side by exact Hs. fold h. right. rewrite Nat.add_1_r. replace ((a / h + a / h) / (R / h)) with (2 * a / R) by (field; lra). set (w := (2 * a / R) ^ S (tb_p tb)). field. lra.
  - intros q I. pose proof (rel_diff corner size Hs t s (cpos q) x El) as Df. fold h in Df.
    assert (T1 : vnorm (voff s t) <= vnorm (vsub (vadd (voff s t) (rel corner size s (cpos q))) (rel corner size t x)) + (vnorm (rel corner size t x) + vnorm (rel corner size s (cpos q)))).
    { set (u := voff s t). set (b := rel corner size s (cpos q)). set (d := rel corner size t x). replace u with (vadd (vsub (vadd u b) d) (vadd d (vopp b))) at 1 by (unfold vadd, vsub, vopp, vscale; apply vec_eq; cbn [vx vy vz]; ring).
      eapply Rle_trans; [apply vnorm_triang|]. apply Rplus_le_compat_l. rewrite <- (vopp_norm b). apply vnorm_triang. }
    rewrite Df, Vn in T1. specialize (In1 q I). assert (G : R / h <= dist x (cpos q) / h + 2 * a / h) by (unfold Rdiv in *; lra).
    apply (Rmult_le_compat_r h) in G; [|lra]. unfold Rdiv in G. rewrite Rmult_plus_distr_r, !Rmult_assoc, Rinv_l in G by lra. lra.
Qed.
Print Assumptions C64_m_to_l.

(** A local expansion made by any sequence of S_to_L from outside of the neighbours, M_to_L
    from boxes that are not neighbours, L_to_L and additions, evaluated by L_to_T in its box. *)
Theorem C64_downward : forall p tb corner size i l L t phi, (1 <= p)%nat -> table_of_order p = Ok tb -> 0 < size -> downward tb corner size i l L ->
  let c := middle corner size i in 0 < dist c t <= radius size (ilevel i) ->
  exists v, L_to_T p (tb_sqf tb) (level_scale size (ilevel i)) (box_center corner size i) L t phi = Ok (phi + v) /\
    Rabs (v - coulomb l (rounded c t)) <= total_charge l / side size (ilevel i) * ((sqrt 3 / 2) ^ (p + 1) / (2 - sqrt 3)).
Proof.
  intros p tb corner size i l L t phi Hp E Hs H c Ht. destruct (table_good p tb Hp E) as [Ep HS]. subst p. rewrite Nat.add_1_r. exact (dn_value corner size Hs tb HS i l L t phi H Ht).
Qed.
Print Assumptions C64_downward.

(** A charge in a box of level 3, translated to the parent, to a box two away and into a child
    of that. *)
Definition ex_corner : pt := mkPt 0 0 0.
Definition ex_box : index := mkIndex 0 0 0 2.
Definition ex_far : index := mkIndex 2 1 0 2.
Definition ex_charge : charge := mkCharge 2 (mkPt (1 / 2) (1 / 2) (3 / 4)).
Lemma ex_side2 : side 8 2 = 2.
Proof. unfold side. simpl powerRZ. field. Qed.
Lemma ex_side3 : side 8 3 = 1.
Proof. unfold side. simpl powerRZ. field. Qed.
Lemma ex_mid1 : middle ex_corner 8 (child (Z.of_nat 0) ex_box) = mkPt (1 / 2) (1 / 2) (1 / 2).
Proof. unfold middle. change (ilevel (child (Z.of_nat 0) ex_box)) with 3%Z. rewrite ex_side3. cbn. f_equal; lra. Qed.
Lemma ex_mid2 : middle ex_corner 8 ex_box = mkPt 1 1 1.
Proof. unfold middle. change (ilevel ex_box) with 2%Z. rewrite ex_side2. cbn. f_equal; lra. Qed.
Lemma ex_mid4 : middle ex_corner 8 (child (Z.of_nat 7) ex_far) = mkPt (11 / 2) (7 / 2) (3 / 2).
Proof. unfold middle. change (ilevel (child (Z.of_nat 7) ex_far)) with 3%Z. rewrite ex_side3. cbn. f_equal; lra. Qed.
Lemma ex_tiny : 0 < / 10 ^ 14 < 1 / 10.
Proof. split; [apply Rinv_0_lt_compat, pow_lt; lra|]. replace (1 / 10) with (/ 10) by lra. apply Rinv_lt_contravar; [apply Rmult_lt_0_compat; [lra|apply pow_lt; lra]|]. rewrite <- (pow_1 10) at 1. apply Rlt_pow; [lra|lia]. Qed.
Lemma ex_up_dist a b c d : d <= c -> dist (mkPt a b d) (mkPt a b c) = c - d /\ off_axis (mkPt a b d) (mkPt a b c) = 0.
Proof.
  intros H. unfold dist, off_axis. cbn [px py pz]. split; [replace (_ + _ + _) with ((c - d) * (c - d)) by ring; apply sqrt_square; lra|]. replace (_ + _) with 0 by ring. apply sqrt_0.
Qed.
Lemma ex_up_regular a b c d : d + 1 / 4 <= c -> regular (mkPt a b d) (mkPt a b c).
Proof. intros H. destruct (ex_up_dist a b c d ltac:(lra)) as [D O]. pose proof ex_tiny. split; [rewrite D; lra|left; exact O]. Qed.
Lemma ex_child tb : table_of_order 9 = Ok tb -> exists M, upward tb ex_corner 8 (child (Z.of_nat 0) ex_box) [ex_charge] M.
Proof.
  intros E. assert (H9 : (1 <= 9)%nat) by lia. destruct (table_good 9 tb H9 E) as [Ep _]. destruct (C62_total 9 tb ex_corner 8 H9 E ltac:(lra)) as [T _].
  assert (D : dist (mkPt (1 / 2) (1 / 2) (1 / 2)) (cpos ex_charge) = 1 / 4) by (destruct (ex_up_dist (1 / 2) (1 / 2) (3 / 4) (1 / 2) ltac:(lra)) as [D _]; cbn [ex_charge cpos]; rewrite D; lra).
  destruct (T (child (Z.of_nat 0) ex_box) [ex_charge]) as [M EM].
  - intros s [<-|[]]. rewrite ex_mid1. cbn [ex_charge cpos]. intros F. injection F. lra.
  - exists M. rewrite <- (rounded_regular (middle ex_corner 8 (child (Z.of_nat 0) ex_box)) [ex_charge]).
    + apply up_sources; [|rewrite Ep; exact EM]. intros s [<-|[]]. rewrite ex_mid1, D. unfold radius. change (ilevel _) with 3%Z. rewrite ex_side3. pose proof sqrt3_lt. lra.
    + intros s [<-|[]]. rewrite ex_mid1. apply ex_up_regular. lra.
Qed.
Lemma ex_parent tb : table_of_order 9 = Ok tb -> exists M, upward tb ex_corner 8 ex_box [ex_charge] M.
Proof.
  intros E. destruct (ex_child tb E) as [M H]. assert (H9 : (1 <= 9)%nat) by lia. destruct (C62_total 9 tb ex_corner 8 H9 E ltac:(lra)) as (_ & T & _). destruct (T ex_box 0%nat [ex_charge] M ltac:(lia) H) as [M' E']. exists M'. eapply up_child; [|exact H|exact E']. lia.
Qed.
Example C62_nonvacuous : exists tb M v, laplace_table 3 = Ok tb /\ upward tb ex_corner 8 ex_box [ex_charge] M /\
  M_to_T 9 (tb_sqf tb) (level_scale 8 2) (box_center ex_corner 8 ex_box) M (mkPt 1 1 6) 7 = Ok (7 + v) /\ Rabs (v - coulomb [ex_charge] (mkPt 1 1 6)) <= 2 / (5 - sqrt 3) * (sqrt 3 / 5) ^ 10.
Proof.
  destruct (C61_table 3 ltac:(lia)) as (tb & E & Ep & Et & Hp). assert (P9 : tb_p tb = 9%nat) by (cbn in Ep; congruence). rewrite P9 in *. destruct (ex_parent tb Et) as [M H]. exists tb, M. pose proof sqrt3_lt as S3.
  destruct (ex_up_dist 1 1 6 1 ltac:(lra)) as [D _]. assert (Ra : radius 8 (ilevel ex_box) = sqrt 3) by (unfold radius; change (ilevel ex_box) with 2%Z; rewrite ex_side2; field).
  destruct (C62_upward 9 tb ex_corner 8 ex_box [ex_charge] M (mkPt 1 1 6) 7 Hp Et ltac:(lra) H) as (v & Ev & B); [rewrite Ra, ex_mid2, D; lra|]. exists v. split; [exact E|]. split; [exact H|]. split; [exact Ev|].
  rewrite Ra, ex_mid2, D, regular_rounded in B by (apply ex_up_regular; lra). eapply Rle_trans; [exact B|]. right. unfold total_charge. cbn [fold_right ex_charge cq]. rewrite Rabs_right by lra. replace (6 - 1) with 5 by ring. change (9 + 1)%nat with 10%nat. f_equal. f_equal. ring.
Qed.

Example C63_nonvacuous : exists tb L' v, table_of_order 1 = Ok tb /\ let L := [(3, 0); (5, 0); (1, 2)] in expansion 1 L /\ L_to_L tb 7 L = Ok L' /\
  L_to_T 1 (tb_sqf tb) (level_scale 8 2) (box_center ex_corner 8 ex_box) L (mkPt (3 / 2) (3 / 2) 2) 0 = Ok v /\ L_to_T 1 (tb_sqf tb) (level_scale 8 3) (box_center ex_corner 8 (child 7 ex_box)) L' (mkPt (3 / 2) (3 / 2) 2) 0 = Ok v.
Proof.
  destruct (table_of_order_ok 1 ltac:(lia)) as (tb & Et & _). exists tb. assert (X : expansion 1 [(3, 0); (5, 0); (1, 2)]) by (split; [reflexivity|]; intros n Hn; destruct n as [|[|n]]; [eexists; reflexivity|eexists; reflexivity|lia]).
  destruct (C63_exact 1 tb ex_corner 8 ex_box 7 _ ltac:(lia) Et ltac:(lra) ltac:(lia) X) as (L' & E' & _ & H). exists L'. pose proof ex_tiny as Ty.
  assert (Md : middle ex_corner 8 (child (Z.of_nat 7) ex_box) = mkPt (3 / 2) (3 / 2) (3 / 2)) by (unfold middle; change (ilevel (child (Z.of_nat 7) ex_box)) with 3%Z; rewrite ex_side3; cbn; f_equal; lra).
  destruct (H (mkPt (3 / 2) (3 / 2) 2) 0) as (v & E1 & E2).
  - rewrite ex_mid2. assert (O : off_axis (mkPt 1 1 1) (mkPt (3 / 2) (3 / 2) 2) = sqrt (1 / 2)) by (unfold off_axis; cbn [px py]; f_equal; lra). assert (D : dist (mkPt 1 1 1) (mkPt (3 / 2) (3 / 2) 2) = sqrt (3 / 2)) by (unfold dist; cbn [px py pz]; f_equal; lra).
    pose proof (sqrt_sqrt (1 / 2) ltac:(lra)) as Q1. pose proof (sqrt_sqrt (3 / 2) ltac:(lra)) as Q2. pose proof (sqrt_pos (1 / 2)). pose proof (sqrt_pos (3 / 2)). assert (1 <= sqrt (3 / 2) <= 2) by nra. assert (1 / 2 <= sqrt (1 / 2)) by nra. split; [rewrite D; lra|right; rewrite D, O; nra].
  - rewrite Md. apply ex_up_regular. lra.
  - exists v. auto.
Qed.

Example C64_nonvacuous : exists tb L v, laplace_table 3 = Ok tb /\ downward tb ex_corner 8 (child (Z.of_nat 7) ex_far) [ex_charge] L /\
  L_to_T 9 (tb_sqf tb) (level_scale 8 3) (box_center ex_corner 8 (child (Z.of_nat 7) ex_far)) L (mkPt (11 / 2) (7 / 2) (7 / 4)) 7 = Ok (7 + v) /\
  Rabs (v - 2 / sqrt 35) <= 2 * ((sqrt 3 / 2) ^ 10 / (2 - sqrt 3)).
Proof.
  destruct (C61_table 3 ltac:(lia)) as (tb & E & Ep & Et & Hp). assert (P9 : tb_p tb = 9%nat) by (cbn in Ep; congruence). rewrite P9 in *. destruct (ex_parent tb Et) as [M H]. exists tb. pose proof sqrt3_lt as S3.
  destruct (C64_total 9 tb ex_corner 8 Hp Et ltac:(lra)) as (_ & T1 & T2 & _). assert (Sep : separated ex_box ex_far) by (split; [reflexivity|]; cbn; lia).
  destruct (T1 ex_far ex_box _ M Sep H) as [L1 E1]. assert (H1 : downward tb ex_corner 8 ex_far [ex_charge] L1) by (eapply dn_multipole; eassumption).
  destruct (T2 ex_far 7%nat _ L1 ltac:(lia) H1) as [L2 E2]. assert (H2 : downward tb ex_corner 8 (child (Z.of_nat 7) ex_far) [ex_charge] L2) by (eapply dn_parent; [|eassumption|eassumption]; lia).
  destruct (ex_up_dist (11 / 2) (7 / 2) (7 / 4) (3 / 2) ltac:(lra)) as [D _].
  destruct (C64_downward 9 tb ex_corner 8 (child (Z.of_nat 7) ex_far) [ex_charge] L2 (mkPt (11 / 2) (7 / 2) (7 / 4)) 7 Hp Et ltac:(lra) H2) as (v & Ev & B).
  - rewrite ex_mid4, D. unfold radius. change (ilevel _) with 3%Z. rewrite ex_side3. lra.
  - exists L2, v. split; [exact E|]. split; [exact H2|]. split; [exact Ev|]. rewrite ex_mid4, regular_rounded in B by (apply ex_up_regular; lra). change (ilevel (child (Z.of_nat 7) ex_far)) with 3%Z in B. rewrite ex_side3 in B. change (9 + 1)%nat with 10%nat in B.
    replace (2 / sqrt 35) with (coulomb [ex_charge] (mkPt (11 / 2) (7 / 2) (7 / 4))).
    + eapply Rle_trans; [exact B|]. right. unfold total_charge. cbn [fold_right ex_charge cq]. rewrite Rabs_right by lra. f_equal. field.
    + unfold coulomb. cbn [fold_right ex_charge cq cpos]. rewrite Rplus_0_r. f_equal. unfold dist. cbn [px py pz]. f_equal. field.
Qed.
