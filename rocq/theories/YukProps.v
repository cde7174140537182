(** C76-C78: Bessel functions, multipole and local expansions of the Yukawa kernel. *)
From Coq Require Import Reals List Lia Lra Psatz.
From Verif Require Import Base ListFacts LegSpec LegProofs LegAdd LapModel LapSpec LapArrays LapProofs LapProps BesselSpec BesselProofs BesselAdd YukModel YukSpec YukBessel YukProofs.
Import ListNotations.
Open Scope R_scope.

(** ** C76 *)
(** bessel_kn_scaled stores (PI / 2) scale^n k_n(x) for every n up to nb. *)
Theorem C76_bessel_k : forall nb x scale B, (1 <= nb <= 19)%nat -> (nb < length B)%nat -> / 10 ^ 250 <= x < 10 ^ 8 -> 0 < scale <= x ->
  exists B', bessel_kn_scaled nb x scale B = Ok B' /\ forall n, (n <= nb)%nat -> nth_error B' n = Some (PI / 2 * scale ^ n * sph_k n x).
Proof.
  intros nb x scale B Hn HL Hx Hs. destruct (kn_ok nb x scale B Hn HL Hx Hs) as (B' & E & H). exists B'. split; [exact E|]. intros n Hnn. rewrite kk_sph by lra. apply H, Hnn.
Qed.
Print Assumptions C76_bessel_k.

(** bessel_in_scaled stores i_n(x) / scale^n up to the accuracy of bessel_In (or of the Taylor
    series below 1e-4) and up to numbers below 2e-300. *)
Theorem C76_bessel_i : forall bIn eta, computes_I bIn eta -> / 10 ^ 17 <= eta <= / 2 ->
  forall nb x scale B, (nb <= 19)%nat -> (nb < length B)%nat -> 0 < scale <= 1 -> 0 < x <= 10 ^ 2 ->
  exists B', bessel_in_scaled bIn nb x scale B = Ok B' /\ forall n, (n <= nb)%nat -> exists b, nth_error B' n = Some b /\
    Rabs (b - sph_i n x / scale ^ n) <= eta * (sph_i n x / scale ^ n) + 2 / 10 ^ 300.
Proof.
  intros bIn eta HI He nb x scale B Hn HL Hs Hx. destruct (in_ok bIn eta HI He nb x scale B Hn HL Hs Hx) as (B' & E & H). exists B'. split; [exact E|].
  intros n Hnn. destruct (H n Hnn) as (b & Eb & C). exists b. split; [exact Eb|]. rewrite ii_sph by lra. pose proof (pow_lt scale n ltac:(lra)) as P.
  apply Rmult_le_reg_r with (scale ^ n); [exact P|]. rewrite <- (Rabs_pos_eq (scale ^ n)) at 2 by lra. rewrite <- Rabs_mult.
  replace ((b - ii n x / scale ^ n) * scale ^ n) with (b * scale ^ n - ii n x) by (field; lra).
  replace ((eta * (ii n x / scale ^ n) + 2 / 10 ^ 300) * scale ^ n) with (eta * ii n x + 2 * / 10 ^ 300 * scale ^ n); [exact C|]. pose proof (pow_lt 10 300 ltac:(lra)). unfold Rdiv. rewrite Rmult_plus_distr_r. f_equal. rewrite <- !Rmult_assoc, (Rmult_assoc _ (/ scale ^ n)), Rinv_l by lra. ring.
Qed.
Print Assumptions C76_bessel_i.

(** The table of 2 n + 1 times the ratio of factorials. *)
Theorem C76_sqf : forall p, exists a, YukModel.generate_sqf p = Ok a /\ length a = ((p + 1) * (p + 2) / 2)%nat /\
  forall n m, (m <= n <= p)%nat -> nth_error a (n * (n + 1) / 2 + m) = Some ((2 * INR n + 1) * (INR (fact (n - m)) / INR (fact (n + m)))).
Proof. intros p. destruct (ysqf_ok p) as (a & E & L & T). exists a. split; [exact E|]. split; [exact L|]. exact T. Qed.
Print Assumptions C76_sqf.

(** The Bessel functions the examples below use: exact ones. *)
Definition exact_I : bessel_I := fun nb x => Ok (map (fun n => sph_i n x / sqrt (PI / 2 / x)) (seq 0 nb)).
Lemma exact_computes eta : 0 <= eta -> computes_I exact_I eta.
Proof.
  intros He nb x _ [Hx _]. assert (Px : 0 < x) by (assert (0 < / 10 ^ 4) by (apply Rinv_0_lt_compat, pow_lt; lra); lra). eexists. split; [reflexivity|]. intros n Hn. exists (sph_i n x / sqrt (PI / 2 / x)).
  rewrite nth_error_map, (nth_error_seq 0 nb n Hn). split; [reflexivity|]. pose proof PI_RGT_0. assert (0 < sqrt (PI / 2 / x)) by (apply sqrt_lt_R0, Rdiv_lt_0_compat; lra).
  replace (sqrt (PI / 2 / x) * (sph_i n x / sqrt (PI / 2 / x)) - sph_i n x) with 0 by (field; lra). rewrite Rabs_R0. apply Rmult_le_pos; [exact He|]. rewrite ii_sph by exact Px. apply ii_nonneg. lra.
Qed.

Lemma inv10_le1 n : 0 < / 10 ^ n <= 1.
Proof. split; [apply Rinv_0_lt_compat, pow_lt; lra|]. rewrite <- Rinv_1. apply Rinv_le_contravar; [lra|apply pow_R1_Rle; lra]. Qed.

Example C76_nonvacuous : (exists B', bessel_kn_scaled 2 2 1 (repeat 0 3) = Ok B' /\ nth_error B' 2 = Some (PI / 2 * (13 / 8 * exp (- (2))))) /\
  exists B' b, bessel_in_scaled exact_I 3 1 (/ 2) (repeat 0 4) = Ok B' /\ nth_error B' 0 = Some b /\ Rabs (b - sinh 1) <= / 10 ^ 16 * sinh 1 + 2 / 10 ^ 300.
Proof.
  split.
  - destruct (C76_bessel_k 2 2 1 (repeat 0 3)) as (B' & E & H); [lia|cbn; lia|pose proof (inv10_le1 250); lra|lra|].
    exists B'. split; [exact E|]. rewrite (H 2%nat ltac:(lia)). f_equal. rewrite kk_sph by lra. unfold kk. cbn [G]. simpl INR. field.
  - destruct (C76_bessel_i exact_I (/ 10 ^ 16) (exact_computes (/ 10 ^ 16) ltac:(pose proof (inv10_le1 16); lra))) with (nb := 3%nat) (x := 1) (scale := / 2) (B := repeat 0 4) as (B' & E & H); [split; [apply ip10; lia|apply Rle_trans with (/ 10 ^ 1); [apply ip10; lia|lra]]|lia|cbn; lia|lra|lra|].
    destruct (H 0%nat ltac:(lia)) as (b & Eb & C). exists B', b. split; [exact E|]. split; [exact Eb|]. cbn [sph_i] in C. replace (sinh 1 / 1 / (/ 2) ^ 0) with (sinh 1) in C by (rewrite pow_O; field). exact C.
Qed.

(** ** C77 *)
(** The scale the code uses on level [lev] of a domain of side [size] is at most 1 and at most
    lambda times the side of a box. *)
Theorem C77_scale : forall lambda size lev, 0 < lambda -> 0 < size -> 0 < yuk_scale lambda size lev <= 1 /\ yuk_scale lambda size lev <= lambda * (size / 2 ^ lev).
Proof.
  intros lambda size lev Hl Hs. unfold yuk_scale. pose proof (pow_lt 2 lev ltac:(lra)) as P. pose proof (pow_R1_Rle 2 lev ltac:(lra)) as P1. assert (I : 0 < / 2 ^ lev <= 1) by (split; [apply Rinv_0_lt_compat, P|rewrite <- Rinv_1; apply Rinv_le_contravar; lra]).
  assert (0 < lambda * size) by nra. unfold Rdiv. destruct (Rlt_dec 1 (lambda * size)) as [L|L].
  - replace (1 * / size * size) with 1 by (field; lra). rewrite <- Rmult_assoc. split; [lra|]. apply Rmult_le_compat_r; lra.
  - rewrite <- Rmult_assoc. split; [|lra]. split; nra.
Qed.
Print Assumptions C77_scale.

(** S_to_M followed by M_to_T.  The sources lie within [a] of the centre, the target outside. *)
Theorem C77_multipole : forall bIn eta, computes_I bIn eta -> / 10 ^ 17 <= eta <= / 2 ->
  forall p lambda sqf scale c l a, (1 <= p <= 18)%nat -> YukModel.generate_sqf p = Ok sqf -> 0 < lambda -> 0 < scale <= 1 ->
  (forall s, In s l -> 0 < dist c (cpos s) <= a) -> lambda * a <= 100 ->
  exists M l', yuk_S_to_M bIn p lambda sqf scale c l = Ok M /\ seen_charges c l l' /\
    forall t phi, 0 <= a < dist c t -> / 10 ^ 250 <= lambda * dist c t < 10 ^ 8 -> scale <= lambda * dist c t ->
    exists v t', yuk_M_to_T p lambda scale c M t phi = Ok (phi + v) /\ seen c t t' /\
      Rabs (v - screened lambda l' t') <= total_charge l * yuk_error p eta (lambda * a) (lambda * dist c t).
Proof.
  intros bIn eta HI He p lambda sqf scale c l a Hp HT Hlam Hs Hl Ha. destruct (ymultipole bIn eta HI He p lambda sqf scale c l a Hp HT Hlam Hs Hl ltac:(lra)) as (M & E & H). exists M, (moved c l). split; [exact E|].
  split; [apply moved_seen; intros; apply Hl; assumption|]. intros t phi Hat Hx Hsx. destruct (H t phi ltac:(lra) ltac:(lra) Hx Hsx) as (v & Ev & B). exists v, (place c t). split; [exact Ev|]. split; [apply place_seen; lra|exact B].
Qed.
Print Assumptions C77_multipole.

(** S_to_L followed by L_to_T: the sources outside, the target inside. *)
Theorem C77_local : forall bIn eta, computes_I bIn eta -> / 10 ^ 17 <= eta <= / 2 ->
  forall p lambda sqf scale c l a, (1 <= p <= 18)%nat -> YukModel.generate_sqf p = Ok sqf -> 0 < lambda -> 0 < scale <= 1 ->
  (forall s, In s l -> a <= dist c (cpos s) /\ lambda * dist c (cpos s) < 10 ^ 8) -> / 10 ^ 250 <= lambda * a -> scale <= lambda * a ->
  exists L l', yuk_S_to_L p lambda sqf scale c l = Ok L /\ seen_charges c l l' /\
    forall t phi, 0 < dist c t < a -> lambda * dist c t <= 100 ->
    exists v t', yuk_L_to_T bIn p lambda scale c L t phi = Ok (phi + v) /\ seen c t t' /\
      Rabs (v - screened lambda l' t') <= total_charge l * yuk_error p eta (lambda * dist c t) (lambda * a).
Proof.
  intros bIn eta HI He p lambda sqf scale c l a Hp HT Hlam Hs Hl Ha Hsc. destruct (ylocal bIn eta HI He p lambda sqf scale c l a Hp HT Hlam Hs Hl Ha Hsc) as (L & E & H). exists L, (moved c l). split; [exact E|].
  assert (A0 : 0 < a) by (pose proof (inv10_le1 250); assert (0 < lambda * a) by lra; nra).
  split; [apply moved_seen; intros s Hin; pose proof (Hl s Hin); lra|]. intros t phi Ht Hx. destruct (H t phi Ht ltac:(lra)) as (v & Ev & B). exists v, (place c t). split; [exact Ev|]. split; [apply place_seen; lra|exact B].
Qed.
Print Assumptions C77_local.

(** Away from the directions the code rounds, the positions are the ones given; with the
    degree and the scale the code uses for a box of the level [lev]. *)
Theorem C77_multipole_regular : forall bIn eta, computes_I bIn eta -> / 10 ^ 17 <= eta <= / 2 ->
  forall digits p lambda sqf size lev c l a t phi, digits = 3%nat \/ digits = 6%nat -> yuk_p digits = Ok p -> YukModel.generate_sqf p = Ok sqf -> 0 < lambda -> 0 < size ->
  (forall s, In s l -> dist c (cpos s) <= a /\ regular c (cpos s)) -> lambda * a <= 100 ->
  0 <= a < dist c t -> regular c t -> size / 2 ^ lev <= dist c t -> / 10 ^ 250 <= lambda * dist c t < 10 ^ 8 ->
  exists M v, yuk_S_to_M bIn p lambda sqf (yuk_scale lambda size lev) c l = Ok M /\ yuk_M_to_T p lambda (yuk_scale lambda size lev) c M t phi = Ok (phi + v) /\
    Rabs (v - screened lambda l t) <= total_charge l * yuk_error p eta (lambda * a) (lambda * dist c t).
Proof.
  intros bIn eta HI He digits p lambda sqf size lev c l a t phi Hd Hp HT Hlam Hsz Hl Ha Hat Rt Hbox Hx. pose proof (inv10_le1 14) as T. destruct (C77_scale lambda size lev Hlam Hsz) as [S1 S2].
  assert (Bp : (1 <= p <= 18)%nat) by (destruct Hd as [-> | ->]; injection Hp as <-; lia).
  destruct (C77_multipole bIn eta HI He p lambda sqf (yuk_scale lambda size lev) c l a Bp HT Hlam S1) as (M & l' & E & Hl' & H); [intros s Hin; destruct (Hl s Hin) as [B [C _]]; lra|exact Ha|].
  destruct (H t phi Hat Hx) as (v & t' & Ev & (_ & _ & Ht) & B); [eapply Rle_trans; [exact S2|]; apply Rmult_le_compat_l; lra|]. rewrite (seen_regular c l l' Hl' ltac:(intros; apply Hl; assumption)), (Ht Rt) in B. eauto.
Qed.
Print Assumptions C77_multipole_regular.

Theorem C77_local_regular : forall bIn eta, computes_I bIn eta -> / 10 ^ 17 <= eta <= / 2 ->
  forall digits p lambda sqf size lev c l a t phi, digits = 3%nat \/ digits = 6%nat -> yuk_p digits = Ok p -> YukModel.generate_sqf p = Ok sqf -> 0 < lambda -> 0 < size ->
  (forall s, In s l -> a <= dist c (cpos s) /\ regular c (cpos s) /\ lambda * dist c (cpos s) < 10 ^ 8) -> / 10 ^ 250 <= lambda * a -> size / 2 ^ lev <= a ->
  dist c t < a -> regular c t -> lambda * dist c t <= 100 ->
  exists L v, yuk_S_to_L p lambda sqf (yuk_scale lambda size lev) c l = Ok L /\ yuk_L_to_T bIn p lambda (yuk_scale lambda size lev) c L t phi = Ok (phi + v) /\
    Rabs (v - screened lambda l t) <= total_charge l * yuk_error p eta (lambda * dist c t) (lambda * a).
Proof.
  intros bIn eta HI He digits p lambda sqf size lev c l a t phi Hd Hp HT Hlam Hsz Hl Ha Hbox Hat Rt Hx. pose proof (inv10_le1 14) as T. destruct (C77_scale lambda size lev Hlam Hsz) as [S1 S2]. assert (0 < dist c t) by (destruct Rt; lra).
  assert (Bp : (1 <= p <= 18)%nat) by (destruct Hd as [-> | ->]; injection Hp as <-; lia).
  destruct (C77_local bIn eta HI He p lambda sqf (yuk_scale lambda size lev) c l a Bp HT Hlam S1) as (L & l' & E & Hl' & H0); [intros s Hin; split; apply Hl, Hin|exact Ha|eapply Rle_trans; [exact S2|]; apply Rmult_le_compat_l; lra|].
  destruct (H0 t phi ltac:(lra) Hx) as (v & t' & Ev & (_ & _ & Ht) & B). rewrite (seen_regular c l l' Hl' ltac:(intros; apply Hl; assumption)), (Ht Rt) in B. eauto.
Qed.
Print Assumptions C77_local_regular.

(** The direct sum: the potential of the sources that are not at the target. *)
Lemma dist_sym a b : dist a b = dist b a.
Proof. unfold dist. f_equal. ring. Qed.
Lemma direct_acc lambda l t v0 : 0 < lambda -> (forall s, In s l -> cpos s <> t) ->
  fold_left (fun v s => let d := lambda * norm3 (point_sub t (cpos s)) in if Rlt_dec 0 d then v + cq s * exp (- d) / d else v) l v0 * (PI / 2) = v0 * (PI / 2) + screened lambda l t.
Proof.
  intros Hlam. revert v0. induction l as [|s l IH]; intros v0 H; cbn [fold_left]; [unfold screened; cbn [fold_right]; ring|].
  rewrite IH by (intros; apply H; right; assumption). cbv zeta. rewrite norm3_dist, dist_sym. assert (P : 0 < dist t (cpos s)) by (apply dist_pos, H; left; reflexivity).
  assert (P1 : 0 < lambda * dist t (cpos s)) by nra. destruct (Rlt_dec 0 (lambda * dist t (cpos s))) as [_|C]; [|lra]. unfold screened. cbn [fold_right]. field. lra.
Qed.
Theorem C77_direct : forall lambda l t phi, 0 < lambda -> (forall s, In s l -> cpos s <> t) -> yuk_S_to_T lambda l t phi = phi + screened lambda l t.
Proof. intros lambda l t phi Hlam H. unfold yuk_S_to_T. rewrite direct_acc by assumption. ring. Qed.
Print Assumptions C77_direct.

Theorem C77_direct_self : forall lambda l1 s l2 phi, yuk_S_to_T lambda (l1 ++ s :: l2) (cpos s) phi = yuk_S_to_T lambda (l1 ++ l2) (cpos s) phi.
Proof.
  intros lambda l1 s l2 phi. unfold yuk_S_to_T. rewrite !fold_left_app. cbn [fold_left]. cbv zeta. replace (norm3 (point_sub (cpos s) (cpos s))) with 0 by (symmetry; rewrite norm3_dist; unfold dist; rewrite <- sqrt_0 at 1; f_equal; ring).
  destruct (Rlt_dec 0 (lambda * 0)) as [C|_]; [lra|reflexivity].
Qed.
Print Assumptions C77_direct_self.

(** Adding the expansions of two sets of sources gives the expansion of both together. *)
Theorem C77_adds : forall bIn eta, computes_I bIn eta -> / 10 ^ 17 <= eta <= / 2 ->
  forall p lambda sqf scale c l1 l2, (1 <= p <= 18)%nat -> YukModel.generate_sqf p = Ok sqf -> 0 < lambda -> 0 < scale <= 1 -> (forall s, In s (l1 ++ l2) -> cpos s <> c) ->
  (exists M1 M2 M, yuk_S_to_M bIn p lambda sqf scale c l1 = Ok M1 /\ yuk_S_to_M bIn p lambda sqf scale c l2 = Ok M2 /\ yuk_S_to_M bIn p lambda sqf scale c (l1 ++ l2) = Ok M /\ add_expansion M1 M2 = Ok M) /\
  ((forall s, In s (l1 ++ l2) -> / 10 ^ 250 <= lambda * dist c (cpos s) < 10 ^ 8 /\ scale <= lambda * dist c (cpos s)) ->
   exists L1 L2 L, yuk_S_to_L p lambda sqf scale c l1 = Ok L1 /\ yuk_S_to_L p lambda sqf scale c l2 = Ok L2 /\ yuk_S_to_L p lambda sqf scale c (l1 ++ l2) = Ok L /\ add_expansion L1 L2 = Ok L).
Proof.
  intros bIn eta HI He p lambda sqf scale c l1 l2 Hp HT Hlam Hs H. split.
  - apply adds_app. intros s Hin. apply (ym_adds bIn eta); auto.
  - intros Hx. apply adds_app. intros s Hin. destruct (Hx s Hin). apply yl_adds; [exact Hp|exact HT|assumption|split; [apply Hs|assumption]].
Qed.
Print Assumptions C77_adds.

Example C77_nonvacuous : let c := mkPt 1 1 1 in let l := [mkCharge 2 (mkPt 2 1 1); mkCharge (-3) (mkPt 1 1 2)] in let t := mkPt 4 5 1 in
  forall sqf, YukModel.generate_sqf 9 = Ok sqf -> exists M v, yuk_S_to_M exact_I 9 2 sqf (yuk_scale 2 8 2) c l = Ok M /\ yuk_M_to_T 9 2 (yuk_scale 2 8 2) c M t 7 = Ok (7 + v) /\ Rabs (v - screened 2 l t) <= 5 * yuk_error 9 (/ 10 ^ 16) 2 10.
Proof.
  cbv zeta. intros sqf HT. set (c := mkPt 1 1 1).
  assert (D1 : dist c (mkPt 2 1 1) = 1) by (unfold dist, c; cbn [px py pz]; replace (_ + _ + _) with (1 * 1) by ring; apply sqrt_square; lra).
  assert (D2 : dist c (mkPt 1 1 2) = 1) by (unfold dist, c; cbn [px py pz]; replace (_ + _ + _) with (1 * 1) by ring; apply sqrt_square; lra).
  assert (D3 : dist c (mkPt 4 5 1) = 5) by (unfold dist, c; cbn [px py pz]; replace (_ + _ + _) with (5 * 5) by ring; apply sqrt_square; lra).
  assert (O1 : off_axis c (mkPt 2 1 1) = 1) by (unfold off_axis, c; cbn [px py pz]; replace (_ + _) with (1 * 1) by ring; apply sqrt_square; lra).
  assert (O2 : off_axis c (mkPt 1 1 2) = 0) by (unfold off_axis, c; cbn [px py pz]; replace (_ + _) with 0 by ring; apply sqrt_0).
  assert (O3 : off_axis c (mkPt 4 5 1) = 5) by (unfold off_axis, c; cbn [px py pz]; replace (_ + _) with (5 * 5) by ring; apply sqrt_square; lra).
  assert (T : 0 < / 10 ^ 14 < 1) by (split; [apply inv10_le1|]; apply Rle_lt_trans with (/ 10 ^ 1); [apply ip10; lia|lra]).
  destruct (C77_multipole_regular exact_I (/ 10 ^ 16) (exact_computes (/ 10 ^ 16) ltac:(pose proof (inv10_le1 16); lra))) with (digits := 3%nat) (p := 9%nat) (lambda := 2) (sqf := sqf) (size := 8) (lev := 2%nat) (c := c) (l := [mkCharge 2 (mkPt 2 1 1); mkCharge (-3) (mkPt 1 1 2)]) (a := 1) (t := mkPt 4 5 1) (phi := 7) as (M & v & E & Ev & B).
  - split; [apply ip10; lia|apply Rle_trans with (/ 10 ^ 1); [apply ip10; lia|lra]].
  - left. reflexivity.
  - reflexivity.
  - exact HT.
  - lra.
  - lra.
  - intros s [<-|[<-|[]]]; cbn [cpos]; unfold regular; rewrite ?D1, ?D2, ?O1, ?O2; lra.
  - lra.
  - rewrite D3. lra.
  - split; [rewrite D3; lra|]. right. rewrite D3, O3. lra.
  - rewrite D3. lra.
  - rewrite D3. pose proof (inv10_le1 250). split; [lra|]. apply Rlt_le_trans with (10 ^ 2); [lra|apply p10; lia].
  - exists M, v. split; [exact E|]. split; [exact Ev|]. rewrite D3 in B. unfold total_charge in B. cbn [fold_right cq] in B.
    rewrite (Rabs_right 2), (Rabs_left (-3)) in B by lra. replace (2 * 1) with 2 in B by ring. replace (2 * 5) with 10 in B by ring. replace (2 + (- -3 + 0)) with 5 in B by ring. exact B.
Qed.

(** ** C78 *)
(** A source or a target exactly at the centre has no direction, as with the Laplace kernel. *)
Theorem C78_at_centre_refuted : forall bIn p lambda sqf scale c l s M phi, In s l -> cpos s = c ->
  (exists e, yuk_S_to_M bIn p lambda sqf scale c l = Fail e) /\ (exists e, yuk_S_to_L p lambda sqf scale c l = Fail e) /\
  yuk_M_to_T p lambda scale c M c phi = Fail DivZero /\ yuk_L_to_T bIn p lambda scale c M c phi = Fail DivZero.
Proof.
  intros bIn p lambda sqf scale c l s M phi Hin E. split; [|split; [|split]].
  - apply fold_fails with (x := s); [exact Hin|]. intros M'. rewrite E. unfold yuk_s_to_m. rewrite angles_centre. reflexivity.
  - apply fold_fails with (x := s); [exact Hin|]. intros M'. rewrite E. unfold yuk_s_to_l. rewrite angles_centre. reflexivity.
  - unfold yuk_M_to_T, yuk_m_to_t. rewrite angles_centre. reflexivity.
  - unfold yuk_L_to_T, yuk_l_to_t. rewrite angles_centre. reflexivity.
Qed.
Print Assumptions C78_at_centre_refuted.

(** At 1e8 screening lengths or more the evaluation stops in an assertion instead of adding
    nothing. *)
Lemma fill_pe e k n : (n <= k)%nat -> exists pe, fill (fun v => Ok (cmul v e)) n (upd (repeat (0, 0) (k + 1)) 0 (1, 0)) = Ok pe.
Proof. intros H. destruct (fill_ok cplx (fun v => Ok (cmul v e)) (cpow e) n (upd (repeat (0, 0) (k + 1)) 0 (1, 0))) as (pe & Ee & _); [rewrite upd_length, repeat_length; lia|apply (nth_upd0 cplx); lia|reflexivity|]. eauto. Qed.

Theorem C78_too_far_refuted : forall p lambda scale c M t phi, 0 < lambda -> 10 ^ 8 <= lambda * dist c t -> yuk_M_to_T p lambda scale c M t phi = Fail AssertFail.
Proof.
  intros p lambda scale c M t phi Hlam Hx. unfold yuk_M_to_T, yuk_m_to_t. rewrite <- norm3_dist in Hx. set (u := point_sub t c) in *. assert (P8 : 0 < 10 ^ 8) by lra.
  assert (Hu : 0 < norm3 u) by (destruct (Rle_lt_dec (norm3 u) 0) as [L|L]; [nra|exact L]).
  destruct (angles_ok 1 u ltac:(ring) Hu) as (b & eb & Au & _). rewrite Au. cbn [bind]. rewrite set_res_ok by (rewrite repeat_length; lia). cbn [bind]. replace (p + 2)%nat with (p + 1 + 1)%nat by lia. destruct (fill_pe eb (p + 1) (p + 1) ltac:(lia)) as (pe & ->). cbn [bind].
  unfold bessel_kn_scaled at 1. destruct (Rle_dec xmin (lambda * norm3 u)); [|reflexivity]. destruct (Rlt_dec (lambda * norm3 u) xlarge) as [C|_]; [unfold xlarge in C; lra|reflexivity].
Qed.
Print Assumptions C78_too_far_refuted.

Theorem C78_too_far_source_refuted : forall p lambda sqf scale c s, 0 < lambda -> 10 ^ 8 <= lambda * dist c (cpos s) -> yuk_S_to_L p lambda sqf scale c [s] = Fail AssertFail.
Proof.
  intros p lambda sqf scale c s Hlam Hx. unfold yuk_S_to_L. cbn [foldM]. unfold yuk_s_to_l. rewrite <- norm3_dist in Hx. set (u := point_sub (cpos s) c) in *. assert (P8 : 0 < 10 ^ 8) by lra.
  assert (Hu : 0 < norm3 u) by (destruct (Rle_lt_dec (norm3 u) 0) as [L|L]; [nra|exact L]).
  destruct (angles_ok (-1) u ltac:(ring) Hu) as (b & eb & Au & _). rewrite Au. cbn [bind]. rewrite set_res_ok by (rewrite repeat_length; lia). cbn [bind]. destruct (fill_pe eb p p ltac:(lia)) as (pe & ->). cbn [bind].
  unfold bessel_kn_scaled at 1. destruct (Rle_dec xmin (lambda * norm3 u)); [|reflexivity]. destruct (Rlt_dec (lambda * norm3 u) xlarge) as [C|_]; [unfold xlarge in C; lra|reflexivity].
Qed.
Print Assumptions C78_too_far_source_refuted.

(** Sources farther than 100 screening lengths from the centre of their box are left out of the
    multipole expansion. *)
Theorem C78_beyond_100_refuted : forall bIn p lambda sqf scale c l, (1 <= p <= 18)%nat -> YukModel.generate_sqf p = Ok sqf -> 0 < lambda -> 0 < scale ->
  (forall s, In s l -> 100 < lambda * dist c (cpos s)) ->
  exists M, yuk_S_to_M bIn p lambda sqf scale c l = Ok M /\ forall t phi, / 10 ^ 250 <= lambda * dist c t < 10 ^ 8 -> scale <= lambda * dist c t -> yuk_M_to_T p lambda scale c M t phi = Ok phi.
Proof. intros bIn p lambda sqf scale c l Hp HT Hlam Hs Hl. apply ybeyond; try assumption. intros s Hin. pose proof (Hl s Hin). lra. Qed.
Print Assumptions C78_beyond_100_refuted.

(** An accuracy other than 3 or 6 digits gives the degree 0, for which S_to_L writes behind the
    one-element array it hands to bessel_kn_scaled; 15 digits or more read behind the table. *)
Theorem C78_other_accuracies_refuted : forall digits, digits <> 3%nat -> digits <> 6%nat ->
  (yuk_p digits = Fail Oob) \/ (yuk_p digits = Ok 0%nat /\
   forall lambda sqf scale c s, / 10 ^ 250 <= lambda * dist c (cpos s) < 10 ^ 8 -> yuk_S_to_L 0 lambda sqf scale c [s] = Fail Oob).
Proof.
  intros digits H3 H6. destruct (Nat.le_gt_cases 15 digits) as [L|L].
  - left. unfold yuk_p, nth_res. replace (nth_error yuk_p_table digits) with (@None nat); [reflexivity|]. symmetry. apply nth_error_None. cbn. lia.
  - right. split; [do 15 (destruct digits as [|digits]; [first [reflexivity|contradiction]|]); lia|].
    intros lambda sqf scale c s Hx. unfold yuk_S_to_L. cbn [foldM]. unfold yuk_s_to_l. rewrite <- norm3_dist in Hx. set (u := point_sub (cpos s) c) in *. pose proof (inv10_le1 250).
    assert (Hu : 0 < norm3 u) by (assert (0 <= norm3 u) by apply sqrt_pos; destruct (Rle_lt_or_eq_dec 0 (norm3 u)) as [N|N]; [assumption|exact N|rewrite <- N in *; lra]).
    destruct (angles_ok (-1) u ltac:(ring) Hu) as (b & eb & Au & _). rewrite Au. cbn [bind]. cbn [Nat.add repeat set_res bind fill foldM seq].
    unfold bessel_kn_scaled. destruct (Rle_dec xmin (lambda * norm3 u)) as [_|C].
    + destruct (Rlt_dec (lambda * norm3 u) xlarge) as [_|C]; [|unfold xlarge in C; lra]. reflexivity.
    + exfalso. apply C. apply Rle_trans with (/ 10 ^ 250); [|lra]. unfold xmin. replace (10 ^ 310) with (10 ^ 250 * 10 ^ 60) by (rewrite <- pow_add; reflexivity). assert (446 <= 10 ^ 60) by (apply Rle_trans with (10 ^ 3); [lra|apply p10; lia]). pose proof (pow_lt 10 250 ltac:(lra)). pose proof (pow_lt 10 60 ltac:(lra)).
      apply Rmult_le_reg_r with (10 ^ 250 * 10 ^ 60); [nra|]. replace (446 / (10 ^ 250 * 10 ^ 60) * (10 ^ 250 * 10 ^ 60)) with 446 by (field; split; lra). replace (/ 10 ^ 250 * (10 ^ 250 * 10 ^ 60)) with (10 ^ 60) by (field; lra). assumption.
Qed.
Print Assumptions C78_other_accuracies_refuted.

Example C78_nonvacuous : (forall M phi, yuk_M_to_T 9 1 1 (mkPt 0 0 0) M (mkPt 0 0 (10 ^ 9)) phi = Fail AssertFail) /\ yuk_S_to_L 0 1 [] 1 (mkPt 0 0 0) [mkCharge 1 (mkPt 0 0 1)] = Fail Oob /\
  0 < screened 1 [mkCharge 1 (mkPt 0 0 101)] (mkPt 0 0 303) /\
  forall sqf, YukModel.generate_sqf 9 = Ok sqf -> exists M, yuk_S_to_M exact_I 9 1 sqf 1 (mkPt 0 0 0) [mkCharge 1 (mkPt 0 0 101)] = Ok M /\ yuk_M_to_T 9 1 1 (mkPt 0 0 0) M (mkPt 0 0 303) 0 = Ok 0.
Proof.
  assert (Dz : forall z, 0 <= z -> dist (mkPt 0 0 0) (mkPt 0 0 z) = z) by (intros z Hz; unfold dist; cbn [px py pz]; replace (_ + _ + _) with (z * z) by ring; apply sqrt_square; exact Hz).
  pose proof (inv10_le1 250) as T. split; [|split; [|split]].
  - intros M phi. apply C78_too_far_refuted; [lra|]. rewrite Dz by lra. lra.
  - destruct (C78_other_accuracies_refuted 2 ltac:(lia) ltac:(lia)) as [C|[_ H]]; [discriminate C|]. apply H. cbn [cpos]. rewrite Dz by lra. split; [lra|]. apply Rlt_le_trans with (10 ^ 2); [lra|apply p10; lia].
  - unfold screened. cbn [fold_right cq cpos]. assert (dist (mkPt 0 0 303) (mkPt 0 0 101) = 202) as -> by (unfold dist; cbn [px py pz]; replace (_ + _ + _) with (202 * 202) by ring; apply sqrt_square; lra).
    pose proof PI_RGT_0. pose proof (exp_pos (- (1 * 202))). assert (0 < exp (- (1 * 202)) / (1 * 202)) by (apply Rdiv_lt_0_compat; lra). nra.
  - intros sqf HT. destruct (C78_beyond_100_refuted exact_I 9 1 sqf 1 (mkPt 0 0 0) [mkCharge 1 (mkPt 0 0 101)] ltac:(lia) HT ltac:(lra) ltac:(lra)) as (M & E & H); [intros s [<-|[]]; cbn [cpos]; rewrite Dz; lra|].
    exists M. split; [exact E|]. apply H; rewrite Dz by lra; [|lra]. split; [lra|]. apply Rlt_le_trans with (10 ^ 3); [lra|apply p10; lia].
Qed.
