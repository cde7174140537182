(** C80-C82: spherical Bessel functions, multipole and local expansions of the Helmholtz kernel. *)
From Coq Require Import Reals ZArith List Lia Lra Psatz.
From Coquelicot Require Import Coquelicot.
From Verif Require Import Base ListFacts LegSpec LegProofs LegAdd LapModel LapSpec LapArrays LapProofs LapProps BesselSpec BesselProofs BesselAdd OscSpec OscProofs YukModel YukSpec YukBessel YukProofs YukProps HelmModel HelmSpec HelmBessel HelmPair HelmProofs HelmExp HelmSmall.
Import ListNotations.
Open Scope R_scope.

(** ** C80 *)
(** bessel_jn_scaled stores j_n(x) / scale^n up to the accuracy of bessel_Jn (or of the Taylor
    series below 1e-4) and up to numbers below 2e-300. *)
Theorem C80_bessel_j : forall bJn eta, computes_J bJn eta -> / 10 ^ 17 <= eta <= / 2 ->
  forall nb x scale B, (nb <= 18)%nat -> (nb < length B)%nat -> 0 < scale <= 1 -> 0 < x <= 10 ^ 2 ->
  exists B', bessel_jn_scaled bJn nb x scale B = Ok B' /\ forall n, (n <= nb)%nat -> exists b, nth_error B' n = Some b /\
    Rabs (b - sph_j n x / scale ^ n) <= eta * (sph_i n x / scale ^ n) + 2 / 10 ^ 300.
Proof.
  intros bJn eta HJ He nb x scale B Hn HL Hs Hx. destruct (jn_ok bJn eta HJ He nb x scale B Hn HL Hs Hx) as (B' & E & H). exists B'. split; [exact E|].
  intros n Hnn. destruct (H n Hnn) as (b & Eb & C). exists b. split; [exact Eb|]. rewrite ii_sph, jj_sph by lra. pose proof (pow_lt scale n ltac:(lra)) as P.
  apply Rmult_le_reg_r with (scale ^ n); [exact P|]. rewrite <- (Rabs_pos_eq (scale ^ n)) at 2 by lra. rewrite <- Rabs_mult.
  replace ((b - jj n x / scale ^ n) * scale ^ n) with (b * scale ^ n - jj n x) by (field; lra).
  replace ((eta * (ii n x / scale ^ n) + 2 / 10 ^ 300) * scale ^ n) with (eta * ii n x + 2 * / 10 ^ 300 * scale ^ n); [exact C|]. pose proof (pow_lt 10 300 ltac:(lra)). unfold Rdiv. rewrite Rmult_plus_distr_r. f_equal. rewrite <- !Rmult_assoc, (Rmult_assoc _ (/ scale ^ n)), Rinv_l by lra. ring.
Qed.
Print Assumptions C80_bessel_j.

(** bessel_hn_scaled stores scale^n (j_n(x) + i y_n(x)) if x is at least 1e-4. *)
Theorem C80_bessel_h : forall bJn bYn eta, computes_J bJn eta -> computes_Y bYn eta ->
  forall nb x scale B, (nb <= 18)%nat -> (nb < length B)%nat -> 0 <= scale -> / 10 ^ 4 <= x <= 10 ^ 2 ->
  exists B', bessel_hn_scaled bJn bYn nb x scale B = Ok B' /\ forall n, (n <= nb)%nat -> exists u v, nth_error B' n = Some (u, v) /\
    Rabs (u - scale ^ n * sph_j n x) <= eta * (scale ^ n * (exp x * sph_k n x)) /\ Rabs (v - scale ^ n * sph_y n x) <= eta * (scale ^ n * (exp x * sph_k n x)).
Proof.
  intros bJn bYn eta HJ HY nb x scale B Hn HL Hs Hx. destruct (hn_ok bJn eta HJ bYn HY nb x scale B Hn HL Hx) as (B' & J & Y & E & V & C). exists B'. split; [exact E|].
  assert (X0 : 0 < x) by (pose proof (inv10_le1 4); lra).
  intros n Hnn. eexists. eexists. split; [apply V, Hnn|]. destruct (C n Hnn) as [C1 C2]. rewrite zz_sph_j, zz_sph_y, kk_sph by exact X0. pose proof (pow_le scale n Hs) as P.
  assert (G : forall a b, Rabs (a - b) <= eta * (exp x * kk n x) -> Rabs (a * scale ^ n - scale ^ n * b) <= eta * (scale ^ n * (exp x * kk n x))).
  { intros a b Hab. replace (a * scale ^ n - scale ^ n * b) with (scale ^ n * (a - b)) by ring. rewrite Rabs_mult, (Rabs_pos_eq (scale ^ n)) by exact P. replace (eta * (scale ^ n * (exp x * kk n x))) with (scale ^ n * (eta * (exp x * kk n x))) by ring. apply Rmult_le_compat_l; assumption. }
  split; apply G; assumption.
Qed.
Print Assumptions C80_bessel_h.

(** Below 1e-4 a factor 1 / x is missing from the second function: what is stored is less than
    2 x times the right value. *)
Theorem C80_small_argument_refuted : forall bJn bYn nb x scale B, (1 <= nb)%nat -> (nb < length B)%nat -> 0 < scale -> 0 < x < / 10 ^ 4 ->
  exists B' u v, bessel_hn_scaled bJn bYn nb x scale B = Ok B' /\ nth_error B' 1 = Some (u, v) /\ Rabs v <= 2 * x * Rabs (scale * sph_y 1 x) /\ scale * sph_y 1 x <> 0.
Proof.
  intros bJn bYn nb x scale B Hn HL Hs Hx. destruct (hn_small bJn bYn nb x scale B HL Hx) as (B' & E & V). destruct (V 1%nat Hn) as (u & Eu). exists B', u. eexists. split; [exact E|]. split; [exact Eu|].
  rewrite zz_sph_y by lra. unfold zz. cbn [H]. unfold small_y, oddm. cbn [odd]. assert (X4 : / 10 ^ 4 = / 10000) by (f_equal; ring). rewrite X4 in Hx.
  rewrite cos_pi, neg_sin. pose proof (cos_low x ltac:(lra)) as C. assert (S0 : 0 <= sin x) by (apply sin_ge_0; [lra|pose proof PI2_1; lra]).
  assert (Ix : 0 < / x) by (apply Rinv_0_lt_compat; lra). assert (Isx : 0 < scale * / x) by nra. set (k := scale * / x) in *.
  assert (C1 : 99 / 100 <= cos x + x * sin x) by nra. set (m := cos x + x * sin x) in *.
  replace (scale * ((- cos x + x * - sin x) / x ^ 2)) with (- (k * / x * m)) by (unfold k, m; field; lra).
  replace (- (scale ^ 1 * 1 / x ^ 1) * (1 - 5 / 10 * x * x / (1 - 2 * INR 1))) with (- (k * (1 + x * x / 2))) by (unfold k; simpl INR; field; lra).
  assert (P : 0 < k * / x * m) by (apply Rmult_lt_0_compat; [apply Rmult_lt_0_compat|]; lra). split; [|lra].
  rewrite !Rabs_Ropp, !Rabs_pos_eq; [|lra|apply Rmult_le_pos; nra]. replace (2 * x * (k * / x * m)) with (k * (2 * m)) by (field; lra). apply Rmult_le_compat_l; [lra|]. nra.
Qed.
Print Assumptions C80_small_argument_refuted.

(** The functions the examples use: exact ones, kept away from zero as computes_J demands. *)
Definition off_zero (v : R) : R := if Rle_dec (/ 10 ^ 200) (Rabs v) then v else / 10 ^ 200.
Definition near_J : bessel_half := fun nb x => Ok (map (fun n => off_zero (sph_j n x) / sqrt (PI / 2 / x)) (seq 0 nb)).
Definition exact_Y : bessel_half := fun nb x => Ok (map (fun n => sph_y n x / sqrt (PI / 2 / x)) (seq 0 nb)).
Lemma kk_ge n x : 0 < x -> kk 0 x <= kk n x /\ kk 0 x <= kk (S n) x.
Proof.
  intros Hx. assert (Ix : 0 < / x) by (apply Rinv_0_lt_compat, Hx). induction n as [|n [I1 I2]].
  - split; [lra|]. unfold kk. cbn [G]. pose proof (exp_pos (- x)). apply Rmult_le_reg_r with (x ^ 2); [apply pow_lt, Hx|]. replace (exp (- x) / x ^ 1 * x ^ 2) with (exp (- x) * x) by (field; lra). replace ((1 + x) * exp (- x) / x ^ 2 * x ^ 2) with ((1 + x) * exp (- x)) by (field; lra). lra.
  - split; [exact I2|]. rewrite (kk_rec n x Hx). pose proof (kk_pos (S n) x Hx). pose proof (pos_INR n). assert (0 <= (2 * INR n + 3) / x * kk (S n) x) by (apply Rmult_le_pos; [apply Rmult_le_pos|]; lra). lra.
Qed.
Lemma near_bounds n x : (n <= 18)%nat -> / 10 ^ 4 <= x <= 10 ^ 2 -> / 10 ^ 150 <= ii n x /\ / 10 ^ 150 <= exp x * kk n x.
Proof.
  intros Hn Hx. assert (X0 : 0 < x) by (pose proof (inv10_le1 4); lra). split.
  - pose proof (ii_low n x ltac:(lra)) as L. pose proof (odd_38 n ltac:(lia)) as O. pose proof (odd_ge n) as O1. pose proof (pos_INR n) as Pn. eapply Rle_trans; [|exact L].
    assert (0 <= x * x / (2 * (2 * INR n + 3))) by (apply Rmult_le_pos; [nra|left; apply Rinv_0_lt_compat; lra]).
    apply Rle_trans with (/ 10 ^ 72 * 1 * / 10 ^ 38).
    + rewrite Rmult_1_r, <- Rinv_mult, <- pow_add. apply ip10. lia.
    + unfold Rdiv. apply Rmult_le_compat; [pose proof (inv10_le1 72); lra|pose proof (inv10_le1 38); lra| |apply Rinv_le_contravar; lra].
      apply Rmult_le_compat; [pose proof (inv10_le1 72); lra|lra| |lra]. apply Rle_trans with ((/ 10 ^ 4) ^ n); [rewrite pow_inv, <- pow_mult; apply ip10; lia|]. apply pow_incr. pose proof (inv10_le1 4). lra.
  - destruct (kk_ge n x X0) as [K _]. pose proof (exp_pos x). apply Rle_trans with (exp x * kk 0 x); [|apply Rmult_le_compat_l; lra]. unfold kk. cbn [G]. rewrite exp_Ropp. replace (exp x * (/ exp x / x ^ 1)) with (/ x) by (field; lra).
    apply Rle_trans with (/ 10 ^ 2); [apply ip10; lia|apply Rinv_le_contravar; lra].
Qed.
Lemma near_computes : computes_J near_J (/ 10 ^ 16).
Proof.
  intros nb x Hnb Hx. assert (X0 : 0 < x) by (pose proof (inv10_le1 4); lra). eexists. split; [reflexivity|]. intros n Hn. exists (off_zero (sph_j n x) / sqrt (PI / 2 / x)).
  rewrite nth_error_map, (nth_error_seq 0 nb n Hn). split; [reflexivity|]. pose proof PI_RGT_0. assert (0 < sqrt (PI / 2 / x)) by (apply sqrt_lt_R0, Rdiv_lt_0_compat; lra).
  replace (sqrt (PI / 2 / x) * (off_zero (sph_j n x) / sqrt (PI / 2 / x))) with (off_zero (sph_j n x)) by (field; lra). pose proof (inv10_le1 200) as T.
  destruct (near_bounds n x ltac:(lia) Hx) as [B1 B2]. rewrite ii_sph, kk_sph by exact X0. pose proof (inv10_le1 150) as T1. pose proof (inv10_le1 16) as T2.
  assert (S : 2 * / 10 ^ 200 <= / 10 ^ 16 * / 10 ^ 150) by (rewrite <- Rinv_mult, <- pow_add; replace (10 ^ 200) with (10 ^ 34 * 10 ^ (16 + 150)) by (rewrite <- pow_add; reflexivity); rewrite Rinv_mult; assert (2 * / 10 ^ 34 <= 1) by (pose proof (ip10 1 34 ltac:(lia)); lra); pose proof (inv10_le1 (16 + 150)); nra).
  unfold off_zero. destruct (Rle_dec (/ 10 ^ 200) (Rabs (sph_j n x))) as [L|L].
  - split; [exact L|]. rewrite Rminus_eq_0, Rabs_R0. split; apply Rmult_le_pos; lra.
  - apply Rnot_le_lt in L. split; [rewrite Rabs_pos_eq; lra|]. assert (Rabs (/ 10 ^ 200 - sph_j n x) <= 2 * / 10 ^ 200) by (apply Rabs_def2 in L; apply Rabs_le; lra).
    split; eapply Rle_trans; try eassumption; (eapply Rle_trans; [exact S|]); apply Rmult_le_compat_l; lra.
Qed.
Lemma exactY_computes eta : 0 <= eta -> computes_Y exact_Y eta.
Proof.
  intros He nb x _ Hx. assert (X0 : 0 < x) by (pose proof (inv10_le1 4); lra). eexists. split; [reflexivity|]. intros n Hn. exists (sph_y n x / sqrt (PI / 2 / x)).
  rewrite nth_error_map, (nth_error_seq 0 nb n Hn). split; [reflexivity|]. pose proof PI_RGT_0. assert (0 < sqrt (PI / 2 / x)) by (apply sqrt_lt_R0, Rdiv_lt_0_compat; lra).
  replace (sqrt (PI / 2 / x) * (sph_y n x / sqrt (PI / 2 / x)) - sph_y n x) with 0 by (field; lra). rewrite Rabs_R0, kk_sph by exact X0. pose proof (kk_pos n x X0). pose proof (exp_pos x). apply Rmult_le_pos; [exact He|]. nra.
Qed.
Lemma eta16 : / 10 ^ 17 <= / 10 ^ 16 <= / 2.
Proof. split; [apply ip10; lia|apply Rle_trans with (/ 10 ^ 1); [apply ip10; lia|lra]]. Qed.

Example C80_nonvacuous : (exists B' b, bessel_jn_scaled near_J 3 1 (/ 2) (repeat 0 4) = Ok B' /\ nth_error B' 0 = Some b /\ Rabs (b - sin 1) <= / 10 ^ 16 * sinh 1 + 2 / 10 ^ 300) /\
  exists B' u v, bessel_hn_scaled near_J exact_Y 3 1 (/ 2) (repeat (0, 0) 4) = Ok B' /\ nth_error B' 0 = Some (u, v) /\ Rabs (v - - cos 1) <= / 10 ^ 16.
Proof.
  pose proof (inv10_le1 4) as T4. split.
  - destruct (C80_bessel_j near_J (/ 10 ^ 16) near_computes eta16) with (nb := 3%nat) (x := 1) (scale := / 2) (B := repeat 0 4) as (B' & E & H); [lia|cbn; lia|lra|lra|].
    destruct (H 0%nat ltac:(lia)) as (b & Eb & C). exists B', b. split; [exact E|]. split; [exact Eb|]. cbn [sph_j sph_i] in C. replace (sinh 1 / 1 / (/ 2) ^ 0) with (sinh 1) in C by (rewrite pow_O; field). replace (sin 1 / 1 / (/ 2) ^ 0) with (sin 1) in C by (rewrite pow_O; field). exact C.
  - destruct (C80_bessel_h near_J exact_Y (/ 10 ^ 16) near_computes (exactY_computes (/ 10 ^ 16) ltac:(pose proof (inv10_le1 16); lra))) with (nb := 3%nat) (x := 1) (scale := / 2) (B := repeat (0, 0) 4) as (B' & E & H); [lia|cbn; lia|lra|lra|].
    destruct (H 0%nat ltac:(lia)) as (u & v & Eb & _ & C). exists B', u, v. split; [exact E|]. split; [exact Eb|]. cbn [sph_y] in C. rewrite kk_sph in C by lra. unfold kk in C. cbn [G] in C. rewrite exp_Ropp in C. pose proof (exp_pos 1).
    replace ((/ 2) ^ 0 * (exp 1 * (/ exp 1 / 1 ^ 1))) with 1 in C by (simpl; field; lra). replace ((/ 2) ^ 0 * (- cos 1 / 1)) with (- cos 1) in C by (simpl; field). lra.
Qed.

(** ** C81 *)
(** The scale the code uses on level [lev] of a domain of side [size] is at most 1 and at most
    omega times the side of a box, and the level is found again from it. *)
Theorem C81_scale : forall omega size lev, 0 < omega -> 0 < size ->
  0 < helm_scale omega size lev <= 1 /\ helm_scale omega size lev <= omega * (size / 2 ^ lev) /\ helm_level (helm_scale omega size 0) (helm_scale omega size lev) = Ok (Z.of_nat lev).
Proof. intros omega size lev Ho Hs. destruct (helm_scale_pos omega size lev Ho Hs). split; [assumption|]. split; [assumption|]. apply level_ok; assumption. Qed.
Print Assumptions C81_scale.

(** S_to_M followed by M_to_T.  The sources lie within [a] of the centre, the target outside. *)
Theorem C81_multipole : forall bJn bYn eta, computes_J bJn eta -> computes_Y bYn eta -> / 10 ^ 17 <= eta <= / 2 ->
  forall n_e n_p p omega size sqf lev c l a, (p <= 18)%nat -> YukModel.generate_sqf p = Ok sqf -> length n_e = 22%nat -> length n_p = 22%nat -> (lev <= 21)%nat -> 0 < omega -> 0 < size ->
  (forall s, In s l -> 0 < dist c (cpos s) <= a) -> omega * a <= 100 ->
  exists M l', helm_S_to_M bJn n_e n_p p omega size sqf (helm_scale omega size lev) c l = Ok M /\ seen_charges c l l' /\
    forall t phi, 0 <= a < dist c t -> / 10 ^ 4 <= omega * dist c t <= 100 -> size / 2 ^ lev <= dist c t ->
    exists u v t', helm_M_to_T bJn bYn p omega (helm_scale omega size lev) c M t phi = Ok (fst phi + u, snd phi + v) /\ seen c t t' /\
      Rabs (u - wave_re omega l' t') <= total_charge l * helm_error p eta (omega * a) (omega * dist c t) /\
      Rabs (v - wave_im omega l' t') <= total_charge l * helm_error p eta (omega * a) (omega * dist c t).
Proof.
  intros bJn bYn eta HJ HY He n_e n_p p omega size sqf lev c l a Hp HT Le Lp Hlev Ho Hsz Hl Ha. destruct (helm_scale_pos omega size lev Ho Hsz) as [S1 S2].
  destruct (hmultipole bJn bYn eta HJ HY He n_e n_p p omega size sqf (helm_scale omega size lev) c l a Hp HT Ho S1 (new_lev n_e n_p omega size lev _ Le Lp Ho Hsz Hlev) Hl ltac:(lra)) as (M & E & H). exists M, (moved c l). split; [exact E|].
  split; [apply moved_seen; intros; apply Hl; assumption|]. intros t phi Hat Hx Hbox. destruct (H t phi ltac:(lra) ltac:(lra) ltac:(unfold ensig; lra) ltac:(eapply Rle_trans; [exact S2|]; apply Rmult_le_compat_l; lra)) as (u & v & Ev & B). exists u, v, (place c t). split; [exact Ev|]. split; [apply place_seen; lra|exact B].
Qed.
Print Assumptions C81_multipole.

(** S_to_L followed by L_to_T: the sources outside, the target inside. *)
Theorem C81_local : forall bJn bYn eta, computes_J bJn eta -> computes_Y bYn eta -> / 10 ^ 17 <= eta <= / 2 ->
  forall n_e n_p p omega size sqf lev c l a, (p <= 18)%nat -> YukModel.generate_sqf p = Ok sqf -> length n_e = 22%nat -> length n_p = 22%nat -> 0 < omega -> 0 < size -> / 2 < omega * size ->
  (forall s, In s l -> a <= dist c (cpos s) /\ omega * dist c (cpos s) <= 100 /\ regular c (cpos s)) -> / 10 ^ 4 <= omega * a -> size / 2 ^ lev <= a ->
  exists L, helm_S_to_L bJn bYn n_e n_p p omega size sqf (helm_scale omega size lev) c l = Ok L /\
    forall t phi, 0 < dist c t < a -> omega * dist c t <= 100 ->
    exists u v t', helm_L_to_T bJn p omega (helm_scale omega size lev) c L t phi = Ok (fst phi + u, snd phi + v) /\ seen c t t' /\
      Rabs (u - wave_re omega l t') <= total_charge l * helm_error p eta (omega * dist c t) (omega * a) /\
      Rabs (v - wave_im omega l t') <= total_charge l * helm_error p eta (omega * dist c t) (omega * a).
Proof.
  intros bJn bYn eta HJ HY He n_e n_p p omega size sqf lev c l a Hp HT Le Lp Ho Hsz Hbig Hl Ha Hbox. destruct (helm_scale_pos omega size lev Ho Hsz) as [S1 S2].
  assert (A0 : 0 < a) by (pose proof (inv10_le1 4); assert (0 < omega * a) by lra; nra).
  assert (Em : moved c l = l). { apply (seen_regular c l (moved c l)); [apply moved_seen; intros s Hin; pose proof (Hl s Hin); lra|]. intros s Hin. apply Hl, Hin. }
  destruct (hlocal bJn bYn eta HJ HY He n_e n_p p omega size sqf (helm_scale omega size lev) c l a Hp HT Ho S1 (new_one n_e n_p omega size _ Le Lp Ho Hsz Hbig)) as (L & E & H);
    [intros s Hin; destruct (Hl s Hin) as (B1 & B2 & B3); split; [exact B1|split; [lra|exact B3]]|unfold ensig; lra|eapply Rle_trans; [exact S2|]; apply Rmult_le_compat_l; lra|].
  exists L. split; [exact E|]. intros t phi Ht Hx. destruct (H t phi Ht ltac:(lra)) as (u & v & Ev & B). rewrite Em in B. exists u, v, (place c t). split; [exact Ev|]. split; [apply place_seen; lra|exact B].
Qed.
Print Assumptions C81_local.

(** Away from the directions the code rounds, the positions are the ones given; with the
    degree the code uses. *)
Theorem C81_multipole_regular : forall bJn bYn eta, computes_J bJn eta -> computes_Y bYn eta -> / 10 ^ 17 <= eta <= / 2 ->
  forall digits n_e n_p p omega size sqf lev c l a t phi, digits = 3%nat \/ digits = 6%nat -> helm_p digits = Ok p -> YukModel.generate_sqf p = Ok sqf -> length n_e = 22%nat -> length n_p = 22%nat -> (lev <= 21)%nat -> 0 < omega -> 0 < size ->
  (forall s, In s l -> dist c (cpos s) <= a /\ regular c (cpos s)) -> omega * a <= 100 ->
  0 <= a < dist c t -> regular c t -> size / 2 ^ lev <= dist c t -> / 10 ^ 4 <= omega * dist c t <= 100 ->
  exists M u v, helm_S_to_M bJn n_e n_p p omega size sqf (helm_scale omega size lev) c l = Ok M /\ helm_M_to_T bJn bYn p omega (helm_scale omega size lev) c M t phi = Ok (fst phi + u, snd phi + v) /\
    Rabs (u - wave_re omega l t) <= total_charge l * helm_error p eta (omega * a) (omega * dist c t) /\
    Rabs (v - wave_im omega l t) <= total_charge l * helm_error p eta (omega * a) (omega * dist c t).
Proof.
  intros bJn bYn eta HJ HY He digits n_e n_p p omega size sqf lev c l a t phi Hd Hp HT Le Lp Hlev Ho Hsz Hl Ha Hat Rt Hbox Hx. pose proof (inv10_le1 14) as T.
  assert (Bp : (p <= 18)%nat) by (destruct Hd as [-> | ->]; injection Hp as <-; lia).
  destruct (C81_multipole bJn bYn eta HJ HY He n_e n_p p omega size sqf lev c l a Bp HT Le Lp Hlev Ho Hsz) as (M & l' & E & Hl' & H); [intros s Hin; destruct (Hl s Hin) as [B [C _]]; lra|exact Ha|].
  destruct (H t phi Hat Hx Hbox) as (u & v & t' & Ev & (_ & _ & Ht) & B). rewrite (seen_regular c l l' Hl' ltac:(intros; apply Hl; assumption)), (Ht Rt) in B. exists M, u, v. split; [exact E|]. split; [exact Ev|exact B].
Qed.
Print Assumptions C81_multipole_regular.

Theorem C81_local_regular : forall bJn bYn eta, computes_J bJn eta -> computes_Y bYn eta -> / 10 ^ 17 <= eta <= / 2 ->
  forall digits n_e n_p p omega size sqf lev c l a t phi, digits = 3%nat \/ digits = 6%nat -> helm_p digits = Ok p -> YukModel.generate_sqf p = Ok sqf -> length n_e = 22%nat -> length n_p = 22%nat -> 0 < omega -> 0 < size -> / 2 < omega * size ->
  (forall s, In s l -> a <= dist c (cpos s) /\ omega * dist c (cpos s) <= 100 /\ regular c (cpos s)) -> / 10 ^ 4 <= omega * a -> size / 2 ^ lev <= a ->
  dist c t < a -> regular c t -> omega * dist c t <= 100 ->
  exists L u v, helm_S_to_L bJn bYn n_e n_p p omega size sqf (helm_scale omega size lev) c l = Ok L /\ helm_L_to_T bJn p omega (helm_scale omega size lev) c L t phi = Ok (fst phi + u, snd phi + v) /\
    Rabs (u - wave_re omega l t) <= total_charge l * helm_error p eta (omega * dist c t) (omega * a) /\
    Rabs (v - wave_im omega l t) <= total_charge l * helm_error p eta (omega * dist c t) (omega * a).
Proof.
  intros bJn bYn eta HJ HY He digits n_e n_p p omega size sqf lev c l a t phi Hd Hp HT Le Lp Ho Hsz Hbig Hl Ha Hbox Hat Rt Hx. pose proof (inv10_le1 14) as T. assert (0 < dist c t) by (destruct Rt; lra).
  assert (Bp : (p <= 18)%nat) by (destruct Hd as [-> | ->]; injection Hp as <-; lia).
  destruct (C81_local bJn bYn eta HJ HY He n_e n_p p omega size sqf lev c l a Bp HT Le Lp Ho Hsz Hbig Hl Ha Hbox) as (L & E & H0).
  destruct (H0 t phi ltac:(lra) Hx) as (u & v & t' & Ev & (_ & _ & Ht) & B). rewrite (Ht Rt) in B. exists L, u, v. split; [exact E|]. split; [exact Ev|exact B].
Qed.
Print Assumptions C81_local_regular.

(** The direct sum: the field of the sources that are not at the target. *)
Theorem C81_direct : forall omega l t phi, 0 < omega -> (forall s, In s l -> cpos s <> t) -> helm_S_to_T omega l t phi = Ok (fst phi + wave_re omega l t, snd phi + wave_im omega l t).
Proof. intros omega l t phi Ho H. unfold helm_S_to_T. rewrite hdirect_acc by assumption. cbn [bind]. unfold cadd. cbn [fst snd]. rewrite !Rplus_0_l. reflexivity. Qed.
Print Assumptions C81_direct.

Theorem C81_direct_self : forall omega l1 s l2 phi, helm_S_to_T omega (l1 ++ s :: l2) (cpos s) phi = helm_S_to_T omega (l1 ++ l2) (cpos s) phi.
Proof.
  intros omega l1 s l2 phi. unfold helm_S_to_T. rewrite !foldM_app. f_equal. match goal with |- bind ?a _ = bind _ _ => destruct a as [v|e]; [|reflexivity] end. cbn [bind foldM]. cbv zeta. replace (norm3 (point_sub (cpos s) (cpos s))) with 0 by (symmetry; rewrite norm3_dist; unfold dist; rewrite <- sqrt_0 at 1; f_equal; ring).
  destruct (Rlt_dec 0 (omega * 0)) as [C|_]; [lra|reflexivity].
Qed.
Print Assumptions C81_direct_self.

(** Adding the expansions of two sets of sources gives the expansion of both together. *)
Theorem C81_adds : forall bJn bYn eta, computes_J bJn eta -> computes_Y bYn eta -> / 10 ^ 17 <= eta <= / 2 ->
  forall n_e n_p p omega size sqf lev c l1 l2, (p <= 18)%nat -> YukModel.generate_sqf p = Ok sqf -> length n_e = 22%nat -> length n_p = 22%nat -> (lev <= 21)%nat -> 0 < omega -> 0 < size ->
  let scale := helm_scale omega size lev in (forall s, In s (l1 ++ l2) -> cpos s <> c /\ omega * dist c (cpos s) <= 100) ->
  (exists M1 M2 M, helm_S_to_M bJn n_e n_p p omega size sqf scale c l1 = Ok M1 /\ helm_S_to_M bJn n_e n_p p omega size sqf scale c l2 = Ok M2 /\ helm_S_to_M bJn n_e n_p p omega size sqf scale c (l1 ++ l2) = Ok M /\ add_expansion M1 M2 = Ok M) /\
  (/ 2 < omega * size -> (forall s, In s (l1 ++ l2) -> / 10 ^ 4 <= omega * dist c (cpos s)) ->
   exists L1 L2 L, helm_S_to_L bJn bYn n_e n_p p omega size sqf scale c l1 = Ok L1 /\ helm_S_to_L bJn bYn n_e n_p p omega size sqf scale c l2 = Ok L2 /\ helm_S_to_L bJn bYn n_e n_p p omega size sqf scale c (l1 ++ l2) = Ok L /\ add_expansion L1 L2 = Ok L).
Proof.
  intros bJn bYn eta HJ HY He n_e n_p p omega size sqf lev c l1 l2 Hp HT Le Lp Hlev Ho Hsz scale H. destruct (helm_scale_pos omega size lev Ho Hsz) as [S1 S2]. fold scale in S1, S2. split.
  - unfold helm_S_to_M. rewrite (new_lev n_e n_p omega size lev _ Le Lp Ho Hsz Hlev). cbn [bind]. apply adds_app. intros s Hin. destruct (H s Hin) as [N B]. apply (hm_adds bJn eta); auto. lra.
  - intros Hbig Hx. unfold helm_S_to_L. rewrite (new_one n_e n_p omega size _ Le Lp Ho Hsz Hbig). cbn [bind]. apply l_adds_app. intros s Hin. destruct (H s Hin) as [N B]. pose proof (Hx s Hin). apply (hl_adds bJn bYn eta); auto. unfold ensig. lra.
Qed.
Print Assumptions C81_adds.

Example C81_nonvacuous : let c := mkPt 1 1 1 in let l := [mkCharge 2 (mkPt 2 1 1); mkCharge (-3) (mkPt 1 1 2)] in let t := mkPt 4 5 1 in
  forall sqf, YukModel.generate_sqf 9 = Ok sqf ->
  (exists M u v, helm_S_to_M near_J (repeat 0%Z 22) (repeat 0%Z 22) 9 2 8 sqf (helm_scale 2 8 2) c l = Ok M /\ helm_M_to_T near_J exact_Y 9 2 (helm_scale 2 8 2) c M t (7, 3) = Ok (7 + u, 3 + v) /\ Rabs (v - wave_im 2 l t) <= 5 * helm_error 9 (/ 10 ^ 16) 2 10) /\
  exists L u v, helm_S_to_L near_J exact_Y (repeat 0%Z 22) (repeat 0%Z 22) 9 2 8 sqf (helm_scale 2 8 2) c [mkCharge 4 t] = Ok L /\ helm_L_to_T near_J 9 2 (helm_scale 2 8 2) c L (mkPt 2 1 1) (7, 3) = Ok (7 + u, 3 + v) /\ Rabs (u - wave_re 2 [mkCharge 4 t] (mkPt 2 1 1)) <= 4 * helm_error 9 (/ 10 ^ 16) 2 10.
Proof.
  cbv zeta. intros sqf HT. set (c := mkPt 1 1 1).
  assert (D1 : dist c (mkPt 2 1 1) = 1) by (unfold dist, c; cbn [px py pz]; replace (_ + _ + _) with (1 * 1) by ring; apply sqrt_square; lra).
  assert (D2 : dist c (mkPt 1 1 2) = 1) by (unfold dist, c; cbn [px py pz]; replace (_ + _ + _) with (1 * 1) by ring; apply sqrt_square; lra).
  assert (D3 : dist c (mkPt 4 5 1) = 5) by (unfold dist, c; cbn [px py pz]; replace (_ + _ + _) with (5 * 5) by ring; apply sqrt_square; lra).
  assert (O1 : off_axis c (mkPt 2 1 1) = 1) by (unfold off_axis, c; cbn [px py pz]; replace (_ + _) with (1 * 1) by ring; apply sqrt_square; lra).
  assert (O2 : off_axis c (mkPt 1 1 2) = 0) by (unfold off_axis, c; cbn [px py pz]; replace (_ + _) with 0 by ring; apply sqrt_0).
  assert (O3 : off_axis c (mkPt 4 5 1) = 5) by (unfold off_axis, c; cbn [px py pz]; replace (_ + _) with (5 * 5) by ring; apply sqrt_square; lra).
  assert (T : 0 < / 10 ^ 14 < 1) by (split; [apply inv10_le1|]; apply Rle_lt_trans with (/ 10 ^ 1); [apply ip10; lia|lra]). pose proof (inv10_le1 4) as T4.
  pose proof (exactY_computes (/ 10 ^ 16) ltac:(pose proof (inv10_le1 16); lra)) as HY. split.
  - destruct (C81_multipole_regular near_J exact_Y (/ 10 ^ 16) near_computes HY eta16) with (digits := 3%nat) (n_e := repeat 0%Z 22) (n_p := repeat 0%Z 22) (p := 9%nat) (omega := 2) (sqf := sqf) (size := 8) (lev := 2%nat) (c := c) (l := [mkCharge 2 (mkPt 2 1 1); mkCharge (-3) (mkPt 1 1 2)]) (a := 1) (t := mkPt 4 5 1) (phi := (7, 3)) as (M & u & v & E & Ev & _ & B); try assumption; try reflexivity; try lia; try lra.
    + intros s [<-|[<-|[]]]; cbn [cpos]; unfold regular; rewrite ?D1, ?D2, ?O1, ?O2; lra.
    + split; [rewrite D3; lra|]. right. rewrite D3, O3. lra.
    + exists M, u, v. split; [exact E|]. split; [exact Ev|]. rewrite D3 in B. unfold total_charge in B. cbn [fold_right cq] in B.
      rewrite (Rabs_right 2), (Rabs_left (-3)) in B by lra. replace (2 * 1) with 2 in B by ring. replace (2 * 5) with 10 in B by ring. replace (2 + (- -3 + 0)) with 5 in B by ring. exact B.
  - destruct (C81_local_regular near_J exact_Y (/ 10 ^ 16) near_computes HY eta16) with (digits := 3%nat) (n_e := repeat 0%Z 22) (n_p := repeat 0%Z 22) (p := 9%nat) (omega := 2) (sqf := sqf) (size := 8) (lev := 2%nat) (c := c) (l := [mkCharge 4 (mkPt 4 5 1)]) (a := 5) (t := mkPt 2 1 1) (phi := (7, 3)) as (L & u & v & E & Ev & B & _); try assumption; try reflexivity; try lia; try lra.
    + intros s [<-|[]]. cbn [cpos]. unfold regular. rewrite D3, O3. lra.
    + split; [rewrite D1; lra|]. right. rewrite D1, O1. lra.
    + exists L, u, v. split; [exact E|]. split; [exact Ev|]. rewrite D1 in B. unfold total_charge in B. cbn [fold_right cq] in B.
      rewrite (Rabs_right 4) in B by lra. replace (2 * 1) with 2 in B by ring. replace (2 * 5) with 10 in B by ring. replace (4 + 0) with 4 in B by ring. exact B.
Qed.

(** ** C82 *)
(** A source or a target exactly at the centre has no direction, as with the other kernels. *)
Lemma angles_l_centre c : angles_l (point_sub c c) = Fail DivZero.
Proof.
  unfold angles_l. assert (E : norm3 (point_sub c c) = 0) by (rewrite norm3_dist; unfold dist; rewrite <- sqrt_0 at 1; f_equal; ring). rewrite E. pose proof tiny_pos. destruct (Rle_dec 0 tiny); [|lra]. cbn [bind]. unfold rdiv at 1. destruct (Req_EM_T 0 0); [reflexivity|contradiction].
Qed.
Lemma fails_after A B (r : res A) (f : A -> res B) : (forall a, exists e, f a = Fail e) -> exists e, bind r f = Fail e.
Proof. intros H. destruct r as [a|e]; [apply H|exists e; reflexivity]. Qed.
Theorem C82_at_centre_refuted : forall bJn bYn n_e n_p p omega size sqf scale c l s M phi, In s l -> cpos s = c ->
  (exists e, helm_S_to_M bJn n_e n_p p omega size sqf scale c l = Fail e) /\ (exists e, helm_S_to_L bJn bYn n_e n_p p omega size sqf scale c l = Fail e) /\
  helm_M_to_T bJn bYn p omega scale c M c phi = Fail DivZero /\ helm_L_to_T bJn p omega scale c M c phi = Fail DivZero.
Proof.
  intros bJn bYn n_e n_p p omega size sqf scale c l s M phi Hin E. split; [|split; [|split]].
  - apply fails_after. intros M0. apply fold_fails with (x := s); [exact Hin|]. intros M'. rewrite E. unfold helm_s_to_m. rewrite angles_centre. reflexivity.
  - apply fails_after. intros M0. apply fold_fails with (x := s); [exact Hin|]. intros M'. rewrite E. unfold helm_s_to_l. rewrite angles_l_centre. reflexivity.
  - unfold helm_M_to_T, helm_m_to_t. rewrite angles_centre. reflexivity.
  - unfold helm_L_to_T, helm_l_to_t. rewrite angles_centre. reflexivity.
Qed.
Print Assumptions C82_at_centre_refuted.

(** A target within 1e-4 / omega of the centre of a box: the potential of the charge halfway to
    it comes out at most 3/5 of what it is. *)
Theorem C82_small_distance_refuted : forall bJn bYn n_e n_p p omega size sqf lev c r q, (p <= 18)%nat -> YukModel.generate_sqf p = Ok sqf -> length n_e = 22%nat -> length n_p = 22%nat -> (lev <= 21)%nat -> 0 < omega -> 0 < size ->
  / 10 ^ 10 <= omega * r < / 10 ^ 4 ->
  let s := mkCharge q (mkPt (px c) (py c) (pz c + r / 2)) in let t := mkPt (px c) (py c) (pz c + r) in
  exists M u v, helm_S_to_M bJn n_e n_p p omega size sqf (helm_scale omega size lev) c [s] = Ok M /\
    (forall phi, helm_M_to_T bJn bYn p omega (helm_scale omega size lev) c M t phi = Ok (fst phi + u, snd phi + v)) /\ Rabs v <= 3 / 5 * Rabs (wave_im omega [s] t).
Proof.
  intros bJn bYn n_e n_p p omega size sqf lev c r q Hp HT Le Lp Hlev Ho Hsz Hr s t. destruct (helm_scale_pos omega size lev Ho Hsz) as [S1 S2].
  exact (small_wrong bJn bYn n_e n_p p omega size sqf (helm_scale omega size lev) c r q Hp HT (new_lev n_e n_p omega size lev _ Le Lp Ho Hsz Hlev) Ho S1 Hr).
Qed.
Print Assumptions C82_small_distance_refuted.

(** S_to_L makes its expansion with the default scale 1, from which a level is computed that is
    negative if omega times the side of the domain is at most 1/2. *)
Theorem C82_small_domain_refuted : forall bJn bYn n_e n_p p omega size sqf scale c l, 0 < omega -> 0 < size -> omega * size <= / 2 -> helm_S_to_L bJn bYn n_e n_p p omega size sqf scale c l = Fail Oob.
Proof.
  intros bJn bYn n_e n_p p omega size sqf scale c l Ho Hs H. unfold helm_S_to_L, helm_new. destruct (proj2 (level_one omega size Ho Hs) H) as (k & -> & K). cbn [bind]. rewrite (nth_resZ_neg Z n_e k K). reflexivity.
Qed.
Print Assumptions C82_small_domain_refuted.

(** The tables end at level 21. *)
Theorem C82_deep_refuted : forall bJn n_e n_p p omega size sqf lev c l, length n_e = 22%nat -> 0 < omega -> 0 < size -> (22 <= lev)%nat -> helm_S_to_M bJn n_e n_p p omega size sqf (helm_scale omega size lev) c l = Fail Oob.
Proof.
  intros bJn n_e n_p p omega size sqf lev c l Le Ho Hs H. unfold helm_S_to_M, helm_new. rewrite level_ok by assumption. cbn [bind]. rewrite (nth_resZ_over Z n_e lev) by lia. reflexivity.
Qed.
Print Assumptions C82_deep_refuted.

(** An accuracy other than 3 or 6 digits gives the degree 0; 15 digits or more read behind the
    table. *)
Theorem C82_other_accuracies_refuted : forall digits, digits <> 3%nat -> digits <> 6%nat -> ((digits < 15)%nat /\ helm_p digits = Ok 0%nat) \/ ((15 <= digits)%nat /\ helm_p digits = Fail Oob).
Proof.
  intros digits H3 H6. destruct (Nat.le_gt_cases 15 digits) as [L|L].
  - right. split; [exact L|]. unfold helm_p, nth_res. replace (nth_error helm_p_table digits) with (@None nat); [reflexivity|]. symmetry. apply nth_error_None. cbn. lia.
  - left. split; [exact L|]. do 15 (destruct digits as [|digits]; [first [reflexivity|contradiction]|]); lia.
Qed.
Print Assumptions C82_other_accuracies_refuted.

Example C82_nonvacuous : (forall sqf M phi, helm_S_to_L near_J exact_Y (repeat 0%Z 22) (repeat 0%Z 22) 9 (/ 4) 1 sqf 1 (mkPt 0 0 0) [mkCharge 1 (mkPt 1 0 0)] = Fail Oob /\ helm_M_to_T near_J exact_Y 9 1 1 (mkPt 0 0 0) M (mkPt 0 0 0) phi = Fail DivZero) /\
  (forall sqf, YukModel.generate_sqf 9 = Ok sqf -> exists M u v, helm_S_to_M near_J (repeat 0%Z 22) (repeat 0%Z 22) 9 1 1 sqf (helm_scale 1 1 15) (mkPt 0 0 0) [mkCharge 1 (mkPt 0 0 (0 + / 10 ^ 5 / 2))] = Ok M /\
     helm_M_to_T near_J exact_Y 9 1 (helm_scale 1 1 15) (mkPt 0 0 0) M (mkPt 0 0 (0 + / 10 ^ 5)) (0, 0) = Ok (0 + u, 0 + v) /\ Rabs v <= 3 / 5 * Rabs (wave_im 1 [mkCharge 1 (mkPt 0 0 (0 + / 10 ^ 5 / 2))] (mkPt 0 0 (0 + / 10 ^ 5)))) /\
  helm_p 4 = Ok 0%nat.
Proof.
  split; [|split].
  - intros sqf M phi. split; [apply C82_small_domain_refuted; lra|]. apply (C82_at_centre_refuted near_J exact_Y [] [] 9 1 1 sqf 1 (mkPt 0 0 0) [mkCharge 1 (mkPt 0 0 0)] (mkCharge 1 (mkPt 0 0 0)) M phi); [left; reflexivity|reflexivity].
  - intros sqf HT. destruct (C82_small_distance_refuted near_J exact_Y (repeat 0%Z 22) (repeat 0%Z 22) 9 1 1 sqf 15 (mkPt 0 0 0) (/ 10 ^ 5) 1 ltac:(lia) HT eq_refl eq_refl ltac:(lia) ltac:(lra) ltac:(lra)) as (M & u & v & E & Ev & B).
    + rewrite Rmult_1_l. split; [apply ip10; lia|]. apply Rinv_lt_contravar; [apply Rmult_lt_0_compat; apply pow_lt; lra|apply Rlt_pow; [lra|lia]].
    + exists M, u, v. split; [exact E|]. split; [exact (Ev (0, 0))|exact B].
  - reflexivity.
Qed.
