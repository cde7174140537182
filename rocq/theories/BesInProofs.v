(** bessel_In computes the modified Bessel functions of half-integral order. *)
From Coq Require Import Reals List Arith Lia Lra Psatz ZArith.
From Coquelicot Require Rcomplements.
From Verif Require Import Base ListFacts LapModel LapArrays BesselSpec BesselProofs YukModel YukSpec YukBessel BesInModel BesInMath BesInStart BesInRecur.
Import ListNotations.
Open Scope R_scope.

(** ** Gamma (3 / 2) *)
Definition g_lo : R := IZR 886226925452758013 / 10 ^ 18.
Definition g_hi : R := IZR 886226925452758014 / 10 ^ 18.
Lemma PI_18 : IZR 3141592653589793238 / 10 ^ 18 <= PI <= IZR 3141592653589793239 / 10 ^ 18.
Proof.
  pose proof (PI_2_3_7_ineq 10) as H.
  change (S (2 * 10)) with 21%nat in H. change (2 * 10)%nat with 20%nat in H. cbn [sum_f_R0] in H. unfold tg_alt, PI_2_3_7_tg, Ratan_seq in H.
  rewrite !INR_IZR_INZ in H. simpl Z.of_nat in H. simpl pow in H. split; lra.
Qed.
Lemma root_PI : g_lo <= sqrt PI / 2 <= g_hi.
Proof.
  pose proof PI_18 as P. assert (S0 : 0 <= sqrt PI) by apply sqrt_pos. assert (Q : sqrt PI * sqrt PI = PI) by (apply sqrt_sqrt; lra).
  split; apply Rnot_lt_le; intros C; unfold g_lo, g_hi in C.
  - assert (sqrt PI * sqrt PI < (2 * (IZR 886226925452758013 / 10 ^ 18)) * (2 * (IZR 886226925452758013 / 10 ^ 18))) by (apply Rmult_le_0_lt_compat; lra). lra.
  - assert ((2 * (IZR 886226925452758014 / 10 ^ 18)) * (2 * (IZR 886226925452758014 / 10 ^ 18)) < sqrt PI * sqrt PI) by (apply Rmult_le_0_lt_compat; lra). lra.
Qed.
Lemma gamma_ok : exists g, Gamma (alpha + 1) = Ok g /\ g_lo <= g <= g_hi.
Proof.
  unfold Gamma. unfold alpha. destruct (Rle_dec 1 (5 / 10 + 1)) as [_|C]; [|lra]. destruct (Rlt_dec (5 / 10 + 1) 12) as [_|C]; [|lra].
  assert (E : Int_part (5 / 10 + 1) = 1%Z). { destruct (base_Int_part (5 / 10 + 1)) as [A B]. assert (IZR (Int_part (5 / 10 + 1)) < IZR 2) by (simpl; lra). assert (IZR 0 < IZR (Int_part (5 / 10 + 1))) by (simpl; lra). apply lt_IZR in H, H0. lia. }
  rewrite E. change (Z.to_nat (1 - 1)) with 0%nat. cbn [INR seq fold_left]. replace (5 / 10 + 1 - 0 - 1) with (/ 2) by lra. unfold gamma_p, gamma_q. cbn [combine fold_left].
  match goal with |- context [rdiv ?a ?b] => set (xn := a); set (xd := b) end.
  assert (Pd : xd < - 100000) by (unfold xd; lra). rewrite rdiv_ok by lra. cbn [bind]. eexists. split; [reflexivity|].
  assert (L1 : xn <= (g_lo - 1) * xd) by (unfold xn, xd, g_lo; lra). assert (L2 : (g_hi - 1) * xd <= xn) by (unfold xn, xd, g_hi; lra).
  assert (En : xn / xd * xd = xn) by (field; lra). split; apply Rnot_lt_le; intros C; nra.
Qed.

Lemma Int_floor x : 0 <= x -> INR (Z.to_nat (Int_part x)) <= x < INR (Z.to_nat (Int_part x)) + 1.
Proof.
  intros Hx. destruct (base_Int_part x) as [A B]. assert (N : (0 <= Int_part x)%Z). { assert (IZR (-1) < IZR (Int_part x)) by (simpl; lra). apply lt_IZR in H. lia. }
  rewrite INR_IZR_INZ, Z2Nat.id by exact N. lra.
Qed.

Lemma exp_100 x : x <= 10 ^ 2 -> / 10 ^ 50 <= exp (- x).
Proof.
  intros H. pose proof exp_le_3 as E.
  assert (U : exp x <= 10 ^ 50).
  { apply Rle_trans with (exp 1 ^ 100).
    - rewrite exp_pow, INR_IZR_INZ. simpl Z.of_nat. destruct (Rle_lt_or_eq_dec x (100 * 1)) as [L|L]; [lra|left; apply exp_increasing, L|rewrite L; lra].
    - apply Rle_trans with (3 ^ 100); [apply pow_incr; split; [left; apply exp_pos|exact E]|]. replace (3 ^ 100) with ((3 ^ 2) ^ 50) by (rewrite <- pow_mult; reflexivity). apply pow_incr. lra. }
  rewrite exp_Ropp. apply Rinv_le_contravar; [apply exp_pos|exact U].
Qed.

Theorem In_ok nb x : (1 <= nb <= 20)%nat -> / 10 ^ 4 <= x <= 10 ^ 2 -> exists vals, bessel_In nb x = Ok vals /\
  forall n, (n < nb)%nat -> exists v, nth_error vals n = Some v /\ Rabs (sqrt (PI / 2 / x) * v - ii n x) <= / 10 ^ 14 * ii n x.
Proof.
  intros Hnb Hx. assert (P4 : 0 < / 10 ^ 4) by (apply Rinv_0_lt_compat, pow_lt; lra). assert (Px : 0 < x) by lra. pose proof (Int_floor x ltac:(lra)) as Fl. set (s := Z.to_nat (Int_part x)) in *.
  destruct (start_ok x ltac:(lra) s Fl Px nb Hnb eq_refl) as (N & p & Es & HN & Hp & HK & H0 & HQ).
  unfold bessel_In. destruct (Nat.leb_spec nb 0) as [C|_]; [lia|]. destruct (Rlt_dec x 0) as [C|_]; [lra|]. destruct (Rlt_dec bI_exparg x) as [C|_]; [unfold bI_exparg in C; lra|].
  destruct (Rle_dec bI_rtnsig x) as [_|C]; [|unfold bI_rtnsig in C; lra]. rewrite Es. cbn [bind].
  destruct (recur_ok x N p Px Hp nb ltac:(lia) HN) as (B & FB & ->). destruct gamma_ok as (g & Eg & Hg). pose proof root_PI as Hr. set (sp := sqrt PI / 2) in *.
  set (sum := total x N p * g * (1 / sqrt (x * (5 / 10))) * exp (- x)).
  pose proof (K_pos x Px 0) as K0. pose proof (K_pos x Px (S N)) as KN. pose proof (K_pos x Px (S s)) as Ks. set (k0 := kk 0 x) in *. set (kN := kk (S N) x) in *.
  assert (Pg : 8 / 10 <= g) by (unfold g_lo in Hg; lra). assert (Pq : 0 < sqrt (x * (5 / 10))) by (apply sqrt_lt_R0; lra). set (q := sqrt (x * (5 / 10))) in *.
  assert (D : 0 < kN - k0) by lra. set (A := x * x / p). assert (PA : 0 < A) by (unfold A; apply Rdiv_lt_0_compat; nra).
  assert (Esum : sum = A * (kN - k0) * g / q).
  { unfold sum, total. rewrite (yy_total x Px N p Hp). fold kN k0. replace (exp (- x)) with (/ exp x) by (symmetry; apply exp_Ropp). pose proof (exp_pos x). unfold A. field. repeat split; lra. }
  assert (Psum : 0 < sum) by (rewrite Esum; apply Rdiv_lt_0_compat; [|exact Pq]; apply Rmult_lt_0_compat; [apply Rmult_lt_0_compat; lra|lra]).
  (* the value *)
  assert (Sq : sqrt (PI / 2 / x) = sp / q).
  { assert (E : sqrt (PI / 2 / x) * q = sp). { unfold q, sp. pose proof PI_RGT_0. rewrite <- sqrt_mult by (try (apply Rmult_le_pos; [lra|left; apply Rinv_0_lt_compat; lra]); lra). replace (PI / 2 / x * (x * (5 / 10))) with (PI / (2 * 2)) by (field; lra).
      rewrite sqrt_div_alt by lra. f_equal. apply sqrt_square. lra. } rewrite <- E. field. lra. }
  assert (Val : forall n, sqrt (PI / 2 / x) * (yy x N p n / sum) = sp / g * (kN / (kN - k0)) * (ii n x * (1 + (-1) ^ (N + n) * share x N n))).
  { intros n. rewrite Sq, Esum, (yy_share x Px N p Hp n). fold kN A. field. repeat split; lra. }
  (* the three errors *)
  assert (Eps : forall n, (n < nb)%nat -> 0 < share x N n <= 18 / 10 ^ 16).
  { intros n Hn. split; [apply share_pos, Px|]. eapply Rle_trans; [apply (share_le x Px N n (2 * 10 ^ 16)); [lra|apply HQ, Hn]|]. unfold Rdiv. replace (18 * / 10 ^ 16) with (36 * / (2 * 10 ^ 16)) by (field; apply pow_nonzero; lra). apply Rmult_le_compat_r; [left; apply Rinv_0_lt_compat; lra|lra]. }
  assert (Del : 1 <= kN / (kN - k0) <= 1 + 6 / 10 ^ 15).
  { split; apply Rmult_le_reg_r with (kN - k0); try exact D; replace (kN / (kN - k0) * (kN - k0)) with kN by (field; lra); lra. }
  assert (Gam : 1 - 2 / 10 ^ 18 <= sp / g <= 1 + 2 / 10 ^ 18).
  { unfold g_lo, g_hi in *. split; (apply Rmult_le_reg_r with g; [lra|]); replace (sp / g * g) with sp by (field; lra); lra. }
  assert (Close : forall n, (n < nb)%nat -> Rabs (sqrt (PI / 2 / x) * (yy x N p n / sum) - ii n x) <= / 10 ^ 14 * ii n x).
  { intros n Hn. rewrite Val. pose proof (I_pos x Px n) as Pi. destruct (Eps n Hn) as [e1 e2]. set (e := share x N n) in *. set (d := kN / (kN - k0)) in *. set (ga := sp / g) in *.
    assert (Sg : - e <= (-1) ^ (N + n) * e <= e) by (pose proof (pow_1_abs (N + n)) as Ab; destruct (Rcase_abs ((-1) ^ (N + n))) as [C|C]; [rewrite Rabs_left in Ab by lra|rewrite Rabs_right in Ab by lra]; nra).
    set (f := 1 + (-1) ^ (N + n) * e) in *. assert (Hf : 1 - 18 / 10 ^ 16 <= f <= 1 + 18 / 10 ^ 16) by (unfold f; lra).
    replace (ga * d * (ii n x * f) - ii n x) with ((ga * d * f - 1) * ii n x) by ring. rewrite Rabs_mult, (Rabs_pos_eq (ii n x)) by lra. apply Rmult_le_compat_r; [lra|].
    assert (G1 : 1 - 2 / 10 ^ 18 <= ga * d <= 1 + 61 / 10 ^ 16).
    { split; [apply Rle_trans with ((1 - 2 / 10 ^ 18) * 1); [lra|apply Rmult_le_compat; lra]|apply Rle_trans with ((1 + 2 / 10 ^ 18) * (1 + 6 / 10 ^ 15)); [apply Rmult_le_compat; lra|lra]]. }
    assert (G2 : 1 - / 10 ^ 14 <= ga * d * f <= 1 + / 10 ^ 14).
    { split; [apply Rle_trans with ((1 - 2 / 10 ^ 18) * (1 - 18 / 10 ^ 16)); [lra|apply Rmult_le_compat; lra]|apply Rle_trans with ((1 + 61 / 10 ^ 16) * (1 + 18 / 10 ^ 16)); [apply Rmult_le_compat; lra|lra]]. }
    apply Rabs_le. lra. }
  (* nothing is small enough to be dropped *)
  assert (Small : forall n, (n < nb)%nat -> / 10 ^ 114 <= ii n x).
  { intros n Hn. eapply Rle_trans; [|apply (I_low x Px)]. replace (/ 10 ^ 114) with (/ 10 ^ 76 * / 10 ^ 38) by (rewrite <- Rinv_mult, <- pow_add; reflexivity). pose proof (odd_ge n) as O. unfold Rdiv.
    apply Rmult_le_compat; [left; apply Rinv_0_lt_compat, pow_lt; lra|left; apply Rinv_0_lt_compat, pow_lt; lra| |apply Rinv_le_contravar; [lra|apply odd_38; lia]].
    apply Rle_trans with ((/ 10 ^ 4) ^ n); [|apply pow_incr; lra]. rewrite pow_inv, <- pow_mult. apply ip10. lia. }
  assert (T300 : bI_enmten <= / 10 ^ 300). { unfold bI_enmten. replace (10 ^ 309) with (10 ^ 300 * 10 ^ 9) by (rewrite <- pow_add; reflexivity). pose proof (pow_lt 10 300 ltac:(lra)). unfold Rdiv. rewrite Rinv_mult. rewrite (Rmult_comm (/ 10 ^ 300)), <- Rmult_assoc. rewrite <- (Rmult_1_l (/ 10 ^ 300)) at 2. apply Rmult_le_compat_r; [left; apply Rinv_0_lt_compat; assumption|lra]. }
  destruct (normalize_ok x N p Px nb g B Eg FB Psum) as (B' & EB & HB).
  { intros n Hn. pose proof (Small n Hn) as Sm. destruct (Eps n Hn) as [e1 e2]. fold sum.
    assert (Y : A * kN * (ii n x * / 2) <= yy x N p n).
    { rewrite (yy_share x Px N p Hp n). fold kN A. apply Rmult_le_compat_l; [apply Rmult_le_pos; lra|]. pose proof (I_pos x Px n). apply Rmult_le_compat_l; [lra|].
      pose proof (pow_1_abs (N + n)) as Ab. destruct (Rcase_abs ((-1) ^ (N + n))) as [C|C]; [rewrite Rabs_left in Ab by lra|rewrite Rabs_right in Ab by lra]; nra. }
    split.
    - assert (Kp : / 10 ^ 52 <= kN / p).
      { apply Rle_trans with (kk (S s) x); [|apply Rmult_le_reg_r with p; [lra|]; replace (kN / p * p) with kN by (field; lra); lra].
        eapply Rle_trans; [|apply (K_mono x Px 0); lia]. unfold kk. simpl G. simpl (x ^ 1). rewrite Rmult_1_r. replace (/ 10 ^ 52) with (/ 10 ^ 50 * / 10 ^ 2) by (rewrite <- Rinv_mult, <- pow_add; reflexivity).
        apply Rmult_le_compat; [left; apply Rinv_0_lt_compat, pow_lt; lra|left; apply Rinv_0_lt_compat, pow_lt; lra|apply exp_100; lra|apply Rinv_le_contravar; lra]. }
      eapply Rle_trans; [exact T300|]. eapply Rle_trans; [|exact Y]. replace (A * kN * (ii n x * / 2)) with (x * x * (kN / p) * (ii n x * / 2)) by (unfold A; field; lra).
      assert (X2 : / 10 ^ 8 <= x * x) by (replace (/ 10 ^ 8) with (/ 10 ^ 4 * / 10 ^ 4) by (rewrite <- Rinv_mult, <- pow_add; reflexivity); apply Rmult_le_compat; lra).
      apply Rle_trans with (/ 10 ^ 8 * / 10 ^ 52 * (/ 10 ^ 114 * / 10)).
      + replace (/ 10 ^ 8 * / 10 ^ 52 * (/ 10 ^ 114 * / 10)) with (/ 10 ^ 175) by (rewrite <- (pow_1 10) at 5; rewrite <- !Rinv_mult, <- !pow_add; reflexivity). apply ip10. lia.
      + pose proof (Rinv_0_lt_compat _ (pow_lt 10 8 ltac:(lra))). pose proof (Rinv_0_lt_compat _ (pow_lt 10 52 ltac:(lra))). pose proof (Rinv_0_lt_compat _ (pow_lt 10 114 ltac:(lra))).
        apply Rmult_le_compat; [apply Rmult_le_pos; lra|apply Rmult_le_pos; lra|apply Rmult_le_compat; lra|apply Rmult_le_compat; lra].
    - pose proof (Close n Hn) as Cl. apply Rcomplements.Rabs_le_between in Cl. set (v := yy x N p n / sum) in *. assert (Ev : yy x N p n = v * sum) by (unfold v; field; lra). rewrite Ev. apply Rmult_le_compat_r; [lra|].
      assert (H14 : / 10 ^ 14 * ii n x <= ii n x / 2) by (pose proof (I_pos x Px n); unfold Rdiv; rewrite (Rmult_comm (ii n x)); apply Rmult_le_compat_r; lra).
      assert (Rt : 0 < sqrt (PI / 2 / x) <= 200).
      { pose proof PI_RGT_0. pose proof PI_4. split; [apply sqrt_lt_R0, Rdiv_lt_0_compat; lra|]. rewrite <- (sqrt_square 200) by lra. apply sqrt_le_1_alt. apply Rle_trans with (2 * / x); [apply Rmult_le_compat_r; [left; apply Rinv_0_lt_compat|]; lra|].
        assert (/ x <= 10 ^ 4) by (rewrite <- (Rinv_inv (10 ^ 4)); apply Rinv_le_contravar; lra). lra. }
      set (r := sqrt (PI / 2 / x)) in *. assert (Lv : ii n x / 2 <= r * v) by lra. pose proof (I_pos x Px n).
      assert (Pv : 0 < v) by nra. assert (ii n x / 400 <= v) by nra. eapply Rle_trans; [exact T300|]. apply Rle_trans with (/ 10 ^ 114 * / 10 ^ 3); [rewrite <- Rinv_mult, <- pow_add; apply ip10; lia|lra]. }
  exists B'. split; [exact EB|]. intros n Hn. exists (yy x N p n / sum). split; [apply HB, Hn|apply Close, Hn].
Qed.

Theorem In_computes : computes_I bessel_In (/ 10 ^ 14).
Proof.
  intros nb x Hnb Hx. destruct (In_ok nb x Hnb ltac:(lra)) as (vals & E & H). exists vals. split; [exact E|]. intros n Hn. destruct (H n Hn) as (v & Ev & C). exists v. split; [exact Ev|].
  assert (0 < / 10 ^ 4) by (apply Rinv_0_lt_compat, pow_lt; lra). rewrite ii_sph by lra. exact C.
Qed.
