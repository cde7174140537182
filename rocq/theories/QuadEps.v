(** The quadrature of the table of three digits is accurate, with the waves cut off. *)
From Coq Require Import Reals ZArith List Lia Lra Psatz Bool.
From Coquelicot Require Import Coquelicot.
From Verif Require Import LegSpec LegProofs LegAdd SolidProofs SolidAdd SolidPair TranField LapModel TranEval MergeShiftModel WaveModel WaveSpec WaveAlg WaveFrom WaveShift Pot97Spec Pot97Bound QuadBall QuadFun QuadCell QuadGrid QuadTab QuadRun QuadTail QuadCut QuadSum QuadPoint.
Import ListNotations.
Open Scope R_scope.

(** ** Numbers *)
Fixpoint bpw (b : ball) (k : nat) : ball := match k with O => bofZ 1 | S k => bmul b (bpw b k) end.
Lemma bpw_ok b x k : within b x -> within (bpw b k) (x ^ k).
Proof. intros W. induction k as [|k IH]; [apply bofZ_ok|]. cbn [bpw pow]. apply bmul_ok; assumption. Qed.
(** exp (- l / 2) *)
Definition be (bl : ball) : ball := bpw (bexpn (bdiv bl 16)) 8.
Lemma be_ok bl l : 0 <= l <= 8 -> within bl l -> within (be bl) (exp (- (l / 2))).
Proof.
  intros Hl W. replace (exp (- (l / 2))) with (exp (- (l / 16)) ^ 8); [apply bpw_ok, bexpn_ok; [lra|apply (bdiv_ok bl 16 l); [lia|exact W]]|]. rewrite exp_pow. f_equal. cbn [INR]. field.
Qed.
(** A bound of the modulus of the exponents, and the power series there *)
Definition rr (l : R) : R := 867 * l / 1000.
Definition bR (bl : ball) : ball := bdiv (bscale 867 bl) 1000.
Lemma bR_ok bl l : within bl l -> within (bR bl) (rr l).
Proof. intros W. apply (bdiv_ok _ 1000); [lia|]. apply (bscale_ok 867), W. Qed.
Definition bq (bl : ball) : ball := bpw (bexpn (bdiv (bR bl) 16)) 16.
Definition low (b : ball) : Z := (mid b - rad b)%Z.
Definition up (bl : ball) : Z := (SC * SC / low (bq bl) + 1)%Z.
Lemma up_ok bl l : 0 <= l <= 8 -> within bl l -> (0 < low (bq bl))%Z -> exp (rr l) <= IZR (up bl) / IZR SC.
Proof.
  intros Hl W L. assert (B : 0 <= rr l / 16 <= 1 / 2) by (unfold rr; lra).
  assert (Wq : within (bq bl) (exp (- rr l))).
  { replace (exp (- rr l)) with (exp (- (rr l / 16)) ^ 16); [apply bpw_ok, bexpn_ok; [exact B|apply (bdiv_ok _ 16); [lia|apply bR_ok, W]]|]. rewrite exp_pow. f_equal. replace (INR 16) with 16 by (cbn [INR]; lra). field. }
  apply within_int in Wq. pose proof SCR as PS. apply IZR_lt in L as L'. unfold up. pose proof (div_bounds (SC * SC) (low (bq bl)) L) as D. rewrite mult_IZR in D. rewrite plus_IZR. unfold low in *. rewrite minus_IZR in *. set (m := IZR (mid (bq bl)) - IZR (rad (bq bl))) in *.
  pose proof (exp_pos (rr l)) as E. assert (X : exp (rr l) * exp (- rr l) = 1) by (rewrite <- exp_plus, Rplus_opp_r; apply exp_0). set (y := exp (- rr l)) in *. set (x := exp (rr l)) in *.
  assert (x * m <= IZR SC) by (replace (IZR SC) with (x * (y * IZR SC)) by (rewrite <- Rmult_assoc, X; ring); apply Rmult_le_compat_l; lra).
  assert (x <= IZR SC / m) by (apply (Rmult_le_reg_r m); [exact L'|]; unfold Rdiv; rewrite Rmult_assoc, Rinv_l by lra; lra).
  apply (Rmult_le_reg_r (IZR SC)); [exact PS|]. replace ((IZR (SC * SC / (mid (bq bl) - rad (bq bl))) + 1) / IZR SC * IZR SC) with (IZR (SC * SC / (mid (bq bl) - rad (bq bl))) + 1) by (field; lra).
  replace (IZR SC * IZR SC / m) with (IZR SC / m * IZR SC) in D by (field; lra). nra.
Qed.
Definition ser (l : R) : R := rtotal (fun n => l ^ n / INR (fact n)) 10.
Lemma rt_horner (d : nat -> R) y n : rtotal (fun i => d i * y ^ i) n = horner (map d (seq 0 n)) y.
Proof. induction n as [|n IH]; [reflexivity|]. cbn [rtotal]. rewrite IH, (seq_S n 0), map_app. cbn [map plus]. rewrite horner_snoc, map_length, seq_length. reflexivity. Qed.
Definition bser (bl : ball) : ball := bhorner (map (fun i => bfrac 1 (factZ i)) (seq 0 10)) (bR bl).
Lemma bser_ok bl l : within bl l -> within (bser bl) (ser (rr l)).
Proof.
  intros W. unfold ser. rewrite (rt_ext _ (fun i => 1 / INR (fact i) * rr l ^ i)) by (intros; unfold Rdiv; ring). rewrite rt_horner. apply bhorner_ok; [apply (fac_list (fun i => i))|apply bR_ok, W].
Qed.
(** The terms of the series that are left out *)
Definition rest (bl : ball) (l : R) : R := IZR (up bl) / IZR SC - ser (rr l).
Definition brest (bl : ball) : ball := badd (Ball (up bl) 0) (bneg (bser bl)).
Lemma brest_ok bl l : within bl l -> within (brest bl) (rest bl l).
Proof.
  intros W. apply badd_ok; [|apply bneg_ok, bser_ok, W]. apply within_int. cbn [mid rad]. pose proof SCR. replace (IZR (up bl) / IZR SC * IZR SC) with (IZR (up bl)) by (field; lra). lra.
Qed.
(** The frequencies that are left out *)
Definition cco (f j n : nat) : R := if (S f + j <=? n)%nat then IZR (2 * gz n (n + (S f + j))) / IZR (20000 ^ Z.of_nat n * factZ n) else 0.
Definition bcco (f j n : nat) : ball := if (S f + j <=? n)%nat then bfrac (2 * gz n (n + (S f + j))) (20000 ^ Z.of_nat n * factZ n) else bofZ 0.
Fixpoint bsum (g : nat -> ball) (n : nat) : ball := match n with O => bofZ 0 | S k => badd (bsum g k) (g k) end.
Lemma bsum_ok g f n : (forall k, (k < n)%nat -> within (g k) (f k)) -> within (bsum g n) (rtotal f n).
Proof. induction n as [|n IH]; intros H; [apply bofZ_ok|]. cbn [bsum rtotal]. apply badd_ok; [apply IH; intros; apply H; lia|apply H; lia]. Qed.
Definition bcut (bl : ball) (f : nat) : ball := bsum (fun j => bhorner (map (bcco f j) (seq 0 10)) bl) (9 - f).
Lemma bcut_ok bl l f : within bl l -> within (bcut bl f) (cutw l 9 f).
Proof.
  intros W. unfold bcut, cutw. apply bsum_ok. intros j _. rewrite (rt_ext _ (fun n => cco f j n * l ^ n)) by (intros n _; unfold cco; destruct (S f + j <=? n)%nat; ring). rewrite rt_horner. apply bhorner_ok; [|exact W].
  induction (seq 0 10) as [|n s IH]; [constructor|]. cbn [map]. constructor; [|exact IH]. unfold bcco, cco. destruct (S f + j <=? n)%nat; [|apply bofZ_ok]. apply bfrac_ok. apply Z.mul_pos_pos; [apply Z.pow_pos_nonneg; lia|apply factZ_pos].
Qed.
(** The weight times the error *)
Definition dd (bl : ball) (l : R) (f : nat) : R := cutw l 9 f + rest bl l.
Definition bdd (bl : ball) (f : nat) : ball := badd (bcut bl f) (brest bl).
Definition err (bl : ball) (l : R) (f : nat) : R := let e := exp (- (l / 2)) in let D := dd bl l f in 2 * (D * e ^ 3) + D ^ 2 * e ^ 4.
Definition berr (bl : ball) (f : nat) : ball := let e := be bl in let D := bdd bl f in badd (bscale 2 (bmul D (bpw e 3))) (bmul (bpw D 2) (bpw e 4)).
Definition err1 (bl : ball) (l : R) : R := let e := exp (- (l / 2)) in IZR 9409 / IZR 3136 * (e + rest bl l * e ^ 2) ^ 2 + e ^ 2.
Definition berr1 (bl : ball) : ball := let e := be bl in badd (bmul (bfrac 9409 3136) (bpw (badd e (bmul (brest bl) (bpw e 2))) 2)) (bpw e 2).
Lemma berr_ok bl l f : 0 <= l <= 8 -> within bl l -> within (berr bl f) (err bl l f).
Proof.
  intros Hl W. pose proof (be_ok bl l Hl W) as E. assert (D : within (bdd bl f) (dd bl l f)) by (apply badd_ok; [apply bcut_ok, W|apply brest_ok, W]).
  unfold berr, err. cbv zeta. apply badd_ok; [apply (bscale_ok 2), bmul_ok; [exact D|apply bpw_ok, E]|apply bmul_ok; apply bpw_ok; assumption].
Qed.
Lemma berr1_ok bl l : 0 <= l <= 8 -> within bl l -> within (berr1 bl) (err1 bl l).
Proof.
  intros Hl W. pose proof (be_ok bl l Hl W) as E. unfold berr1, err1. cbv zeta. apply badd_ok; [|apply bpw_ok, E]. apply bmul_ok; [apply bfrac_ok; lia|]. apply bpw_ok, badd_ok; [exact E|]. apply bmul_ok; [apply brest_ok, W|apply bpw_ok, E].
Qed.
Definition berrk (bl : ball) (f : nat) : ball := if (f =? 1)%nat then berr1 bl else berr bl f.
Definition errk (bl : ball) (l : R) (f : nat) : R := if (f =? 1)%nat then err1 bl l else err bl l f.

(** ** One wave *)
Lemma exponent_mod l v a : 0 <= l -> in_unit v -> Cmod (exponent l v a) <= rr l.
Proof.
  intros Hl (Hx & Hy & Hz). unfold Cmod, exponent. cbn [fst snd]. rewrite <- (sqrt_square (rr l)) by (unfold rr; lra). apply sqrt_le_1_alt.
  assert (S : forall u, Rabs u <= 1 / 2 -> u ^ 2 <= 1 / 4) by (intros u H; rewrite <- pow2_abs; pose proof (Rabs_pos u); nra). apply S in Hx, Hy, Hz. pose proof (cis_sq a) as T. set (c := cos a) in *. set (s := sin a) in *.
  assert (Q : (px v * c + py v * s) ^ 2 <= (px v ^ 2 + py v ^ 2) * (c * c + s * s)) by (pose proof (pow2_ge_0 (px v * s - py v * c)); nra). rewrite T, Rmult_1_r in Q.
  unfold rr. replace ((- l * pz v) ^ 2 + (l * (px v * c + py v * s)) ^ 2) with (l * l * (pz v ^ 2 + (px v * c + py v * s) ^ 2)) by ring. replace (867 * l / 1000 * (867 * l / 1000)) with (l * l * (751689 / 1000000)) by field.
  apply Rmult_le_compat_l; [nra|lra].
Qed.
Lemma cexp_half l v a : 0 <= l -> in_unit v -> Cmod (cexp (exponent l v a)) * exp (- (l / 2)) <= 1.
Proof.
  intros Hl (_ & _ & Hz). rewrite cexp_mod, <- exp_plus. rewrite <- exp_0. apply exp_mono. unfold exponent. cbn [fst]. apply Rabs_le_between in Hz. nra.
Qed.
Section Wave.
Variables (bl : ball) (l : R).
Hypothesis Hl : 0 <= l <= 8.
Hypothesis Wl : within bl l.
Hypothesis Low : (0 < low (bq bl))%Z.
Lemma deg_cut v a : in_unit v -> Cmod (cexp (exponent l v a) - exp_upto 9 (exponent l v a))%C <= rest bl l.
Proof.
  intros U. pose proof (exp_tail (exponent l v a) (rr l) (exponent_mod l v a ltac:(lra) U) 9) as T. pose proof (up_ok bl l Hl Wl Low). unfold rest, ser. lra.
Qed.
Lemma wave_cut f v h a : (f <= 9)%nat -> in_unit v -> wave 9 f l v h -> Cmod (h a - cexp (exponent l v a))%C <= dd bl l f.
Proof.
  intros Hf U H. pose proof (wave_is_lp MZ 9 f l v h a H) as E. pose proof (freq_cut (sgn MZ * l) l v 9 f a U ltac:(cbn [sgn]; rewrite Rabs_mult, Rabs_left, Rabs_right by lra; lra) Hf) as F. pose proof (deg_cut v a U) as D.
  pose proof (along_zeta MZ l v a) as Z. change (along MZ v) with v in Z. change (turn MZ (tov v)) with (tov v) in *. rewrite <- Z in F. rewrite E. unfold dd.
  match goal with |- Cmod (?L - ?c)%C <= _ => replace (L - c)%C with (- (exp_upto 9 (exponent l v a) - L) + - (c - exp_upto 9 (exponent l v a)))%C by ring end.
  eapply Rle_trans; [apply Cmod_triangle|]. rewrite !Cmod_opp. lra.
Qed.
Lemma wave_one v h a : in_unit v -> wave 9 1 l v h -> Cmod (h a) <= 97 / 56 * (/ exp (- (l / 2)) + rest bl l).
Proof.
  intros U H. pose proof (wave_is_lp MZ 9 1 l v h a H) as E. change (turn MZ (tov v)) with (tov v) in E. rewrite E, lp_fourier. apply (low_one 9); [lia|].
  intros b. rewrite <- lp_fourier, lp_exp. pose proof (along_zeta MZ l v b) as Z. change (along MZ v) with v in Z. change (turn MZ (tov v)) with (tov v) in Z. rewrite <- Z. pose proof (deg_cut v b U) as D. pose proof (cexp_half l v b ltac:(lra) U) as X.
  pose proof (exp_pos (- (l / 2))) as P. assert (Cmod (cexp (exponent l v b)) <= / exp (- (l / 2))) by (apply (Rmult_le_reg_r (exp (- (l / 2)))); [exact P|]; rewrite Rinv_l by lra; exact X).
  replace (exp_upto 9 (exponent l v b)) with (cexp (exponent l v b) + - (cexp (exponent l v b) - exp_upto 9 (exponent l v b)))%C by ring. eapply Rle_trans; [apply Cmod_triangle|]. rewrite Cmod_opp. lra.
Qed.
Lemma between_mod x y z a : 2 <= z -> Cmod (cexp (exponent l (mkPt x y z) a)) <= exp (- (l / 2)) ^ 4.
Proof. intros Hz. rewrite cexp_mod, exp_pow. apply exp_mono. unfold exponent. cbn [fst pz INR]. nra. Qed.
Lemma prod_cut f u v h g x y z a : (f <= 9)%nat -> in_unit u -> in_unit v -> wave 9 f l u h -> wave 9 f l v g -> 2 <= z ->
  Cmod (h a * cexp (exponent l (mkPt x y z) a) * g a - cexp (exponent l u a) * cexp (exponent l (mkPt x y z) a) * cexp (exponent l v a))%C <= errk bl l f.
Proof.
  intros Hf Uu Uv Hh Hg Hz. pose proof (between_mod x y z a Hz) as B. set (M := cexp (exponent l (mkPt x y z) a)) in *.
  pose proof (cexp_half l u a ltac:(lra) Uu) as Xu. pose proof (cexp_half l v a ltac:(lra) Uv) as Xv. pose proof (exp_pos (- (l / 2))) as P.
  unfold errk, err, err1. cbv zeta. set (e := exp (- (l / 2))) in *. pose proof (Cmod_ge_0 M) as PM.
  destruct (Nat.eqb_spec f 1) as [->|_].
  - pose proof (wave_one u h a Uu Hh) as Bu. pose proof (wave_one v g a Uv Hg) as Bv. fold e in Bu, Bv. set (c1 := cexp (exponent l u a)) in *. set (c2 := cexp (exponent l v a)) in *. set (r := rest bl l) in *.
    unfold Cminus. eapply Rle_trans; [apply Cmod_triangle|]. rewrite Cmod_opp, !Cmod_mult. pose proof (Cmod_ge_0 (h a)). pose proof (Cmod_ge_0 (g a)). pose proof (Cmod_ge_0 c1). pose proof (Cmod_ge_0 c2). set (F1 := Cmod (h a)) in *. set (G1 := Cmod (g a)) in *. set (C1 := Cmod c1) in *. set (C2 := Cmod c2) in *. set (m := Cmod M) in *.
    set (Q := 97 / 56 * (/ e + r)) in *. assert (0 <= Q) by lra.
    assert (A1 : F1 * m * G1 <= Q * e ^ 4 * Q) by (apply Rmult_le_compat; [apply Rmult_le_pos; assumption|assumption|apply Rmult_le_compat; assumption|assumption]).
    assert (A2 : C1 * m * C2 <= e ^ 2).
    { replace (C1 * m * C2) with (m * (C1 * C2)) by ring. assert (C1 * C2 * e ^ 2 <= 1) by (replace (C1 * C2 * e ^ 2) with ((C1 * e) * (C2 * e)) by ring; assert (0 <= C1 * e) by nra; assert (0 <= C2 * e) by nra; nra).
      assert (m * (C1 * C2) <= e ^ 4 * (C1 * C2)) by (apply Rmult_le_compat_r; [apply Rmult_le_pos; assumption|exact B]). replace (e ^ 4 * (C1 * C2)) with (e ^ 2 * (C1 * C2 * e ^ 2)) in * by ring. assert (0 < e ^ 2) by (apply pow_lt, P). nra. }
    replace (Q * e ^ 4 * Q) with (9409 / 3136 * (e + r * e ^ 2) ^ 2) in A1 by (unfold Q; field; lra). lra.
  - pose proof (wave_cut f u h a Hf Uu Hh) as Bu. pose proof (wave_cut f v g a Hf Uv Hg) as Bv. set (c1 := cexp (exponent l u a)) in *. set (c2 := cexp (exponent l v a)) in *. set (D := dd bl l f) in *.
    replace (h a * M * g a - c1 * M * c2)%C with (M * ((h a - c1) * (g a - c2) + (h a - c1) * c2 + c1 * (g a - c2)))%C by ring. rewrite Cmod_mult.
    assert (T : Cmod ((h a - c1) * (g a - c2) + (h a - c1) * c2 + c1 * (g a - c2))%C <= Cmod (h a - c1)%C * Cmod (g a - c2)%C + Cmod (h a - c1)%C * Cmod c2 + Cmod c1 * Cmod (g a - c2)%C).
    { eapply Rle_trans; [apply Cmod_triangle|]. rewrite <- !Cmod_mult. apply Rplus_le_compat_r. apply Cmod_triangle. }
    pose proof (Cmod_ge_0 c1). pose proof (Cmod_ge_0 c2). pose proof (Cmod_ge_0 (h a - c1)%C). pose proof (Cmod_ge_0 (g a - c2)%C). set (d1 := Cmod (h a - c1)%C) in *. set (d2 := Cmod (g a - c2)%C) in *. set (C1 := Cmod c1) in *. set (C2 := Cmod c2) in *. set (m := Cmod M) in *.
    assert (PD : 0 <= D) by lra. assert (P4 : 0 < e ^ 4) by (apply pow_lt, P). assert (P3 : 0 < e ^ 3) by (apply pow_lt, P).
    assert (T1 : d1 * d2 + d1 * C2 + C1 * d2 <= D * D + D * C2 + C1 * D) by nra.
    match goal with |- m * ?t <= _ => set (t0 := t) in * end. assert (T0 : 0 <= D * D + D * C2 + C1 * D) by nra. assert (m * t0 <= e ^ 4 * (D * D + D * C2 + C1 * D)) by (apply (Rle_trans _ (m * (D * D + D * C2 + C1 * D))); [apply Rmult_le_compat_l; lra|apply Rmult_le_compat_r; assumption]).
    assert (e ^ 4 * C2 <= e ^ 3) by (replace (e ^ 4 * C2) with (e ^ 3 * (C2 * e)) by ring; nra). assert (e ^ 4 * C1 <= e ^ 3) by (replace (e ^ 4 * C1) with (e ^ 3 * (C1 * e)) by ring; nra). nra.
Qed.
End Wave.

(** ** All wave lengths *)
Definition freqs3 : list nat := [2; 3; 4; 5; 5; 4; 5; 4; 1]%nat.
Definition bparts : list ball := map (fun ef => let '(((nl, dl), (nw, dw), _), f) := ef in bmul (bfrac nw (p10 dw)) (berrk (bfrac nl (p10 dl)) f)) (combine entries3 freqs3).
Definition lows : bool := forallb (fun ef => let '(((nl, dl), _, _), f) := ef in (0 <? low (bq (bfrac nl (p10 dl))))%Z) (combine entries3 freqs3).
Lemma run_cut : (lows && (fold_right (fun b v => bmag b + v) 0 bparts <=? SC / 25))%Z = true. Proof. vm_cast_no_check (eq_refl true). Qed.
Lemma quad_close q (F F0 : nat -> R -> C) (B : nat -> R) : (forall n, (n < q_s q)%nat -> 0 <= wgt q n /\ (0 < cnt q n)%nat /\ forall al, Cmod (F n al - F0 n al)%C <= B n) ->
  Rabs (quadrature q F - quadrature q F0) <= rtotal (fun n => wgt q n * B n) (q_s q).
Proof.
  intros H. unfold quadrature. revert H. generalize (q_s q). intros s. induction s as [|s IH]; intros H; cbn [rtotal]; [rewrite Rminus_0_r, Rabs_R0; lra|].
  match goal with |- Rabs (?a + ?b - (?c + ?d)) <= _ => replace (a + b - (c + d)) with ((a - c) + (b - d)) by ring end. eapply Rle_trans; [apply Rabs_triang|]. apply Rplus_le_compat; [apply IH; intros; apply H; lia|].
  destruct (H s ltac:(lia)) as (Hw & Hm & Hb). rewrite <- Rmult_minus_distr_l, Rabs_mult, (Rabs_right (wgt q s)) by lra. apply Rmult_le_compat_l; [exact Hw|].
  apply lt_0_INR in Hm as Pm. set (m := cnt q s) in *. unfold Rdiv. rewrite <- Rmult_minus_distr_r, Rabs_mult, (Rabs_right (/ INR m)) by (apply Rle_ge; left; apply Rinv_0_lt_compat; exact Pm).
  apply (Rmult_le_reg_r (INR m)); [exact Pm|]. rewrite Rmult_assoc, Rinv_l, Rmult_1_r by lra. assert (G : forall n, Rabs (rtotal (fun j => fst (F s (ang q s (S j)))) n - rtotal (fun j => fst (F0 s (ang q s (S j)))) n) <= B s * INR n); [|apply G].
  intros n. induction n as [|n IHn]; [cbn [rtotal INR]; rewrite Rminus_0_r, Rabs_R0; lra|]. rewrite S_INR. cbn [rtotal]. match goal with |- Rabs (?a + ?b - (?c + ?d)) <= _ => replace (a + b - (c + d)) with ((a - c) + (b - d)) by ring end. eapply Rle_trans; [apply Rabs_triang|].
  assert (Rabs (fst (F s (ang q s (S n))) - fst (F0 s (ang q s (S n)))) <= B s); [|lra]. eapply Rle_trans; [|apply (Hb (ang q s (S n)))]. eapply Rle_trans; [|apply Rmax_Cmod]. apply Rmax_l.
Qed.
Definition bls (n : nat) : ball := let '((nl, dl), _, _) := nth n entries3 ((0%Z, 1%positive), (0%Z, 1%positive), 1%Z) in bfrac nl (p10 dl).
Lemma one_part nl dl nw dw f n bl b : len case_3 n = IZR nl / IZR (p10 dl) -> wgt case_3 n = IZR nw / IZR (p10 dw) -> 0 <= len case_3 n <= 8 -> bl = bfrac nl (p10 dl) -> b = bmul (bfrac nw (p10 dw)) (berrk bl f) ->
  wgt case_3 n * errk bl (len case_3 n) f * IZR SC <= IZR (bmag b).
Proof.
  intros El Ew Hl -> ->. assert (Wl : within (bfrac nl (p10 dl)) (len case_3 n)) by (rewrite El; apply bfrac_ok, p10_pos). assert (Ww : within (bfrac nw (p10 dw)) (wgt case_3 n)) by (rewrite Ew; apply bfrac_ok, p10_pos).
  assert (We : within (berrk (bfrac nl (p10 dl)) f) (errk (bfrac nl (p10 dl)) (len case_3 n) f)) by (unfold berrk, errk; destruct (f =? 1)%nat; [apply berr1_ok|apply berr_ok]; assumption).
  pose proof (bmag_ok _ _ (bmul_ok _ _ _ _ Ww We)) as M. eapply Rle_trans; [apply Rmult_le_compat_r; [left; apply SCR|apply Rle_abs]|exact M].
Qed.
Lemma len3_bounds n : (n < 9)%nat -> 0 <= len case_3 n <= 8 /\ 0 <= wgt case_3 n /\ within (bls n) (len case_3 n).
Proof.
  intros H. do 9 (destruct n as [|n]; [split; [unfold len; cbn [q_lambda case_3 nth]; lra|]; split; [unfold wgt; cbn [q_weight case_3 nth]; lra|]; unfold bls; cbn [nth entries3]; match goal with |- within (bfrac ?a (p10 ?b)) ?x => replace x with (IZR a / IZR (p10 b)) by (unfold len, p10; cbn [q_lambda case_3 nth]; lra); apply bfrac_ok, p10_pos end|]). lia.
Qed.
Lemma parts_ok : rtotal (fun n => wgt case_3 n * errk (bls n) (len case_3 n) (frq case_3 n)) 9 <= 1 / 25 /\ forall n, (n < 9)%nat -> (0 < low (bq (bls n)))%Z.
Proof.
  pose proof run_cut as R. apply andb_true_iff in R. destruct R as [L S]. apply Z.leb_le in S. split.
  - assert (E : IZR (SC / 25) / IZR SC <= 1 / 25) by (change (SC / 25)%Z with 10737418%Z; unfold SC; lra). eapply Rle_trans; [|exact E]. apply IZR_le in S. pose proof SCR as PS.
    apply (Rmult_le_reg_r (IZR SC)); [exact PS|]. replace (IZR (SC / 25) / IZR SC * IZR SC) with (IZR (SC / 25)) by (field; lra). eapply Rle_trans; [|exact S]. unfold bparts, entries3, freqs3. cbn [combine map fold_right]. rewrite !plus_IZR. cbn [rtotal].
    assert (O : forall n nl dl nw dw, len case_3 n = IZR nl / IZR (p10 dl) -> wgt case_3 n = IZR nw / IZR (p10 dw) -> 0 <= len case_3 n <= 8 -> bls n = bfrac nl (p10 dl) -> wgt case_3 n * errk (bls n) (len case_3 n) (frq case_3 n) * IZR SC <= IZR (bmag (bmul (bfrac nw (p10 dw)) (berrk (bfrac nl (p10 dl)) (frq case_3 n))))).
    { intros n nl dl nw dw H1 H2 H3 H4. rewrite <- H4. eapply one_part; [exact H1|exact H2|exact H3|exact H4|reflexivity]. }
    pose proof (O 0%nat 99273996739714473469540223504736787%Z 36%positive 24776441819008371281185532097879332%Z 35%positive) as O0.
    pose proof (O 1%nat 47725674637049431137114652301534079%Z 35%positive 49188566500464336872511239562300034%Z 35%positive) as O1.
    pose proof (O 2%nat 10553366138218296388373573790886439%Z 34%positive 65378749137677805158830324216978624%Z 35%positive) as O2.
    pose proof (O 3%nat 17675934335400844688024335482623428%Z 34%positive 76433038408784093054038066838984378%Z 35%positive) as O3.
    pose proof (O 4%nat 25734262935147067530294862081063911%Z 34%positive 84376180565628111640563702167128213%Z 35%positive) as O4.
    pose proof (O 5%nat 34482433920158257478760788217186928%Z 34%positive 90445883985098263213586733400006779%Z 35%positive) as O5.
    pose proof (O 6%nat 43768098355472631055818055756390095%Z 34%positive 95378613136833456653818075210438110%Z 35%positive) as O6.
    pose proof (O 7%nat 53489575720546005399569367000367492%Z 34%positive 99670261613218547047665651916759089%Z 35%positive) as O7.
    pose proof (O 8%nat 63576578531337464283978988532908261%Z 34%positive 10429422730252668749528766056755558%Z 34%positive) as O8. clear O.
    repeat match goal with H : ?l = ?r -> _ |- _ => let A := fresh in assert (A : l = r) by (unfold len, wgt, p10; cbn [q_lambda q_weight case_3 nth]; lra); specialize (H A); clear A end.
    specialize (O0 (proj1 (len3_bounds 0 ltac:(lia))) eq_refl).
    specialize (O1 (proj1 (len3_bounds 1 ltac:(lia))) eq_refl).
    specialize (O2 (proj1 (len3_bounds 2 ltac:(lia))) eq_refl).
    specialize (O3 (proj1 (len3_bounds 3 ltac:(lia))) eq_refl).
    specialize (O4 (proj1 (len3_bounds 4 ltac:(lia))) eq_refl).
    specialize (O5 (proj1 (len3_bounds 5 ltac:(lia))) eq_refl).
    specialize (O6 (proj1 (len3_bounds 6 ltac:(lia))) eq_refl).
    specialize (O7 (proj1 (len3_bounds 7 ltac:(lia))) eq_refl).
    specialize (O8 (proj1 (len3_bounds 8 ltac:(lia))) eq_refl).
    change (frq case_3 0) with 2%nat in *. change (frq case_3 1) with 3%nat in *. change (frq case_3 2) with 4%nat in *. change (frq case_3 3) with 5%nat in *. change (frq case_3 4) with 5%nat in *. change (frq case_3 5) with 4%nat in *. change (frq case_3 6) with 5%nat in *. change (frq case_3 7) with 4%nat in *. change (frq case_3 8) with 1%nat in *.
    rewrite !Rmult_plus_distr_r, Rmult_0_l. lra.
  - intros n Hn. unfold lows in L. rewrite forallb_forall in L.
    assert (In (nth n (combine entries3 freqs3) (((0%Z, 1%positive), (0%Z, 1%positive), 1%Z), 0%nat)) (combine entries3 freqs3)) as I by (apply nth_In; cbn; lia). specialize (L _ I). clear I.
    do 9 (destruct n as [|n]; [cbn [nth combine entries3 freqs3] in L; unfold bls; cbn [nth entries3]; apply Z.ltb_lt; exact L|]). lia.
Qed.
Lemma exponent_add l a b i j k al : (cexp (exponent l a al) * cexp (exponent l (mkPt i j k) al) * cexp (exponent l b al))%C = cexp (exponent l (mkPt (i + px a + px b) (j + py a + py b) (k + pz a + pz b)) al).
Proof. rewrite <- !cexp_add. f_equal. unfold exponent, Cplus. cbn [fst snd px py pz]. apply injective_projections; cbn [fst snd]; ring. Qed.
Theorem accurate3 : accurate case_3 9 (1 / 20).
Proof.
  intros a b i j k h g Ua Ub Hi Hj Hk Wh Wg. pose proof Ua as (Ax & Ay & Az). pose proof Ub as (Bx & By & Bz). apply Rabs_le_between in Ax, Ay, Az, Bx, By, Bz.
  destruct Hi as [I1 I2], Hj as [J1 J2], Hk as [K1 K2]. apply IZR_le in I1, I2, J1, J2, K1, K2.
  set (X := IZR i + px a + px b). set (Y := IZR j + py a + py b). set (Z := IZR k + pz a + pz b).
  assert (N : Rabs (quadrature case_3 (fun n al => cexp (exponent (len case_3 n) (mkPt X Y Z) al)) - / sqrt (X ^ 2 + Y ^ 2 + Z ^ 2)) <= 1 / 100).
  { rewrite quad3_waves. apply near3_sides; [apply Rabs_le_between; unfold X; lra|apply Rabs_le_between; unfold Y; lra|unfold Z; lra]. }
  destruct parts_ok as [S L]. pose proof (quad_close case_3 (fun n al => h n al * cexp (exponent (len case_3 n) (mkPt (IZR i) (IZR j) (IZR k)) al) * g n al)%C (fun n al => cexp (exponent (len case_3 n) (mkPt X Y Z) al)) (fun n => errk (bls n) (len case_3 n) (frq case_3 n))) as Q.
  match goal with |- Rabs (?q - ?r) <= _ => replace (q - r) with ((q - quadrature case_3 (fun n al => cexp (exponent (len case_3 n) (mkPt X Y Z) al))) + (quadrature case_3 (fun n al => cexp (exponent (len case_3 n) (mkPt X Y Z) al)) - r)) by ring end.
  eapply Rle_trans; [apply Rabs_triang|]. assert (Q' : forall n, (n < q_s case_3)%nat -> 0 <= wgt case_3 n /\ (0 < cnt case_3 n)%nat /\ (forall al, Cmod (h n al * cexp (exponent (len case_3 n) (mkPt (IZR i) (IZR j) (IZR k)) al) * g n al - cexp (exponent (len case_3 n) (mkPt X Y Z) al))%C <= errk (bls n) (len case_3 n) (frq case_3 n))).
  { intros n Hn. change (q_s case_3) with 9%nat in Hn. destruct (len3_bounds n Hn) as (B1 & B2 & B3). split; [exact B2|]. split; [do 9 (destruct n as [|n]; [unfold cnt; cbn; lia|]); lia|]. intros al. unfold X, Y, Z. rewrite <- exponent_add.
    apply prod_cut; [exact B1|exact B3|apply L, Hn| |exact Ua|exact Ub|apply Wh|apply Wg|lra]. do 9 (destruct n as [|n]; [unfold frq; cbn; lia|]). lia. }
  specialize (Q Q'). cbv beta in Q. change (q_s case_3) with 9%nat in Q. lra.
Qed.
