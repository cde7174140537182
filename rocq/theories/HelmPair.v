(** The Helmholtz kernel: the error of one source seen from one target. *)
From Coq Require Import Reals List Lia Lra Psatz.
From Coquelicot Require Import Coquelicot.
From Verif Require Import Base LegSpec LegProofs LegAdd LapModel LapArrays LapProofs BesselSpec BesselProofs BesselAdd OscSpec OscProofs OscAdd YukModel YukSpec YukBessel YukProofs HelmModel HelmSpec.
Open Scope R_scope.

(** ** the majorants are monotone *)
Lemma F_mono n y z : 0 <= y <= z -> F n y <= F n z.
Proof.
  intros H. unfold F, PSeries. apply Series_le.
  - intros j. pose proof (ac_pos n j). split; [apply Rmult_le_pos; [lra|apply pow_le; lra]|]. apply Rmult_le_compat_l; [lra|apply pow_incr; lra].
  - exact (proj1 (ex_pseries_R _ _) (ac_ex n z)).
Qed.
Lemma ii_mono n x a : 0 <= x <= a -> ii n x <= ii n a.
Proof. intros H. unfold ii. apply Rmult_le_compat; [apply pow_le; lra|apply F_nonneg; nra|apply pow_incr; lra|apply F_mono; nra]. Qed.

Lemma kk_mono n b y : 0 < b <= y -> exp y * kk n y <= exp b * kk n b.
Proof.
  intros H. assert (Ey : exp y * exp (- y) = 1) by (rewrite <- exp_plus, Rplus_opp_r; apply exp_0). assert (Eb : exp b * exp (- b) = 1) by (rewrite <- exp_plus, Rplus_opp_r; apply exp_0).
  assert (I : / y <= / b) by (apply inv_le; lra). assert (I0 : 0 < / y) by (apply Rinv_0_lt_compat; lra).
  assert (A : exp y * kk n y <= exp b * kk n b /\ exp y * kk (S n) y <= exp b * kk (S n) b); [|tauto]. induction n as [|n [I1 I2]].
  - unfold kk. cbn [G]. simpl pow. split.
    + replace (exp y * (exp (- y) / (y * 1))) with ((exp y * exp (- y)) * / y) by (field; lra). replace (exp b * (exp (- b) / (b * 1))) with ((exp b * exp (- b)) * / b) by (field; lra). rewrite Ey, Eb. lra.
    + replace (exp y * ((1 + y) * exp (- y) / (y * (y * 1)))) with ((exp y * exp (- y)) * (/ y * / y + / y)) by (field; lra). replace (exp b * ((1 + b) * exp (- b) / (b * (b * 1)))) with ((exp b * exp (- b)) * (/ b * / b + / b)) by (field; lra). rewrite Ey, Eb. nra.
  - split; [exact I2|]. rewrite !kk_rec by lra. pose proof (pos_INR n) as Pn. unfold Rdiv.
    replace (exp y * (kk n y + (2 * INR n + 3) * / y * kk (S n) y)) with (exp y * kk n y + (2 * INR n + 3) * (/ y * (exp y * kk (S n) y))) by ring.
    replace (exp b * (kk n b + (2 * INR n + 3) * / b * kk (S n) b)) with (exp b * kk n b + (2 * INR n + 3) * (/ b * (exp b * kk (S n) b))) by ring.
    apply Rplus_le_compat; [exact I1|]. apply Rmult_le_compat_l; [lra|]. apply Rmult_le_compat; [lra| |exact I|exact I2]. apply Rmult_le_pos; [left; apply exp_pos|left; apply kk_pos; lra].
Qed.

(** ** partial sums at [x] <= [a] < [b] <= [y] *)
Lemma CO_step2 phi N M x y a b t : 0 <= x <= a -> 0 < b <= y -> -1 <= t <= 1 -> (N <= M)%nat -> Rabs (CO phi N x y t - CO phi M x y t) <= exp b * (CN M a b 1 - CN N a b 1).
Proof.
  intros Hs Hr Ht HM. assert (One : forall n, D n 0 1 = 1) by (intros n; apply (D_one n)). induction HM as [|M _ IH].
  - replace (CO phi N x y t - CO phi N x y t) with 0 by ring. rewrite Rabs_R0. lra.
  - unfold CO at 2, CN at 1. rewrite !tech5. fold (CO phi M x y t) (CN M a b 1). rewrite One.
    set (w := (2 * INR (S M) + 1) * jj (S M) x * zz phi (S M) y * D (S M) 0 t).
    assert (W : Rabs w <= exp b * ((2 * INR (S M) + 1) * ii (S M) a * kk (S M) b * 1)).
    { unfold w. rewrite !Rabs_mult. pose proof (pos_INR (S M)) as P. rewrite (Rabs_pos_eq (2 * INR (S M) + 1)) by lra.
      replace (exp b * ((2 * INR (S M) + 1) * ii (S M) a * kk (S M) b * 1)) with ((2 * INR (S M) + 1) * ii (S M) a * (exp b * kk (S M) b) * 1) by ring.
      apply Rmult_le_compat; [repeat apply Rmult_le_pos; try apply Rabs_pos; lra|apply Rabs_pos| |apply legendre_le_1, Ht].
      apply Rmult_le_compat; [apply Rmult_le_pos; [lra|apply Rabs_pos]|apply Rabs_pos| |].
      - apply Rmult_le_compat_l; [lra|]. eapply Rle_trans; [apply jj_le; lra|apply ii_mono; lra].
      - eapply Rle_trans; [apply zz_le; lra|apply kk_mono; lra]. }
    replace (CO phi N x y t - (CO phi M x y t + w)) with ((CO phi N x y t - CO phi M x y t) + - w) by ring.
    eapply Rle_trans; [apply Rabs_triang|]. rewrite Rabs_Ropp. lra.
Qed.

Lemma osc_tail2 phi N x y a b t dd : 0 < x <= a -> a < b -> b <= y -> -1 <= t <= 1 -> 0 <= dd -> dd * dd = y * y - 2 * (x * y) * t + x * x ->
  Rabs (CO phi N x y t - cos (dd + phi) / dd) <= exp b * (exp (- (b - a)) / (b - a) - CN N a b 1).
Proof.
  intros Hx Hab Hby Ht HR HE. assert (Hxy : 0 < x < y) by lra. assert (Pd : 0 < dd) by (destruct (Req_dec dd 0) as [E|E]; [rewrite E in HE; exfalso; assert (0 < (y - x) * (y - x)) by nra; assert (0 <= x * y * (1 - t)) by (apply Rmult_le_pos; nra); nra|lra]).
  set (k := cos (dd + phi) / dd). set (B := exp b * (exp (- (b - a)) / (b - a) - CN N a b 1)).
  set (K := 2 * (dd + x) / (dd * dd) * (exp (dd + x) * (exp (x * x / 6) * (1 + x * x / 3)))).
  assert (KM : 0 < K). { unfold K. apply Rmult_lt_0_compat; [apply Rmult_lt_0_compat; [lra|apply Rinv_0_lt_compat; nra]|apply Rmult_lt_0_compat; [apply exp_pos|apply Rmult_lt_0_compat; [apply exp_pos|nra]]]. }
  assert (Up : forall M, Rabs (CO phi M x y t - k) <= K * (x / y) ^ S M).
  { intros M. eapply Rle_trans; [apply (osc_path phi M x y t dd Hxy Ht HR HE)|].
    assert (Hu : 0 <= (x / y) ^ S M) by (apply pow_le, Rmult_le_pos; [lra|left; apply Rinv_0_lt_compat; lra]). pose proof (pos_INR M) as PM.
    apply Rmult_le_compat_r; [exact Hu|]. unfold K. apply Rmult_le_compat_l; [apply Rmult_le_pos; [lra|left; apply Rinv_0_lt_compat; nra]|].
    apply Rmult_le_compat_l; [left; apply exp_pos|].
    assert (I1 : x * x / (2 * (2 * INR M + 3)) <= x * x / 6) by (apply Rmult_le_compat_l; [nra|apply Rinv_le_contravar; lra]).
    assert (I2 : x * x / ((2 * INR M + 1) * (2 * INR M + 3)) <= x * x / 3) by (apply Rmult_le_compat_l; [nra|apply Rinv_le_contravar; nra]).
    assert (I3 : 0 <= x * x / ((2 * INR M + 1) * (2 * INR M + 3))) by (apply Rmult_le_pos; [nra|left; apply Rinv_0_lt_compat; nra]).
    apply Rmult_le_compat; [left; apply exp_pos|lra|apply exp_le, I1|lra]. }
  assert (Any : forall M, (N <= M)%nat -> Rabs (CO phi N x y t - k) <= B + K * (x / y) ^ S M).
  { intros M HM. replace (CO phi N x y t - k) with ((CO phi N x y t - CO phi M x y t) + (CO phi M x y t - k)) by ring. eapply Rle_trans; [apply Rabs_triang|]. apply Rplus_le_compat; [|apply Up].
    eapply Rle_trans; [apply (CO_step2 phi N M x y a b t); try lra; exact HM|]. unfold B. apply Rmult_le_compat_l; [left; apply exp_pos|]. pose proof (addition_dir M a b ltac:(lra)). lra. }
  destruct (Rle_dec (Rabs (CO phi N x y t - k)) B) as [L|L]; [exact L|exfalso]. apply Rnot_le_lt in L. set (e := (Rabs (CO phi N x y t - k) - B) / K). assert (He : 0 < e) by (apply Rmult_lt_0_compat; [lra|apply Rinv_0_lt_compat, KM]).
  assert (Hu : 0 <= x / y < 1). { split; [apply Rmult_le_pos; [lra|left; apply Rinv_0_lt_compat; lra]|]. apply Rmult_lt_reg_r with y; [lra|]. unfold Rdiv. rewrite Rmult_assoc, Rinv_l by lra. lra. }
  destruct (pow_lt_1_zero (x / y) ltac:(rewrite Rabs_pos_eq; lra) e He) as (M0 & HM0). set (M := max N M0).
  specialize (HM0 (S M) ltac:(unfold M; lia)). rewrite Rabs_pos_eq in HM0 by (apply pow_le; lra). pose proof (Any M ltac:(unfold M; lia)) as U.
  assert (K * (x / y) ^ S M < K * e) by (apply Rmult_lt_compat_l; assumption). assert (K * e = Rabs (CO phi N x y t - k) - B) by (unfold e; field; lra). lra.
Qed.

(** ** the error of one pair *)
Lemma hpair_error phi p eta scale x y a b c dd g H q : (p <= 18)%nat -> 0 <= eta <= / 2 -> 0 < x <= a -> a < b -> b <= y -> 0 < scale <= b -> -1 <= c <= 1 -> 0 <= dd -> dd * dd = y * y - 2 * (x * y) * c + x * x ->
  (forall n, (n <= p)%nat -> Rabs (g n * scale ^ n - jj n x) <= eta * ii n x + 2 * enmten * scale ^ n) ->
  (forall n, (n <= p)%nat -> Rabs (H n - zz phi n y) <= eta * (exp y * kk n y)) ->
  Rabs (sumlt (fun n => q * ((2 * INR n + 1) * g n) * (H n * scale ^ n) * D n 0 c) (S p) - q * (cos (dd + phi) / dd)) <= Rabs q * helm_error p eta a b.
Proof.
  intros Hp Heta Hx Hab Hby Hs Hc Hdd Ed Hg HH. pose proof enmten_pos as Pe.
  pose proof (osc_tail2 phi p x y a b c dd Hx Hab Hby Hc Hdd Ed) as A. pose proof (tail_dir p a b ltac:(lra)) as TD. pose proof (addition_dir p a b ltac:(lra)) as A1. pose proof (exp_pos b) as Pb.
  assert (Tr : Rabs (CO phi p x y c - cos (dd + phi) / dd) <= exp b * truncation p a b).
  { eapply Rle_trans; [exact A|]. apply Rmult_le_compat_l; [lra|]. unfold truncation. rewrite Nat.add_1_r. exact TD. }
  set (e := fun n => (2 * INR n + 1) * (g n * scale ^ n * H n - jj n x * zz phi n y) * D n 0 c).
  replace (sumlt (fun n => q * ((2 * INR n + 1) * g n) * (H n * scale ^ n) * D n 0 c) (S p)) with (q * (CO phi p x y c + sumlt e (S p))).
  2:{ unfold CO. rewrite sumlt_sum, <- sumlt_plus, <- sumlt_scal. apply sumlt_ext. intros n _. unfold e. ring. }
  assert (Er : Rabs (sumlt e (S p)) <= exp b * (3 * eta * (exp (- (b - a)) / (b - a)) + / 10 ^ 260 / b)).
  { eapply Rle_trans; [apply (sumlt_abs e (fun n => exp b * (3 * eta * ((2 * INR n + 1) * ii n a * kk n b * D n 0 1) + 3 * enmten * ((2 * INR n + 1) * scale ^ n * kk n b))))|].
    - intros n Hn. specialize (Hg n ltac:(lia)). specialize (HH n ltac:(lia)). unfold e. rewrite !Rabs_mult. pose proof (legendre_le_1 n c Hc) as L. pose proof (kk_pos n b ltac:(lra)) as K. pose proof (pos_INR n) as Pn. rewrite (Rabs_pos_eq (2 * INR n + 1)) by lra.
      rewrite (proj1 (D_one n)). pose proof (jj_le n x ltac:(lra)) as J. pose proof (zz_le phi n y ltac:(lra)) as Z. pose proof (ii_mono n x a ltac:(lra)) as IM. pose proof (kk_mono n b y ltac:(lra)) as KM. pose proof (pow_lt scale n ltac:(lra)) as Ps.
      set (E := exp y * kk n y) in *. set (G := g n * scale ^ n) in *. set (s := scale ^ n) in *. pose proof (Rabs_pos (zz phi n y)) as Z0. pose proof (Rabs_pos (jj n x)) as J0. assert (E0 : 0 <= E) by lra.
      assert (HB : Rabs (H n) <= (1 + eta) * E). { replace (H n) with (zz phi n y + (H n - zz phi n y)) by ring. eapply Rle_trans; [apply Rabs_triang|]. lra. }
      assert (W : Rabs (G * H n - jj n x * zz phi n y) <= (3 * eta * ii n a + 3 * enmten * s) * (exp b * kk n b)).
      { replace (G * H n - jj n x * zz phi n y) with ((G - jj n x) * H n + jj n x * (H n - zz phi n y)) by ring. eapply Rle_trans; [apply Rabs_triang|]. rewrite !Rabs_mult.
        pose proof (Rabs_pos (G - jj n x)) as G0. pose proof (Rabs_pos (H n)) as H0. pose proof (Rabs_pos (H n - zz phi n y)) as HZ0. assert (I0 : 0 <= ii n x) by lra.
        assert (P1 : Rabs (G - jj n x) * Rabs (H n) <= (eta * ii n x + 2 * enmten * s) * ((1 + eta) * E)) by (apply Rmult_le_compat; assumption).
        assert (P2 : Rabs (jj n x) * Rabs (H n - zz phi n y) <= ii n x * (eta * E)) by (apply Rmult_le_compat; assumption).
        assert (es : 0 <= enmten * s) by (apply Rmult_le_pos; lra). assert (ei : 0 <= eta * ii n x) by (apply Rmult_le_pos; lra). assert (ee : eta * (eta * ii n x) <= eta * ii n x) by nra. assert (e2 : eta * (enmten * s) <= / 2 * (enmten * s)) by nra.
        apply Rle_trans with ((3 * eta * ii n x + 3 * enmten * s) * E).
        - replace ((3 * eta * ii n x + 3 * enmten * s) * E) with ((eta * ii n x + 2 * enmten * s) * ((1 + eta) * E) + ii n x * (eta * E) + ((eta * ii n x - eta * (eta * ii n x)) + (enmten * s - 2 * (eta * (enmten * s)))) * E) by ring.
          assert (0 <= ((eta * ii n x - eta * (eta * ii n x)) + (enmten * s - 2 * (eta * (enmten * s)))) * E) by (apply Rmult_le_pos; lra). lra.
        - assert (eta * ii n x <= eta * ii n a) by (apply Rmult_le_compat_l; lra). apply Rmult_le_compat; lra. }
      set (h := Rabs (G * H n - jj n x * zz phi n y)) in *. pose proof (Rabs_pos (D n 0 c)) as PD. assert (Ph : 0 <= h) by apply Rabs_pos.
      apply Rle_trans with ((2 * INR n + 1) * h); [assert (0 <= (2 * INR n + 1) * h) by (apply Rmult_le_pos; lra); nra|].
      apply Rle_trans with ((2 * INR n + 1) * ((3 * eta * ii n a + 3 * enmten * s) * (exp b * kk n b))); [apply Rmult_le_compat_l; lra|right; ring].
    - rewrite sumlt_scal. apply Rmult_le_compat_l; [lra|]. rewrite sumlt_plus, !sumlt_scal. apply Rplus_le_compat.
      + apply Rmult_le_compat_l; [lra|]. rewrite <- sumlt_sum. exact A1.
      + apply Rle_trans with (3 * enmten * (INR (S p) * (10 ^ 38 * / b))).
        * apply Rmult_le_compat_l; [lra|]. apply sumlt_const_le; [apply Rmult_le_pos; [apply pow_le; lra|left; apply Rinv_0_lt_compat; lra]|]. intros n Hn. pose proof (kk_up n b ltac:(lra)) as K. pose proof (pos_INR n) as Pn. pose proof (pow_lt scale n ltac:(lra)) as Ps. pose proof (oddm_ge n) as Og.
          apply Rle_trans with ((2 * INR n + 1) * scale ^ n * (oddm n / b ^ S n)); [apply Rmult_le_compat_l; [apply Rmult_le_pos; lra|exact K]|].
          pose proof (pow_lt b n ltac:(lra)) as Py. replace ((2 * INR n + 1) * scale ^ n * (oddm n / b ^ S n)) with (((2 * INR n + 1) * oddm n) * (scale / b) ^ n * / b) by (unfold Rdiv; rewrite Rpow_mult_distr, pow_inv; simpl pow; field; split; lra).
          rewrite <- oddm_S. cbn [oddm]. apply Rmult_le_compat_r; [left; apply Rinv_0_lt_compat; lra|]. pose proof (odd_38 n ltac:(lia)) as O. pose proof (odd_ge n).
          assert (Q1 : 0 <= (scale / b) ^ n <= 1). { split; [apply pow_le, Rmult_le_pos; [lra|left; apply Rinv_0_lt_compat; lra]|]. rewrite <- (pow1 n). apply pow_incr. split; [apply Rmult_le_pos; [lra|left; apply Rinv_0_lt_compat; lra]|]. apply Rmult_le_reg_r with b; [lra|]. unfold Rdiv. rewrite Rmult_assoc, Rinv_l by lra. lra. }
          nra.
        * replace (3 * enmten * (INR (S p) * (10 ^ 38 * / b))) with ((3 * INR (S p) * (enmten * 10 ^ 38)) * / b) by ring. apply Rmult_le_compat_r; [left; apply Rinv_0_lt_compat; lra|].
          assert (Sp : INR (S p) <= 19) by (change 19 with (IZR (Z.of_nat 19)); rewrite <- INR_IZR_INZ; apply le_INR; lia). pose proof (pos_INR (S p)).
          assert (E1 : enmten * 10 ^ 38 = / 10 ^ 262). { unfold enmten. replace (10 ^ 300) with (10 ^ 262 * 10 ^ 38) by (rewrite <- pow_add; reflexivity). pose proof (pow_lt 10 262 ltac:(lra)). pose proof (pow_lt 10 38 ltac:(lra)). field; split; lra. }
          rewrite E1. replace (/ 10 ^ 260) with (100 * / 10 ^ 262). 2:{ replace (10 ^ 262) with (10 ^ 260 * 100) by (replace 262%nat with (260 + 2)%nat by reflexivity; rewrite pow_add; ring). pose proof (pow_lt 10 260 ltac:(lra)). field; lra. }
          assert (0 < / 10 ^ 262) by (apply Rinv_0_lt_compat, pow_lt; lra). nra. }
  replace (q * (CO phi p x y c + sumlt e (S p)) - q * (cos (dd + phi) / dd)) with (q * ((CO phi p x y c - cos (dd + phi) / dd) + sumlt e (S p))) by ring.
  rewrite Rabs_mult. apply Rmult_le_compat_l; [apply Rabs_pos|]. unfold helm_error. eapply Rle_trans; [apply Rabs_triang|]. lra.
Qed.

Lemma helm_error_nonneg p eta a b : 0 <= eta -> 0 < a < b -> 0 <= helm_error p eta a b.
Proof.
  intros He H. unfold helm_error, truncation. pose proof (pos_INR p). apply Rmult_le_pos; [left; apply exp_pos|]. apply Rplus_le_le_0_compat; [apply Rplus_le_le_0_compat|].
  - apply Rmult_le_pos; [|apply pow_le, Rmult_le_pos; [lra|left; apply Rinv_0_lt_compat; lra]]. apply Rmult_le_pos; [apply Rmult_le_pos; [lra|left; apply Rinv_0_lt_compat; nra]|]. apply Rmult_le_pos; [left; apply exp_pos|].
    assert (0 <= a * a / ((2 * INR p + 1) * (2 * INR p + 3))) by (apply Rmult_le_pos; [nra|left; apply Rinv_0_lt_compat; nra]). lra.
  - apply Rmult_le_pos; [lra|]. apply Rmult_le_pos; [left; apply exp_pos|left; apply Rinv_0_lt_compat; lra].
  - apply Rmult_le_pos; left; apply Rinv_0_lt_compat; [apply pow_lt; lra|lra].
Qed.
