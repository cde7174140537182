(** The arrays of Bessel functions bessel_in_scaled and bessel_kn_scaled fill. *)
From Coq Require Import Reals List Lia Lra Psatz.
From Coquelicot Require Rcomplements.
From Verif Require Import Base ListFacts LapModel LapArrays BesselSpec BesselProofs YukModel YukSpec.
Import ListNotations.
Open Scope R_scope.

Lemma odd_small n : (n <= 19)%nat -> odd n <= 100 ^ n.
Proof.
  induction n as [|n IH]; intros H; [simpl; lra|]. rewrite odd_S. simpl pow. specialize (IH ltac:(lia)). pose proof (odd_ge n). pose proof (pos_INR n). assert (INR n <= 19) by (change 19 with (IZR (Z.of_nat 19)); rewrite <- INR_IZR_INZ; apply le_INR; lia). apply Rmult_le_compat; lra.
Qed.
Lemma odd_38 n : (n <= 19)%nat -> odd n <= 10 ^ 38.
Proof. intros H. eapply Rle_trans; [apply odd_small, H|]. replace (10 ^ 38) with (100 ^ 19) by (replace 100 with (10 ^ 2) by ring; rewrite <- pow_mult; reflexivity). apply Rle_pow; [lra|exact H]. Qed.
Lemma p10 a b : (a <= b)%nat -> 10 ^ a <= 10 ^ b.
Proof. intros H. apply Rle_pow; [lra|exact H]. Qed.
Lemma ip10 a b : (a <= b)%nat -> / 10 ^ b <= / 10 ^ a.
Proof. intros H. apply Rinv_le_contravar; [apply pow_lt; lra|apply p10, H]. Qed.

Lemma exp_two z : 0 <= z <= / 4 -> exp z <= 1 + z + z * z.
Proof.
  intros H. set (h := z / 2). assert (Eh : exp h * (1 - h) <= 1).
  { pose proof (exp_ineq1_le (- h)) as E1. pose proof (exp_pos h). assert (exp h * exp (- h) = 1) by (rewrite <- exp_plus, Rplus_opp_r; apply exp_0). nra. }
  assert (Ez : exp z = exp h * exp h) by (rewrite <- exp_plus; f_equal; unfold h; field). pose proof (exp_pos h).
  assert (0 < 1 - h) by (unfold h; lra).
  assert (P : exp z * ((1 - h) * (1 - h)) <= 1) by (rewrite Ez; assert (0 < exp h * (1 - h)) by nra; nra).
  assert (Q : 1 <= (1 + z + z * z) * ((1 - h) * (1 - h))).
  { unfold h. replace ((1 + z + z * z) * ((1 - z / 2) * (1 - z / 2))) with (1 + z * z / 4 * (1 - 3 * z + z * z)) by field. nra. }
  assert (0 < (1 - h) * (1 - h)) by nra. apply Rmult_le_reg_r with ((1 - h) * (1 - h)); lra.
Qed.

Lemma ensig_lt : 0 < ensig < 1.
Proof. unfold ensig. split; [apply Rinv_0_lt_compat, pow_lt; lra|]. rewrite <- Rinv_1. apply Rinv_lt_contravar; [rewrite Rmult_1_l; apply pow_lt; lra|apply Rlt_pow_R1; [lra|lia]]. Qed.
Lemma enmten_pos : 0 < enmten.
Proof. apply Rinv_0_lt_compat, pow_lt. lra. Qed.

Section In.
Variables (bIn : bessel_I) (eta : R).
Hypothesis HI : computes_I bIn eta.
Hypothesis Heta : / 10 ^ 17 <= eta <= / 2.

Definition in_close (nb : nat) (x scale : R) (B : list R) : Prop :=
  forall n, (n <= nb)%nat -> exists b, nth_error B n = Some b /\ Rabs (b * scale ^ n - ii n x) <= eta * ii n x + 2 * enmten * scale ^ n.

(** the two-term Taylor branch *)
Lemma in_small nb x scale B : (nb <= 19)%nat -> (nb < length B)%nat -> 0 < scale -> 0 < x <= ensig ->
  exists B', bessel_in_scaled bIn nb x scale B = Ok B' /\ in_close nb x scale B'.
Proof.
  intros Hnb HL Hs Hx. pose proof ensig_lt as Es. pose proof enmten_pos as Ep. unfold bessel_in_scaled. destruct (Rle_dec x ensig) as [_|C]; [|lra].
  rewrite rdiv_ok by lra. cbn [bind]. set (sx := x / scale). set (t2 := 5 / 10 * x * x).
  assert (Hsx : 0 < sx) by (apply Rmult_lt_0_compat; [lra|apply Rinv_0_lt_compat, Hs]).
  rewrite set_res_ok by lia. cbn [bind]. set (B0 := upd B 0 _).
  set (tau := fun i => sx ^ i / odd i).
  assert (Ht0 : forall i, 0 < tau i) by (intros i; unfold tau; pose proof (odd_ge i); apply Rmult_lt_0_compat; [apply pow_lt, Hsx|apply Rinv_0_lt_compat; lra]).
  assert (HtS : forall i, tau (S i) = tau i * sx / (2 * INR (S i) + 1)).
  { intros i. unfold tau. rewrite odd_S, S_INR. simpl pow. pose proof (odd_ge i). pose proof (pos_INR i). field. split; lra. }
  set (good := fun i t1 => t1 = tau i \/ (t1 = 0 /\ tau i <= enmten /\ sx <= 1)).
  assert (HB : forall i t1, (i <= 19)%nat -> good i t1 -> Rabs (t1 * (1 + t2 / (2 * INR i + 3)) * scale ^ i - ii i x) <= eta * ii i x + 2 * enmten * scale ^ i).
  { intros i t1 Hi G. pose proof (pow_lt scale i Hs) as Ps. pose proof (pos_INR i) as Pi. pose proof (odd_ge i) as Oi.
    set (z := x * x / (2 * (2 * INR i + 3))). assert (Hz0 : 0 <= z) by (apply Rmult_le_pos; [nra|left; apply Rinv_0_lt_compat; lra]).
    assert (Hz : z <= x * x / 6) by (apply Rmult_le_compat_l; [nra|apply Rinv_le_contravar; lra]).
    assert (Ez : t2 / (2 * INR i + 3) = z) by (unfold t2, z; field; lra). rewrite Ez.
    pose proof (ii_low i x ltac:(lra)) as Lo. pose proof (ii_up i x ltac:(lra)) as Up. fold z in Lo, Up. unfold Rdiv in Lo, Up.
    assert (X2 : x * x <= / 10 ^ 8). { unfold ensig in Hx. replace (/ 10 ^ 8) with (/ 10 ^ 4 * / 10 ^ 4) by (rewrite <- Rinv_mult; f_equal; ring). nra. }
    assert (I8 : / 10 ^ 8 = / 100000000) by (f_equal; ring). rewrite I8 in X2.
    pose proof (exp_two z ltac:(lra)) as Ex.
    set (w := x ^ i / odd i). assert (Pw : 0 < w) by (unfold w; apply Rmult_lt_0_compat; [apply pow_lt; lra|apply Rinv_0_lt_compat; lra]).
    assert (Et : tau i * scale ^ i = w) by (unfold tau, w, sx, Rdiv; rewrite Rpow_mult_distr, pow_inv; field; split; lra).
    assert (Lo' : w * (1 + z) <= ii i x) by (unfold w; lra). assert (Up' : ii i x <= w * exp z) by (unfold w; lra).
    assert (Rel : ii i x - w * (1 + z) <= eta * ii i x).
    { assert (ii i x - w * (1 + z) <= w * (z * z)) by nra. assert (z * z <= / 10 ^ 17).
      { assert (z * z <= (/ 100000000 / 6) * (/ 100000000 / 6)) by nra. assert (/ 10 ^ 17 = / 100000000000000000) by (f_equal; ring). lra. }
      assert (w * (z * z) <= w * eta) by (apply Rmult_le_compat_l; lra). assert (w <= ii i x) by nra. nra. }
    assert (P300 : 0 < 2 * enmten * scale ^ i) by (apply Rmult_lt_0_compat; lra).
    destruct G as [->|(-> & Hti & _)].
    - replace (tau i * (1 + z) * scale ^ i) with (w * (1 + z)) by (rewrite <- Et; ring). rewrite Rabs_minus_sym, Rabs_pos_eq by lra. lra.
    - replace (0 * (1 + z) * scale ^ i - ii i x) with (- ii i x) by ring. rewrite Rabs_Ropp, Rabs_pos_eq by (apply ii_nonneg; lra).
      assert (w * (1 + z) <= 2 * enmten * scale ^ i). { rewrite <- Et. replace (tau i * scale ^ i * (1 + z)) with (tau i * (1 + z) * scale ^ i) by ring. apply Rmult_le_compat_r; [lra|]. pose proof (Ht0 i). nra. } lra. }
  match goal with |- context [foldM ?F (seq 1 nb) ?s] => destruct (loop_ind _ F (fun k st => length (snd st) = length B /\ good k (fst st) /\ forall n, (n <= k)%nat -> exists b, nth_error (snd st) n = Some b /\ Rabs (b * scale ^ n - ii n x) <= eta * ii n x + 2 * enmten * scale ^ n) 1 nb s) as ((t1 & B') & E & HB') end.
  - cbn [fst snd]. split; [unfold B0; apply upd_length|]. assert (G0 : good 0%nat 1) by (left; unfold tau; simpl; field). split; [exact G0|].
    intros n Hn. replace n with 0%nat by lia. exists (1 * (1 + t2 / 3)). split; [unfold B0; apply upd_same; lia|]. pose proof (HB 0%nat 1 ltac:(lia) G0) as H0. cbn [INR] in H0. replace (2 * 0 + 3) with 3 in H0 by ring. exact H0.
  - intros k [t1 B'] Hk (L' & G & HBk). cbn [fst snd] in L', G, HBk. change (1 + k)%nat with (S k). pose proof (pos_INR (S k)) as Pk.
    rewrite rdiv_ok by lra. cbn [bind]. rewrite rdiv_ok by lra. cbn [bind]. rewrite set_res_ok by lia. cbn [bind].
    eexists. split; [reflexivity|]. cbn [fst snd]. split; [rewrite upd_length; exact L'|].
    set (t1' := if Rle_dec (t1 * sx / (2 * INR (S k) + 1)) enmten then 0 else t1 * sx / (2 * INR (S k) + 1)).
    assert (G' : good (S k) t1').
    { unfold t1'. destruct G as [->|(-> & Hti & H1)].
      - rewrite <- HtS. destruct (Rle_dec (tau (S k)) enmten) as [C|C]; [|left; reflexivity]. right. split; [reflexivity|]. split; [exact C|].
        destruct (Rle_dec sx 1) as [L|L]; [exact L|exfalso]. assert (1 <= sx ^ S k) by (apply pow_R1_Rle; lra). pose proof (odd_38 (S k) ltac:(lia)) as O. pose proof (odd_ge (S k)) as O1.
        assert (/ 10 ^ 38 <= tau (S k)). { unfold tau. apply Rle_trans with (/ odd (S k)); [apply Rinv_le_contravar; lra|]. rewrite <- (Rmult_1_l (/ odd (S k))). apply Rmult_le_compat_r; [left; apply Rinv_0_lt_compat; lra|assumption]. }
        assert (enmten < / 10 ^ 38); [|lra]. unfold enmten. apply Rinv_lt_contravar; [apply Rmult_lt_0_compat; apply pow_lt; lra|apply Rlt_pow; [lra|lia]].
      - replace (0 * sx / (2 * INR (S k) + 1)) with 0 by (field; lra). destruct (Rle_dec 0 enmten) as [_|C]; [|lra]. right. split; [reflexivity|]. split; [|exact H1].
        rewrite HtS. pose proof (Ht0 k). apply Rle_trans with (tau k); [|exact Hti]. apply Rmult_le_reg_r with (2 * INR (S k) + 1); [lra|]. unfold Rdiv. rewrite Rmult_assoc, Rinv_l by lra. rewrite Rmult_1_r. assert (tau k * sx <= tau k * 1) by (apply Rmult_le_compat_l; lra). assert (0 <= tau k * INR (S k)) by (apply Rmult_le_pos; lra). lra. }
    split; [exact G'|]. intros n Hn. destruct (Nat.eq_dec n (S k)) as [->|Nn].
    + eexists. split; [apply upd_same; lia|]. apply HB; [lia|exact G'].
    + rewrite upd_other by lia. apply HBk. lia.
  - exists B'. rewrite E. cbn [bind]. split; [reflexivity|]. intros n Hn. apply HB'. exact Hn.
Qed.

(** the branch that calls bessel_In *)
Lemma in_middle nb x scale B : (nb <= 19)%nat -> (nb < length B)%nat -> 0 < scale <= 1 -> ensig < x <= 10 ^ 2 ->
  exists B', bessel_in_scaled bIn nb x scale B = Ok B' /\ in_close nb x scale B'.
Proof.
  intros Hnb HL Hs Hx. pose proof ensig_lt as Es. pose proof enmten_pos as Ep. pose proof PI_RGT_0 as Pp. unfold bessel_in_scaled. destruct (Rle_dec x ensig) as [C|_]; [lra|]. destruct (Rlt_dec (10 ^ 2) x) as [C|_]; [lra|].
  rewrite rdiv_ok by lra. cbn [bind]. assert (Ph : 0 < PI / 2 / x) by (apply Rmult_lt_0_compat; [lra|apply Rinv_0_lt_compat; lra]). unfold rsqrt. destruct (Rlt_dec (PI / 2 / x) 0) as [C|_]; [lra|]. cbn [bind].
  destruct (HI (nb + 1)%nat x ltac:(lia) ltac:(unfold ensig in Hx; lra)) as (vals & -> & HV). cbn [bind]. set (f0 := sqrt (PI / 2 / x)) in *.
  match goal with |- context [foldM ?F (seq 0 (S nb)) ?s] => destruct (loop_ind _ F (fun k st => length (snd st) = length B /\ fst st = f0 / scale ^ k /\ forall n, (n < k)%nat -> exists b, nth_error (snd st) n = Some b /\ Rabs (b * scale ^ n - ii n x) <= eta * ii n x + 2 * enmten * scale ^ n) 0 (S nb) s) as ((t1 & B') & E & HB') end.
  - cbn [fst snd]. split; [reflexivity|]. split; [simpl; field|]. intros n Hn. lia.
  - intros k [f B'] Hk (L' & Ef & HBk). cbn [fst snd] in L', Ef, HBk. change (0 + k)%nat with k. destruct (HV k ltac:(lia)) as (v & Ev & Bv). rewrite (nth_ok _ _ _ _ Ev). cbn [bind]. rewrite set_res_ok by lia. cbn [bind]. rewrite rdiv_ok by lra. cbn [bind].
    rewrite ii_sph in Bv by lra. pose proof (pow_lt scale k ltac:(lra)) as Ps.
    assert (Eb : v * f * scale ^ k = f0 * v) by (rewrite Ef; field; lra).
    assert (Big : enmten < Rabs (v * f)).
    { apply Rlt_le_trans with (v * f); [|apply Rle_abs]. apply Rcomplements.Rabs_le_between in Bv.
      pose proof (ii_low k x ltac:(lra)) as Lo. pose proof (odd_ge k) as Ok. pose proof (odd_38 k ltac:(lia)) as O38. pose proof (pos_INR k) as Pk.
      assert (X0 : / 10 ^ 76 <= x ^ k). { apply Rle_trans with (ensig ^ k); [|apply pow_incr; lra]. unfold ensig. rewrite pow_inv, <- pow_mult. apply ip10. lia. }
      assert (Lo' : x ^ k * / odd k <= ii k x).
      { eapply Rle_trans; [|exact Lo]. unfold Rdiv. apply Rmult_le_compat_r; [left; apply Rinv_0_lt_compat; lra|]. assert (0 <= x * x * / (2 * (2 * INR k + 3))) by (apply Rmult_le_pos; [nra|left; apply Rinv_0_lt_compat; lra]). pose proof (pow_lt x k ltac:(lra)). nra. }
      assert (Y0 : / 10 ^ 76 * / 10 ^ 38 <= ii k x). { eapply Rle_trans; [|exact Lo']. apply Rmult_le_compat; [left; apply Rinv_0_lt_compat, pow_lt; lra|left; apply Rinv_0_lt_compat, pow_lt; lra|exact X0|apply Rinv_le_contravar; lra]. }
      assert (Ey : / 10 ^ 76 * / 10 ^ 38 = / 10 ^ 114) by (rewrite <- Rinv_mult, <- pow_add; reflexivity). rewrite Ey in Y0.
      assert (Z : enmten < / 10 ^ 114 * / 10). { unfold enmten. rewrite <- Rinv_mult. apply Rinv_lt_contravar; [apply Rmult_lt_0_compat; [apply Rmult_lt_0_compat; [apply pow_lt|]|apply pow_lt]; lra|]. replace (10 ^ 114 * 10) with (10 ^ 115) by (simpl; ring). apply Rlt_pow; [lra|lia]. }
      assert (Hlow : ii k x / 2 <= f0 * v) by nra. rewrite <- Eb in Hlow. assert (0 < / 10 ^ 114) by (apply Rinv_0_lt_compat, pow_lt; lra).
      assert (Sk : scale ^ k <= 1) by (rewrite <- (pow1 k); apply pow_incr; lra).
      assert (0 < v * f) by (apply Rmult_lt_reg_r with (scale ^ k); [exact Ps|]; lra). nra. }
    destruct (Rle_dec (Rabs (v * f)) enmten) as [C|_]; [lra|]. eexists. split; [reflexivity|]. cbn [fst snd]. split; [rewrite upd_length; exact L'|].
    split; [rewrite Ef; simpl; field; lra|]. intros n Hn. destruct (Nat.eq_dec n k) as [->|Nn].
    + eexists. split; [apply upd_same; lia|]. rewrite Eb. assert (0 < enmten * scale ^ k) by (apply Rmult_lt_0_compat; assumption). lra.
    + rewrite upd_other by lia. apply HBk. lia.
  - exists B'. rewrite E. cbn [bind]. split; [reflexivity|]. intros n Hn. apply HB'. lia.
Qed.

Lemma in_ok nb x scale B : (nb <= 19)%nat -> (nb < length B)%nat -> 0 < scale <= 1 -> 0 < x <= 10 ^ 2 ->
  exists B', bessel_in_scaled bIn nb x scale B = Ok B' /\ in_close nb x scale B'.
Proof. intros A1 A2 A3 A4. destruct (Rle_dec x ensig) as [L|L]; [apply in_small|apply in_middle]; try assumption; lra. Qed.
End In.

(** beyond 100 the functions are taken to be zero *)
Lemma in_large bIn nb x scale B : (nb < length B)%nat -> 10 ^ 2 < x ->
  exists B', bessel_in_scaled bIn nb x scale B = Ok B' /\ forall n, (n <= nb)%nat -> nth_error B' n = Some 0.
Proof.
  intros HL Hx. pose proof ensig_lt as Es. unfold bessel_in_scaled. assert (1 < 10 ^ 2) by lra. destruct (Rle_dec x ensig) as [C|_]; [lra|]. destruct (Rlt_dec (10 ^ 2) x) as [_|C]; [|lra].
  match goal with |- context [foldM ?F (seq 0 (S nb)) ?s] => destruct (loop_ind _ F (fun k a => length a = length B /\ forall n, (n < k)%nat -> nth_error a n = Some 0) 0 (S nb) s) as (B' & E & L & H0) end.
  - split; [reflexivity|]. intros n Hn. lia.
  - intros k a Hk [L H0]. change (0 + k)%nat with k. rewrite set_res_ok by lia. eexists. split; [reflexivity|]. split; [rewrite upd_length; exact L|]. intros n Hn. destruct (Nat.eq_dec n k) as [->|Nn]; [apply upd_same; lia|rewrite upd_other by lia; apply H0; lia].
  - exists B'. split; [exact E|]. intros n Hn. apply H0. lia.
Qed.

(** ** the singular functions *)
Lemma kn_ok nb x scale B : (1 <= nb <= 19)%nat -> (nb < length B)%nat -> / 10 ^ 250 <= x < 10 ^ 8 -> 0 < scale <= x ->
  exists B', bessel_kn_scaled nb x scale B = Ok B' /\ forall n, (n <= nb)%nat -> nth_error B' n = Some (PI / 2 * scale ^ n * kk n x).
Proof.
  intros Hnb HL Hx Hs. assert (Px : 0 < x) by lra. pose proof PI_RGT_0 as Pp. pose proof PI_4 as P4. unfold bessel_kn_scaled.
  destruct (Rle_dec xmin x) as [_|C]; [|exfalso; apply C; apply Rle_trans with (/ 10 ^ 250); [|lra]; unfold xmin; replace (10 ^ 310) with (10 ^ 250 * 10 ^ 60) by (rewrite <- pow_add; reflexivity); assert (446 <= 10 ^ 60) by (apply Rle_trans with (10 ^ 3); [lra|apply p10; lia]); pose proof (pow_lt 10 250 ltac:(lra)); pose proof (pow_lt 10 60 ltac:(lra)); apply Rmult_le_reg_r with (10 ^ 250 * 10 ^ 60); [nra|]; replace (446 / (10 ^ 250 * 10 ^ 60) * (10 ^ 250 * 10 ^ 60)) with 446 by (field; split; lra); replace (/ 10 ^ 250 * (10 ^ 250 * 10 ^ 60)) with (10 ^ 60) by (field; lra); assumption].
  destruct (Rlt_dec x xlarge) as [_|C]; [|unfold xlarge in C; lra].
  set (V := fun n => PI / 2 * scale ^ n * kk n x).
  assert (V0 : exp (- x) / x * (PI / 2) = V 0%nat) by (unfold V, kk; simpl; field; lra).
  assert (V1 : V 0%nat * scale * (1 + 1 / x) = V 1%nat) by (unfold V, kk; simpl; field; lra).
  rewrite V0, V1. rewrite set_res_ok by lia. cbn [bind]. rewrite set_res_ok by (rewrite upd_length; lia). cbn [bind]. set (B0 := upd (upd B 0 (V 0%nat)) 1 (V 1%nat)).
  assert (VS : forall n, V (S (S n)) = (2 * INR (S (S n)) - 1) * (scale / x) * V (S n) + scale * scale * V n).
  { intros n. unfold V. rewrite kk_rec by exact Px. rewrite !S_INR. simpl pow. field. lra. }
  assert (Vb : forall n, (n <= 19)%nat -> 0 < V n <= 10 ^ 289).
  { intros n Hn. unfold V. pose proof (kk_pos n x Px) as K0. pose proof (kk_up n x Px) as K1. pose proof (pow_lt scale n ltac:(lra)) as Ps. split; [apply Rmult_lt_0_compat; [apply Rmult_lt_0_compat; lra|exact K0]|].
    assert (Om : oddm n <= 10 ^ 38) by (destruct n as [|n]; [simpl oddm; apply pow_R1_Rle; lra|apply odd_38; lia]). pose proof (oddm_ge n) as Og.
    apply Rle_trans with (2 * (scale ^ n * (oddm n / x ^ S n))).
    - rewrite Rmult_assoc. apply Rmult_le_compat; [lra|apply Rmult_le_pos; lra|lra|]. apply Rmult_le_compat_l; lra.
    - assert (Q : scale ^ n / x ^ n <= 1). { replace (scale ^ n / x ^ n) with ((scale / x) ^ n) by (unfold Rdiv; rewrite Rpow_mult_distr, pow_inv; reflexivity). rewrite <- (pow1 n). apply pow_incr. split; [apply Rmult_le_pos; [lra|left; apply Rinv_0_lt_compat; lra]|]. apply Rmult_le_reg_r with x; [lra|]. unfold Rdiv. rewrite Rmult_assoc, Rinv_l by lra. lra. }
      pose proof (pow_lt x n Px) as Pxn. replace (scale ^ n * (oddm n / x ^ S n)) with ((scale ^ n / x ^ n) * (oddm n * / x)) by (simpl; field; split; lra).
      assert (Ix : / x <= 10 ^ 250). { rewrite <- (Rinv_inv (10 ^ 250)). apply Rinv_le_contravar; [apply Rinv_0_lt_compat, pow_lt; lra|lra]. }
      assert (0 <= scale ^ n / x ^ n) by (apply Rmult_le_pos; [lra|left; apply Rinv_0_lt_compat; lra]). assert (0 < / x) by (apply Rinv_0_lt_compat; lra).
      assert (oddm n * / x <= 10 ^ 38 * 10 ^ 250) by (apply Rmult_le_compat; lra). assert (0 <= oddm n * / x) by (apply Rmult_le_pos; lra).
      assert (E : 10 ^ 38 * 10 ^ 250 = 10 ^ 288) by (rewrite <- pow_add; reflexivity). rewrite E in *. replace (10 ^ 289) with (10 * 10 ^ 288) by reflexivity. assert (0 < 10 ^ 288) by (apply pow_lt; lra). nra. }
  match goal with |- context [foldM ?F (seq 2 (nb - 1)) ?s] => destruct (loop_ind _ F (fun k st => length (snd st) = length B /\ fst st = (true, S k) /\ forall n, (n <= S k)%nat -> nth_error (snd st) n = Some (V n)) 2 (nb - 1) s) as (((go & nc) & B') & E & L' & Eg & HB) end.
  - cbn [fst snd]. split; [unfold B0; rewrite !upd_length; reflexivity|]. split; [reflexivity|]. intros n Hn. unfold B0. destruct n as [|[|n]]; [rewrite upd_other by lia; apply upd_same; lia|apply upd_same; rewrite upd_length; lia|lia].
  - intros k [[go nc] B'] Hk (L' & Eg & HB). cbn [fst snd] in L', Eg, HB. injection Eg as -> ->. change (2 + k)%nat with (S (S k)). replace (S (S k) - 1)%nat with (S k) by lia. replace (S (S k) - 2)%nat with k by lia.
    rewrite (nth_ok _ _ _ _ (HB (S k) ltac:(lia))), (nth_ok _ _ _ _ (HB k ltac:(lia))). cbn [bind]. assert (Pk : 2 <= INR (S (S k))) by (rewrite !S_INR; pose proof (pos_INR k); lra). rewrite rdiv_ok by lra. cbn [bind].
    destruct (Rle_dec (xinf / (2 * INR (S (S k)) - 1)) (Rabs (V (S k)) * (scale / x))) as [C|_].
    + exfalso. destruct (Vb (S k) ltac:(lia)) as [Va Vc]. rewrite Rabs_pos_eq in C by lra.
      assert (Sx : 0 < scale / x <= 1). { split; [apply Rmult_lt_0_compat; [lra|apply Rinv_0_lt_compat; lra]|]. apply Rmult_le_reg_r with x; [lra|]. unfold Rdiv. rewrite Rmult_assoc, Rinv_l by lra. lra. }
      assert (K : INR (S (S k)) <= 19). { change 19 with (IZR (Z.of_nat 19)). rewrite <- INR_IZR_INZ. apply le_INR. lia. }
      assert (C' : xinf <= V (S k) * (scale / x) * (2 * INR (S (S k)) - 1)). { apply (Rmult_le_compat_r (2 * INR (S (S k)) - 1)) in C; [|lra]. unfold Rdiv in C at 1. rewrite Rmult_assoc, Rinv_l in C by lra. lra. }
      assert (V (S k) * (scale / x) <= 10 ^ 289) by nra. assert (V (S k) * (scale / x) * (2 * INR (S (S k)) - 1) <= 10 ^ 289 * 100) by (apply Rmult_le_compat; [apply Rmult_le_pos|..]; lra).
      unfold xinf in C'. pose proof (p10 291 306 ltac:(lia)). replace (10 ^ 291) with (10 ^ 289 * 100) in * by (replace 291%nat with (289 + 2)%nat by reflexivity; rewrite pow_add; ring). assert (0 < 10 ^ 306) by (apply pow_lt; lra). lra.
    + rewrite set_res_ok by lia. cbn [bind]. eexists. split; [reflexivity|]. cbn [fst snd]. split; [rewrite upd_length; exact L'|]. split; [reflexivity|]. intros n Hn. destruct (Nat.eq_dec n (S (S k))) as [->|Nn]; [rewrite upd_same by lia; f_equal; symmetry; apply VS|rewrite upd_other by lia; apply HB; lia].
  - cbn [fst snd] in *. rewrite E. cbn [bind]. injection Eg as -> ->. replace (S (nb - 1)) with nb by lia. rewrite Nat.sub_diag. cbn [seq foldM bind]. rewrite Nat.eqb_refl. cbn [assert_ bind]. exists B'. split; [reflexivity|]. intros n Hn. apply HB. lia.
Qed.
