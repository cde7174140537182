(** The arrays of Bessel functions bessel_jn_scaled and bessel_hn_scaled fill. *)
From Coq Require Import Reals List Lia Lra Psatz.
From Coquelicot Require Import Coquelicot.
From Verif Require Import Base ListFacts LapModel LapArrays BesselSpec BesselProofs OscSpec OscProofs YukModel YukSpec YukBessel HelmModel HelmSpec.
Import ListNotations.
Open Scope R_scope.

(** the first two terms of the series *)
Lemma ac_two n y : F n y = / odd n + y * (/ (2 * ((2 * INR n + 3) * odd n)) + y * PSeries (fun k => ac n (S (S k))) y) /\ ex_pseries (fun k => ac n (S (S k))) y.
Proof.
  assert (Inv : y = 0 \/ exists z, mult z y = one) by (destruct (Req_dec y 0) as [->|N]; [left; reflexivity|right; exists (/ y); apply Rinv_l, N]).
  assert (X1 : ex_pseries (fun k => ac n (S k)) y) by (apply (ex_pseries_decr_1 (ac n)); [exact Inv|apply ac_ex]).
  assert (X2 : ex_pseries (fun k => ac n (S (S k))) y) by (apply (ex_pseries_decr_1 (fun k => ac n (S k))); [exact Inv|exact X1]).
  split; [|exact X2]. unfold F. rewrite PSeries_decr_1 by apply ac_ex. unfold PS_decr_1 at 1. rewrite (PSeries_decr_1 (fun k => ac n (S k))) by exact X1. unfold PS_decr_1.
  assert (E0 : ac n 0 = / odd n) by (unfold ac; rewrite Nat.add_0_r; simpl; f_equal; ring).
  assert (E1 : ac n 1 = / (2 * ((2 * INR n + 3) * odd n))) by (unfold ac; rewrite Nat.add_1_r; simpl; f_equal; ring).
  rewrite E0, E1. reflexivity.
Qed.
Lemma F_alt n y : 0 <= y -> Rabs (F n (- y) - (1 - y / (2 * (2 * INR n + 3))) / odd n) <= F n y - (1 + y / (2 * (2 * INR n + 3))) / odd n.
Proof.
  intros Hy. destruct (ac_two n (- y)) as [E1 _]. destruct (ac_two n y) as [E2 X2]. rewrite E1, E2. pose proof (odd_ge n). pose proof (pos_INR n).
  set (T1 := PSeries (fun k => ac n (S (S k))) (- y)). set (T2 := PSeries (fun k => ac n (S (S k))) y).
  replace (/ odd n + - y * (/ (2 * ((2 * INR n + 3) * odd n)) + - y * T1) - (1 - y / (2 * (2 * INR n + 3))) / odd n) with (y * y * T1) by (field; split; lra).
  replace (/ odd n + y * (/ (2 * ((2 * INR n + 3) * odd n)) + y * T2) - (1 + y / (2 * (2 * INR n + 3))) / odd n) with (y * y * T2) by (field; split; lra).
  rewrite Rabs_mult, (Rabs_pos_eq (y * y)) by nra. apply Rmult_le_compat_l; [nra|]. unfold T1, T2, PSeries.
  assert (E : forall j, Rabs (ac n (S (S j)) * (- y) ^ j) = ac n (S (S j)) * y ^ j).
  { intros j. rewrite Rabs_mult, <- RPow_abs, Rabs_Ropp, (Rabs_pos_eq y) by exact Hy. rewrite Rabs_pos_eq by (left; apply ac_pos). reflexivity. }
  assert (X : ex_series (fun j => Rabs (ac n (S (S j)) * (- y) ^ j))).
  { apply (ex_series_ext (fun j => ac n (S (S j)) * y ^ j)); [intros j; symmetry; apply E|]. exact (proj1 (ex_pseries_R _ _) X2). }
  eapply Rle_trans; [apply Series_Rabs, X|]. right. apply Series_ext. exact E.
Qed.

Section Jn.
Variables (bJn : bessel_half) (eta : R).
Hypothesis HJ : computes_J bJn eta.
Hypothesis Heta : / 10 ^ 17 <= eta <= / 2.

Definition jn_close (nb : nat) (x scale : R) (B : list R) : Prop :=
  forall n, (n <= nb)%nat -> exists b, nth_error B n = Some b /\ Rabs (b * scale ^ n - jj n x) <= eta * ii n x + 2 * enmten * scale ^ n.

(** the two-term Taylor branch *)
Lemma jn_small nb x scale B : (nb <= 19)%nat -> (nb < length B)%nat -> 0 < scale -> 0 < x <= ensig ->
  exists B', bessel_jn_scaled bJn nb x scale B = Ok B' /\ jn_close nb x scale B'.
Proof.
  intros Hnb HL Hs Hx. pose proof ensig_lt as Es. pose proof enmten_pos as Ep. unfold bessel_jn_scaled. destruct (Rle_dec x ensig) as [_|C]; [|lra].
  rewrite rdiv_ok by lra. cbn [bind]. set (sx := x / scale). set (t2 := 5 / 10 * x * x).
  assert (Hsx : 0 < sx) by (apply Rmult_lt_0_compat; [lra|apply Rinv_0_lt_compat, Hs]).
  rewrite set_res_ok by lia. cbn [bind]. set (B0 := upd B 0 _).
  set (tau := fun i => sx ^ i / odd i).
  assert (Ht0 : forall i, 0 < tau i) by (intros i; unfold tau; pose proof (odd_ge i); apply Rmult_lt_0_compat; [apply pow_lt, Hsx|apply Rinv_0_lt_compat; lra]).
  assert (HtS : forall i, tau (S i) = tau i * sx / (2 * INR (S i) + 1)).
  { intros i. unfold tau. rewrite odd_S, S_INR. simpl pow. pose proof (odd_ge i). pose proof (pos_INR i). field. split; lra. }
  set (good := fun i t1 => t1 = tau i \/ (t1 = 0 /\ tau i <= enmten /\ sx <= 1)).
  assert (HB : forall i t1, (i <= 19)%nat -> good i t1 -> Rabs (t1 * (1 - t2 / (2 * INR i + 3)) * scale ^ i - jj i x) <= eta * ii i x + 2 * enmten * scale ^ i).
  { intros i t1 Hi G. pose proof (pow_lt scale i Hs) as Ps. pose proof (pos_INR i) as Pi. pose proof (odd_ge i) as Oi.
    set (z := x * x / (2 * (2 * INR i + 3))). assert (Hz0 : 0 <= z) by (apply Rmult_le_pos; [nra|left; apply Rinv_0_lt_compat; lra]).
    assert (Hz : z <= x * x / 6) by (apply Rmult_le_compat_l; [nra|apply Rinv_le_contravar; lra]).
    assert (Ez : t2 / (2 * INR i + 3) = z) by (unfold t2, z; field; lra). rewrite Ez.
    pose proof (ii_low i x ltac:(lra)) as Lo. pose proof (ii_up i x ltac:(lra)) as Up. fold z in Lo, Up. unfold Rdiv in Lo, Up.
    assert (X2 : x * x <= / 10 ^ 8). { unfold ensig in Hx. replace (/ 10 ^ 8) with (/ 10 ^ 4 * / 10 ^ 4) by (rewrite <- Rinv_mult; f_equal; ring). nra. }
    assert (I8 : / 10 ^ 8 = / 100000000) by (f_equal; ring). rewrite I8 in X2.
    pose proof (exp_two z ltac:(lra)) as Ex.
    set (w := x ^ i / odd i). assert (Pw : 0 < w) by (unfold w; apply Rmult_lt_0_compat; [apply pow_lt; lra|apply Rinv_0_lt_compat; lra]).
    assert (Et : tau i * scale ^ i = w) by (unfold tau, w, sx, Rdiv; rewrite Rpow_mult_distr, pow_inv; field; split; lra).
    assert (Lo' : w * (1 + z) <= ii i x) by (unfold w; lra). assert (Up' : ii i x <= w * exp z) by (unfold w; lra).
    assert (Rel : ii i x - w * (1 + z) <= eta * ii i x).
    { assert (ii i x - w * (1 + z) <= w * (z * z)) by nra. assert (z * z <= / 10 ^ 17).
      { assert (z * z <= (/ 100000000 / 6) * (/ 100000000 / 6)) by nra. assert (/ 10 ^ 17 = / 100000000000000000) by (f_equal; ring). lra. }
      assert (w * (z * z) <= w * eta) by (apply Rmult_le_compat_l; lra). assert (w <= ii i x) by nra. nra. }
    assert (Alt : Rabs (w * (1 - z) - jj i x) <= ii i x - w * (1 + z)).
    { pose proof (F_alt i (x * x) ltac:(nra)) as FA. fold z in FA. pose proof (pow_lt x i ltac:(lra)) as Px. rewrite Rabs_minus_sym in FA. apply (Rmult_le_compat_l (x ^ i)) in FA; [|lra]. rewrite <- (Rabs_pos_eq (x ^ i)) in FA at 1 by lra. rewrite <- Rabs_mult in FA.
      replace (w * (1 - z) - jj i x) with (x ^ i * ((1 - z) / odd i - F i (- (x * x)))) by (unfold w, jj; field; lra). replace (ii i x - w * (1 + z)) with (x ^ i * (F i (x * x) - (1 + z) / odd i)) by (unfold w, ii; field; lra). exact FA. }
    assert (P300 : 0 < 2 * enmten * scale ^ i) by (apply Rmult_lt_0_compat; lra).
    destruct G as [->|(-> & Hti & _)].
    - replace (tau i * (1 - z) * scale ^ i) with (w * (1 - z)) by (rewrite <- Et; ring). lra.
    - replace (0 * (1 - z) * scale ^ i - jj i x) with (- jj i x) by ring. rewrite Rabs_Ropp. eapply Rle_trans; [apply jj_le; lra|].
      assert (w * (1 + z) <= 2 * enmten * scale ^ i). { rewrite <- Et. replace (tau i * scale ^ i * (1 + z)) with (tau i * (1 + z) * scale ^ i) by ring. apply Rmult_le_compat_r; [lra|]. pose proof (Ht0 i). nra. } lra. }
  match goal with |- context [foldM ?F (seq 1 nb) ?s] => destruct (loop_ind _ F (fun k st => length (snd st) = length B /\ good k (fst st) /\ forall n, (n <= k)%nat -> exists b, nth_error (snd st) n = Some b /\ Rabs (b * scale ^ n - jj n x) <= eta * ii n x + 2 * enmten * scale ^ n) 1 nb s) as ((t1 & B') & E & HB') end.
  - cbn [fst snd]. split; [unfold B0; apply upd_length|]. assert (G0 : good 0%nat 1) by (left; unfold tau; simpl; field). split; [exact G0|].
    intros n Hn. replace n with 0%nat by lia. exists (1 * (1 - t2 / 3)). split; [unfold B0; apply upd_same; lia|]. pose proof (HB 0%nat 1 ltac:(lia) G0) as H0. cbn [INR] in H0. replace (2 * 0 + 3) with 3 in H0 by ring. exact H0.
  - intros k [t1 B'] Hk (L' & G & HBk). cbn [fst snd] in L', G, HBk. change (1 + k)%nat with (S k). pose proof (pos_INR (S k)) as Pk.
    rewrite rdiv_ok by lra. cbn [bind]. rewrite rdiv_ok by lra. cbn [bind]. rewrite set_res_ok by lia. cbn [bind].
    eexists. split; [reflexivity|]. cbn [fst snd]. split; [rewrite upd_length; exact L'|].
    set (t1' := if Rle_dec (t1 * sx / (2 * INR (S k) + 1)) enmten then 0 else t1 * sx / (2 * INR (S k) + 1)).
    assert (G' : good (S k) t1').
    { unfold t1'. destruct G as [->|(-> & Hti & H1)].
      - rewrite <- HtS. destruct (Rle_dec (tau (S k)) enmten) as [C|C]; [|left; reflexivity]. right. split; [reflexivity|]. split; [exact C|].
        destruct (Rle_dec sx 1) as [L|L]; [exact L|exfalso]. assert (1 <= sx ^ S k) by (apply pow_R1_Rle; lra). pose proof (odd_38 (S k) ltac:(lia)) as O. pose proof (odd_ge (S k)) as O1.
        assert (/ 10 ^ 38 <= tau (S k)). { unfold tau. apply Rle_trans with (/ odd (S k)); [apply Rinv_le_contravar; lra|]. rewrite <- (Rmult_1_l (/ odd (S k))). apply Rmult_le_compat_r; [left; apply Rinv_0_lt_compat; lra|assumption]. }
        assert (enmten < / 10 ^ 38); [|lra]. unfold enmten. apply Rinv_lt_contravar; [apply Rmult_lt_0_compat; apply pow_lt; lra|apply Rlt_pow; [lra|lia]].
      - replace (0 * sx / (2 * INR (S k) + 1)) with 0 by (field; lra). destruct (Rle_dec 0 enmten) as [_|C]; [|lra]. right. split; [reflexivity|]. split; [|exact H1].
        rewrite HtS. pose proof (Ht0 k). apply Rle_trans with (tau k); [|exact Hti]. apply Rmult_le_reg_r with (2 * INR (S k) + 1); [lra|]. unfold Rdiv. rewrite Rmult_assoc, Rinv_l by lra. rewrite Rmult_1_r. assert (tau k * sx <= tau k * 1) by (apply Rmult_le_compat_l; lra). assert (0 <= tau k * INR (S k)) by (apply Rmult_le_pos; lra). lra. }
    split; [exact G'|]. intros n Hn. destruct (Nat.eq_dec n (S k)) as [->|Nn].
    + eexists. split; [apply upd_same; lia|]. apply HB; [lia|exact G'].
    + rewrite upd_other by lia. apply HBk. lia.
  - exists B'. rewrite E. cbn [bind]. split; [reflexivity|]. intros n Hn. apply HB'. exact Hn.
Qed.

(** the branch that calls bessel_Jn *)
Lemma jn_middle nb x scale B : (nb <= 18)%nat -> (nb < length B)%nat -> 0 < scale <= 1 -> ensig < x <= 10 ^ 2 ->
  exists B', bessel_jn_scaled bJn nb x scale B = Ok B' /\ jn_close nb x scale B'.
Proof.
  intros Hnb HL Hs Hx. pose proof ensig_lt as Es. pose proof enmten_pos as Ep. pose proof PI_RGT_0 as Pp. unfold bessel_jn_scaled. destruct (Rle_dec x ensig) as [C|_]; [lra|].
  rewrite rdiv_ok by lra. cbn [bind]. assert (Ph : 0 < PI / 2 / x) by (apply Rmult_lt_0_compat; [lra|apply Rinv_0_lt_compat; lra]). unfold rsqrt. destruct (Rlt_dec (PI / 2 / x) 0) as [C|_]; [lra|]. cbn [bind].
  destruct (HJ (nb + 1)%nat x ltac:(lia) ltac:(unfold ensig in Hx; lra)) as (vals & -> & HV). cbn [bind]. set (f0 := sqrt (PI / 2 / x)) in *.
  match goal with |- context [foldM ?F (seq 0 (S nb)) ?s] => destruct (loop_ind _ F (fun k st => length (snd st) = length B /\ fst st = f0 / scale ^ k /\ forall n, (n < k)%nat -> exists b, nth_error (snd st) n = Some b /\ Rabs (b * scale ^ n - jj n x) <= eta * ii n x + 2 * enmten * scale ^ n) 0 (S nb) s) as ((t1 & B') & E & HB') end.
  - cbn [fst snd]. split; [reflexivity|]. split; [simpl; field|]. intros n Hn. lia.
  - intros k [f B'] Hk (L' & Ef & HBk). cbn [fst snd] in L', Ef, HBk. change (0 + k)%nat with k. destruct (HV k ltac:(lia)) as (v & Ev & Nz & Bv & _). rewrite (nth_ok _ _ _ _ Ev). cbn [bind]. rewrite set_res_ok by lia. cbn [bind]. rewrite rdiv_ok by lra. cbn [bind].
    rewrite ii_sph, jj_sph in Bv by lra. pose proof (pow_lt scale k ltac:(lra)) as Ps.
    assert (Eb : v * f * scale ^ k = f0 * v) by (rewrite Ef; field; lra).
    assert (Big : enmten < Rabs (v * f)).
    { rewrite <- Eb, Rabs_mult, (Rabs_pos_eq (scale ^ k)) in Nz by lra. assert (Sk : scale ^ k <= 1) by (rewrite <- (pow1 k); apply pow_incr; lra). pose proof (Rabs_pos (v * f)).
      assert (enmten < / 10 ^ 200) by (unfold enmten; apply Rinv_lt_contravar; [apply Rmult_lt_0_compat; apply pow_lt; lra|apply Rlt_pow; [lra|lia]]). nra. }
    destruct (Rle_dec (Rabs (v * f)) enmten) as [C|_]; [lra|]. eexists. split; [reflexivity|]. cbn [fst snd]. split; [rewrite upd_length; exact L'|].
    split; [rewrite Ef; simpl; field; lra|]. intros n Hn. destruct (Nat.eq_dec n k) as [->|Nn].
    + eexists. split; [apply upd_same; lia|]. rewrite Eb. assert (0 < enmten * scale ^ k) by (apply Rmult_lt_0_compat; assumption). lra.
    + rewrite upd_other by lia. apply HBk. lia.
  - exists B'. rewrite E. cbn [bind]. split; [reflexivity|]. intros n Hn. apply HB'. lia.
Qed.

Lemma jn_ok nb x scale B : (nb <= 18)%nat -> (nb < length B)%nat -> 0 < scale <= 1 -> 0 < x <= 10 ^ 2 ->
  exists B', bessel_jn_scaled bJn nb x scale B = Ok B' /\ jn_close nb x scale B'.
Proof. intros A1 A2 A3 A4. destruct (Rle_dec x ensig) as [L|L]; [apply jn_small; try assumption; [lia|lra|lra]|apply jn_middle; try assumption; lra]. Qed.

(** the singular functions *)
Variable bYn : bessel_half.
Hypothesis HY : computes_Y bYn eta.

Lemma hn_ok nb x scale B : (nb <= 18)%nat -> (nb < length B)%nat -> ensig <= x <= 10 ^ 2 ->
  exists B' J Y, bessel_hn_scaled bJn bYn nb x scale B = Ok B' /\ (forall n, (n <= nb)%nat -> nth_error B' n = Some (J n * scale ^ n, Y n * scale ^ n)) /\
    forall n, (n <= nb)%nat -> Rabs (J n - zz (- (PI / 2)) n x) <= eta * (exp x * kk n x) /\ Rabs (Y n - zz PI n x) <= eta * (exp x * kk n x).
Proof.
  intros Hnb HL Hx. pose proof ensig_lt as Es. pose proof PI_RGT_0 as Pp. unfold bessel_hn_scaled. destruct (Rlt_dec x ensig) as [C|_]; [lra|].
  rewrite rdiv_ok by lra. cbn [bind]. assert (Ph : 0 < PI / 2 / x) by (apply Rmult_lt_0_compat; [lra|apply Rinv_0_lt_compat; lra]). unfold rsqrt. destruct (Rlt_dec (PI / 2 / x) 0) as [C|_]; [lra|]. cbn [bind].
  destruct (HJ (nb + 1)%nat x ltac:(lia) ltac:(unfold ensig in Hx; lra)) as (vj & -> & VJ). cbn [bind].
  destruct (HY (nb + 1)%nat x ltac:(lia) ltac:(unfold ensig in Hx; lra)) as (vy & -> & VY). cbn [bind]. set (f0 := sqrt (PI / 2 / x)) in *.
  assert (NJ : forall n, (n <= nb)%nat -> nth_error vj n = Some (nth n vj 0)) by (intros n Hn; destruct (VJ n ltac:(lia)) as (v & Ev & _); rewrite (nth_error_nth _ _ 0 Ev); exact Ev).
  assert (NY : forall n, (n <= nb)%nat -> nth_error vy n = Some (nth n vy 0)) by (intros n Hn; destruct (VY n ltac:(lia)) as (v & Ev & _); rewrite (nth_error_nth _ _ 0 Ev); exact Ev).
  match goal with |- context [foldM ?F (seq 0 (S nb)) B] => destruct (loop_ind _ F (fun k st => length st = length B /\ forall n, (n < k)%nat -> nth_error st n = Some (nth n vj 0, nth n vy 0)) 0 (S nb) B) as (B1 & E1 & L1 & H1) end.
  - split; [reflexivity|]. intros n Hn. lia.
  - intros k B1 Hk (L1 & H1). change (0 + k)%nat with k. rewrite (nth_ok _ _ _ _ (NJ k ltac:(lia))), (nth_ok _ _ _ _ (NY k ltac:(lia))). cbn [bind]. rewrite set_res_ok by lia. eexists. split; [reflexivity|]. split; [rewrite upd_length; exact L1|].
    intros n Hn. destruct (Nat.eq_dec n k) as [->|Nn]; [apply upd_same; lia|rewrite upd_other by lia; apply H1; lia].
  - rewrite E1. cbn [bind].
    match goal with |- context [foldM ?F (seq 0 (S nb)) ?s] => destruct (loop_ind _ F (fun k st => length (snd st) = length B /\ fst st = f0 * scale ^ k /\ forall n, (n <= nb)%nat -> nth_error (snd st) n = Some (if (n <? k)%nat then cscale (nth n vj 0, nth n vy 0) (f0 * scale ^ n) else (nth n vj 0, nth n vy 0))) 0 (S nb) s) as ((f & B2) & E2 & L2 & _ & H2) end.
    + cbn [fst snd]. split; [exact L1|]. split; [simpl; ring|]. intros n Hn. apply H1. lia.
    + intros k [f B2] Hk (L2 & Ef & H2). cbn [fst snd] in L2, Ef, H2. change (0 + k)%nat with k. pose proof (H2 k ltac:(lia)) as Hk2. rewrite Nat.ltb_irrefl in Hk2. rewrite (nth_ok _ _ _ _ Hk2). cbn [bind]. rewrite set_res_ok by lia. cbn [bind]. eexists. split; [reflexivity|]. cbn [fst snd]. split; [rewrite upd_length; exact L2|]. split; [rewrite Ef; simpl; ring|].
      intros n Hn. destruct (Nat.eq_dec n k) as [->|Nn]; [rewrite upd_same by lia; destruct (Nat.ltb_spec k (S k)); [rewrite Ef; reflexivity|lia]|rewrite upd_other by lia; rewrite (H2 n Hn); destruct (Nat.ltb_spec n k), (Nat.ltb_spec n (S k)); try reflexivity; lia].
    + rewrite E2. cbn [bind fst snd] in *. exists B2, (fun n => f0 * nth n vj 0), (fun n => f0 * nth n vy 0). split; [reflexivity|]. split.
      * intros n Hn. rewrite (H2 n Hn). destruct (Nat.ltb_spec n (S nb)); [|lia]. unfold cscale. cbn [fst snd]. f_equal. f_equal; ring.
      * intros n Hn. destruct (VJ n ltac:(lia)) as (v & Ev & _ & _ & Bv). destruct (VY n ltac:(lia)) as (v' & Ev' & Bv'). rewrite (nth_error_nth _ _ 0 Ev), (nth_error_nth _ _ 0 Ev'). rewrite <- zz_sph_j, <- zz_sph_y, <- kk_sph by lra. split; assumption.
Qed.
End Jn.
