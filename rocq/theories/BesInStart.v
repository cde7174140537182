(** Where Miller's algorithm starts: far enough up. *)
From Coq Require Import Reals List Arith Lia Lra Psatz ZArith.
From Coquelicot Require Rcomplements.
From Verif Require Import Base LapModel LapArrays BesselSpec BesselProofs BesInModel BesInMath.
Import ListNotations.
Open Scope R_scope.

Lemma exp_inv_ge t : 0 <= t < 1 -> exp t <= / (1 - t).
Proof.
  intros H. pose proof (exp_ineq1_le (- t)) as E. pose proof (exp_pos t) as P. assert (M : exp t * exp (- t) = 1) by (rewrite <- exp_plus, Rplus_opp_r; apply exp_0).
  apply Rmult_le_reg_r with (1 - t); [lra|]. rewrite Rinv_l by lra. nra.
Qed.
Lemma exp_pow t n : exp t ^ n = exp (INR n * t).
Proof. induction n as [|n IH]; [simpl; rewrite Rmult_0_l, exp_0; reflexivity|]. rewrite S_INR. simpl pow. rewrite IH, <- exp_plus. f_equal. ring. Qed.

(** ** the growth of the second kind up to the argument *)
Definition tt (s : nat) : R := odd s * exp (3 / 4 * (INR s + 1)) / (INR s + 1) ^ (s + 1).
Lemma tt_pos s : 0 < tt s.
Proof. unfold tt. pose proof (odd_ge s). pose proof (pos_INR s). apply Rdiv_lt_0_compat; [apply Rmult_lt_0_compat; [lra|apply exp_pos]|apply pow_lt; lra]. Qed.
Lemma tt_step s : (11 <= s)%nat -> 75 / 52 * tt s <= tt (S s).
Proof.
  intros Hs. apply le_INR in Hs. simpl (INR 11) in Hs. set (y := INR s + 1). assert (Hy : 12 <= y) by (unfold y; lra).
  unfold tt. rewrite S_INR. fold y. rewrite odd_S. replace (2 * INR s + 3) with (2 * y + 1) by (unfold y; lra). replace (S s + 1)%nat with (S (s + 1)) by lia. simpl pow. set (q := (s + 1)%nat).
  assert (Eq : INR q = y) by (unfold q, y; rewrite plus_INR; simpl; lra).
  (* (y + 1)^q <= e y^q *)
  assert (B : (y + 1) ^ q <= exp 1 * y ^ q).
  { apply Rle_trans with ((exp (/ y) * y) ^ q).
    - apply pow_incr. split; [lra|]. pose proof (exp_ineq1_le (/ y)). assert (/ y * y = 1) by (apply Rinv_l; lra). nra.
    - rewrite Rpow_mult_distr, exp_pow, Eq. apply Req_le. f_equal. f_equal. field. lra. }
  assert (Py : 0 < y ^ q) by (apply pow_lt; lra). assert (Py1 : 0 < (y + 1) ^ q) by (apply pow_lt; lra).
  assert (E : exp (3 / 4 * (y + 1)) = exp (3 / 4 * y) * exp (3 / 4)) by (rewrite <- exp_plus; f_equal; ring). rewrite E.
  assert (E2 : 3 / 4 * exp 1 <= exp (3 / 4)).
  { pose proof (exp_inv_ge (/ 4) ltac:(lra)) as Q. replace (exp 1) with (exp (3 / 4) * exp (/ 4)) by (rewrite <- exp_plus; f_equal; lra). pose proof (exp_pos (3 / 4)). nra. }
  pose proof (odd_ge s) as O. pose proof (exp_pos (3 / 4 * y)) as P3. pose proof (exp_pos 1) as P1.
  set (z := odd s * exp (3 / 4 * y)) in *. assert (Pz : 0 < z) by (unfold z; apply Rmult_lt_0_compat; lra).
  replace ((2 * y + 1) * odd s * (exp (3 / 4 * y) * exp (3 / 4))) with (z * ((2 * y + 1) * exp (3 / 4))) by (unfold z; ring).
  apply Rmult_le_reg_r with (y ^ q * ((y + 1) * (y + 1) ^ q)); [apply Rmult_lt_0_compat; [exact Py|apply Rmult_lt_0_compat; lra]|].
  replace (75 / 52 * (z / y ^ q) * (y ^ q * ((y + 1) * (y + 1) ^ q))) with (z * (75 / 52 * (y + 1) * (y + 1) ^ q)) by (field; lra).
  replace (z * ((2 * y + 1) * exp (3 / 4)) / ((y + 1) * (y + 1) ^ q) * (y ^ q * ((y + 1) * (y + 1) ^ q))) with (z * ((2 * y + 1) * exp (3 / 4) * y ^ q)) by (field; split; lra).
  apply Rmult_le_compat_l; [lra|]. apply Rle_trans with (75 / 52 * (y + 1) * (exp 1 * y ^ q)); [apply Rmult_le_compat_l; lra|].
  replace (75 / 52 * (y + 1) * (exp 1 * y ^ q)) with (4 / 3 * (75 / 52) * (y + 1) * (3 / 4 * exp 1) * y ^ q) by field. apply Rmult_le_compat_r; [lra|].
  apply Rmult_le_compat; lra.
Qed.
Lemma exp1_27 : 27 / 10 <= exp 1.
Proof.
  assert (E : exp 1 = exp (/ 100) ^ 100) by (rewrite exp_pow; f_equal; rewrite INR_IZR_INZ; simpl; lra). rewrite E.
  apply Rle_trans with ((1 + / 100) ^ 100); [lra|]. apply pow_incr. pose proof (exp_ineq1_le (/ 100)). lra.
Qed.
Lemma tt_11 : 270 <= tt 11.
Proof.
  unfold tt. replace (INR 11 + 1) with 12 by (simpl; lra). replace (3 / 4 * 12) with (INR 9 * 1) by (simpl; lra). rewrite <- exp_pow.
  assert (7625 <= exp 1 ^ 9) by (apply Rle_trans with ((27 / 10) ^ 9); [lra|]; apply pow_incr; pose proof exp1_27; lra).
  assert (E : odd 11 = 316234143225) by (unfold odd; simpl INR; lra). rewrite E. apply Rmult_le_reg_r with (12 ^ (11 + 1)); [apply pow_lt; lra|]. unfold Rdiv. rewrite Rmult_assoc, Rinv_l by (apply pow_nonzero; lra). simpl pow in *. lra.
Qed.
Lemma tt_ge k : 270 * (75 / 52) ^ k <= tt (11 + k).
Proof. induction k as [|k IH]; [simpl; pose proof tt_11; simpl in *; lra|]. rewrite Nat.add_succ_r. pose proof (tt_step (11 + k) ltac:(lia)). simpl pow. lra. Qed.

Section S.
Variable x : R.
Hypothesis Hx : 0 < x.
Variable s : nat.
Hypothesis Hs : INR s <= x < INR s + 1.
Local Notation Ix n := (ii n x).
Local Notation Kx n := (kk n x).

Lemma cs_ge j : (s < j)%nat -> 2 <= cj x j.
Proof.
  intros Hj. assert (INR s + 1 <= INR j) by (rewrite <- S_INR; apply le_INR; lia). unfold cj. apply Rmult_le_reg_r with x; [exact Hx|]. unfold Rdiv. rewrite Rmult_assoc, Rinv_l by lra. lra.
Qed.
Lemma gain : 2 / 3 * tt s * Kx 0 <= Kx (S s).
Proof.
  pose proof (I_low_K x Hx s) as L. pose proof (K_pos x Hx (S s)) as Pk. pose proof (I_pos x Hx s) as Pi. pose proof (pos_INR s) as Ps.
  assert (C : / cj x (S s) <= / 2) by (apply Rinv_le_contravar; [lra|apply cs_ge; lia]).
  assert (L' : / (x * x) <= 3 / 2 * (Ix s * Kx (S s))) by (eapply Rle_trans; [exact L|]; apply Rmult_le_compat_r; [apply Rmult_le_pos; lra|lra]).
  pose proof (ii_up s x ltac:(lra)) as U. pose proof (odd_ge s) as O.
  assert (Ex : exp (x * x / (2 * (2 * INR s + 3))) <= exp (x / 4)).
  { assert (D : x * x / (2 * (2 * INR s + 3)) <= x / 4). { apply Rmult_le_reg_r with (2 * (2 * INR s + 3)); [lra|]. unfold Rdiv at 1. rewrite Rmult_assoc, Rinv_l by lra. nra. }
    destruct D as [D|D]; [left; apply exp_increasing, D|rewrite D; lra]. }
  assert (U' : Ix s * odd s <= x ^ s * exp (x / 4)).
  { apply Rle_trans with (x ^ s * exp (x * x / (2 * (2 * INR s + 3)))); [|apply Rmult_le_compat_l; [left; apply pow_lt, Hx|exact Ex]].
    apply (Rmult_le_compat_r (odd s)) in U; [|lra]. unfold Rdiv in U at 1. rewrite Rmult_assoc, Rinv_l in U by lra. lra. }
  assert (K0 : Kx 0 = exp (- x) / x) by (unfold kk; simpl; f_equal; ring).
  set (y := INR s + 1). assert (Hy : x < y) by (unfold y; lra).
  (* exp (3/4 x) / x^(s+1) falls up to y *)
  assert (F : exp (3 / 4 * y) * x ^ (s + 1) <= exp (3 / 4 * x) * y ^ (s + 1)).
  { assert (Q : x ^ (s + 1) <= (exp (- ((y - x) / y)) * y) ^ (s + 1)).
    { apply pow_incr. split; [lra|]. pose proof (exp_ineq1_le (- ((y - x) / y))) as E. apply Rle_trans with ((1 + - ((y - x) / y)) * y); [|apply Rmult_le_compat_r; lra]. apply Req_le. field. lra. }
    rewrite Rpow_mult_distr, exp_pow in Q. assert (E : INR (s + 1) * - ((y - x) / y) = - (y - x)) by (rewrite plus_INR; simpl INR; fold y; field; lra). rewrite E in Q.
    assert (P : 0 < y ^ (s + 1)) by (apply pow_lt; lra). apply Rle_trans with (exp (3 / 4 * y) * (exp (- (y - x)) * y ^ (s + 1))); [apply Rmult_le_compat_l; [left; apply exp_pos|exact Q]|].
    rewrite <- Rmult_assoc, <- exp_plus. apply Rmult_le_compat_r; [lra|]. left. apply exp_increasing. lra. }
  rewrite K0. unfold tt. fold y. pose proof (pow_lt x s Hx) as Pxs. assert (Pys : 0 < y ^ (s + 1)) by (apply pow_lt; lra).
  pose proof (exp_pos x) as Pe. pose proof (exp_pos (x / 4)) as P4.
  (* T K_0 I_s <= 1 / x^2 *)
  assert (M : odd s * exp (3 / 4 * y) / y ^ (s + 1) * (exp (- x) / x) * Ix s <= / (x * x)).
  { apply Rle_trans with (exp (3 / 4 * y) / y ^ (s + 1) * (exp (- x) / x) * (x ^ s * exp (x / 4))).
    - replace (odd s * exp (3 / 4 * y) / y ^ (s + 1) * (exp (- x) / x) * Ix s) with (exp (3 / 4 * y) / y ^ (s + 1) * (exp (- x) / x) * (Ix s * odd s)) by (field; split; lra).
      apply Rmult_le_compat_l; [|exact U']. apply Rmult_le_pos; (apply Rmult_le_pos; [left; apply exp_pos|left; apply Rinv_0_lt_compat; lra]).
    - apply Rmult_le_reg_r with (y ^ (s + 1) * (x * x)); [apply Rmult_lt_0_compat; [lra|nra]|].
      replace (exp (3 / 4 * y) / y ^ (s + 1) * (exp (- x) / x) * (x ^ s * exp (x / 4)) * (y ^ (s + 1) * (x * x))) with (exp (3 / 4 * y) * x ^ (s + 1) * (exp (- x) * exp (x / 4))) by (rewrite (pow_add x); simpl; field; split; lra).
      replace (/ (x * x) * (y ^ (s + 1) * (x * x))) with (y ^ (s + 1)) by (field; lra). rewrite <- exp_plus.
      apply Rle_trans with (exp (3 / 4 * x) * y ^ (s + 1) * exp (- x + x / 4)); [apply Rmult_le_compat_r; [left; apply exp_pos|exact F]|].
      replace (exp (3 / 4 * x) * y ^ (s + 1) * exp (- x + x / 4)) with (y ^ (s + 1) * (exp (3 / 4 * x) * exp (- x + x / 4))) by ring. rewrite <- exp_plus. replace (3 / 4 * x + (- x + x / 4)) with 0 by field. rewrite exp_0. lra. }
  apply Rmult_le_reg_r with (Ix s); [exact Pi|]. nra.
Qed.

(** ** the significance test *)
Definition t0 : R := if (5 * bI_nsig <? 2 * s)%nat then sqrt ((bI_ensig + bI_ensig) * cj x (S s)) else (bI_ensig + bI_ensig) / (1585 / 1000) ^ s.
Lemma p1585 : (1585 / 1000) ^ 40 <= 101 * 10 ^ 6.
Proof. lra. Qed.
Lemma t0_facts : 0 < t0 /\ 3 * 10 ^ 16 <= t0 * t0 /\ t0 <= 2 ^ 60 * cj x (S s) /\ 19 * 10 ^ 13 * Kx 0 <= t0 * Kx (S s).
Proof.
  pose proof (cs_ge (S s) ltac:(lia)) as C. pose proof gain as G. pose proof (K_pos x Hx 0) as P0. pose proof (K_mono x Hx 0 (S s) ltac:(lia)) as M. pose proof (tt_pos s) as Pt.
  unfold t0, bI_ensig. destruct (Nat.ltb_spec (5 * bI_nsig) (2 * s)) as [L|L]; unfold bI_nsig in L.
  - set (q := sqrt _). assert (Pq : 0 <= q) by apply sqrt_pos. assert (Q : q * q = (10 ^ 16 + 10 ^ 16) * cj x (S s)) by (apply sqrt_sqrt; lra).
    assert (Q2 : 2 * 10 ^ 8 <= q) by (apply Rnot_lt_le; intros N; assert (q * q < (2 * 10 ^ 8) * (2 * 10 ^ 8)) by nra; lra).
    split; [lra|]. split; [nra|]. split.
    + apply Rnot_lt_le. intros N. assert (q * 1 <= q * q) by (apply Rmult_le_compat_l; lra). lra.
    + replace s with (11 + (30 + (s - 41)))%nat in G at 1 by lia. pose proof (tt_ge (30 + (s - 41))) as T. rewrite pow_add in T.
      pose proof (pow_R1_Rle (75 / 52) (s - 41) ltac:(lra)) as R1. assert (T' : 270 * (75 / 52) ^ 30 <= tt (11 + (30 + (s - 41)))) by (eapply Rle_trans; [|exact T]; rewrite <- Rmult_assoc; assert (0 < 270 * (75 / 52) ^ 30) by (apply Rmult_lt_0_compat; [lra|apply pow_lt; lra]); nra).
      assert (T2 : 10 ^ 7 <= tt (11 + (30 + (s - 41)))) by lra.
      assert (G' : 6 * 10 ^ 6 * Kx 0 <= Kx (S s)) by nra. apply Rle_trans with (2 * 10 ^ 8 * (6 * 10 ^ 6 * Kx 0)); [nra|]. apply Rmult_le_compat; [lra|nra|exact Q2|exact G'].
  - assert (S40 : (s <= 40)%nat) by lia. set (b := 1585 / 1000). assert (Pb : 0 < b ^ s) by (apply pow_lt; unfold b; lra).
    assert (B40 : b ^ s <= 101 * 10 ^ 6) by (eapply Rle_trans; [|exact p1585]; apply Rle_pow; [unfold b; lra|exact S40]).
    set (t := (10 ^ 16 + 10 ^ 16) / b ^ s). assert (Et : t * b ^ s = 10 ^ 16 + 10 ^ 16) by (unfold t; field; lra).
    assert (Pt' : 0 < t) by (unfold t; apply Rdiv_lt_0_compat; lra). split; [exact Pt'|]. split; [|split].
    + assert (Tl : 198 * 10 ^ 6 <= t) by (apply Rnot_lt_le; intros N; nra). nra.
    + assert (1 <= b ^ s) by (apply pow_R1_Rle; unfold b; lra). assert (t <= 10 ^ 16 + 10 ^ 16) by nra. lra.
    + destruct (le_lt_dec s 10) as [L10|L10].
      * assert (B10 : b ^ s <= b ^ 10) by (apply Rle_pow; [unfold b; lra|exact L10]). assert (b ^ 10 <= 101) by (unfold b; lra).
        assert (19 * 10 ^ 13 <= t) by (apply Rnot_lt_le; intros N; nra). apply Rmult_le_compat; lra.
      * replace s with (11 + (s - 11))%nat in G at 1 by lia. pose proof (tt_ge (s - 11)) as T. set (k := (s - 11)%nat) in *.
        assert (Bk : b ^ s = b ^ 11 * ((75 / 52) ^ k * (b * (52 / 75)) ^ k)). { replace s with (11 + k)%nat by (unfold k; lia). rewrite pow_add. f_equal. rewrite <- Rpow_mult_distr. f_equal. unfold b. field. }
        assert (Q29 : (b * (52 / 75)) ^ k <= 16). { apply Rle_trans with ((b * (52 / 75)) ^ 29); [apply Rle_pow; [unfold b; lra|unfold k; lia]|unfold b; lra]. }
        assert (B11 : b ^ 11 <= 160) by (unfold b; lra). assert (P11 : 0 < b ^ 11) by (apply pow_lt; unfold b; lra).
        assert (Pk : 0 < (75 / 52) ^ k) by (apply pow_lt; lra).
        assert (Bs : b ^ s <= 160 * 16 * (75 / 52) ^ k). { rewrite Bk. replace (160 * 16 * (75 / 52) ^ k) with (160 * ((75 / 52) ^ k * 16)) by ring. apply Rmult_le_compat; [lra|apply Rmult_le_pos; [lra|apply pow_le; unfold b; lra]|exact B11|apply Rmult_le_compat_l; lra]. }
        assert (G' : 180 * (75 / 52) ^ k * Kx 0 <= Kx (S s)) by nra.
        assert (G2 : 180 * b ^ s * Kx 0 <= 2560 * Kx (S s)) by nra.
        apply Rmult_le_reg_r with (b ^ s); [exact Pb|]. replace (t * Kx (S s) * b ^ s) with (t * b ^ s * Kx (S s)) by ring. rewrite Et. nra.
Qed.

(** ** the p-sequence *)
Lemma climb_ok fuel : forall test n plast p, (s <= n)%nat -> 0 <= plast -> 0 < p -> (0 < fuel)%nat -> test <= p * 2 ^ fuel ->
  exists N pN, climb x fuel test n (2 * INR n + 1) plast p = Ok (N, 2 * INR N + 1, pN) /\ (n < N)%nat /\ test <= pN /\ 0 < pN /\
    forall C, 0 <= C -> plast <= C * Kx n -> p <= C * Kx (S n) -> pN <= C * Kx (S N).
Proof.
  induction fuel as [|f IH]; intros test n plast p Hn H0 Hp Hf Ht; [lia|]. cbn [climb]. rewrite Nat.add_1_r.
  assert (E : 2 * INR n + 1 + 2 = 2 * INR (S n) + 1) by (rewrite S_INR; ring). rewrite E.
  assert (E2 : (2 * INR (S n) + 1) * p / x + plast = cj x (S n) * p + plast) by (unfold cj; field; lra). rewrite E2. set (p' := cj x (S n) * p + plast).
  pose proof (cs_ge (S n) ltac:(lia)) as C2. assert (P' : 2 * p <= p') by (unfold p'; nra).
  assert (Step : forall C, 0 <= C -> plast <= C * Kx n -> p <= C * Kx (S n) -> p' <= C * Kx (S (S n))).
  { intros C HC A B. rewrite (K_rec x Hx n). unfold p'. assert (cj x (S n) * p <= cj x (S n) * (C * Kx (S n))) by (apply Rmult_le_compat_l; lra). lra. }
  destruct (Rlt_dec p' test) as [L|L].
  - simpl pow in Ht. destruct f as [|f]; [simpl in Ht; lra|]. assert (P2 : 0 < 2 ^ S f) by (apply pow_lt; lra).
    destruct (IH test (S n) p p' ltac:(lia) ltac:(lra) ltac:(lra) ltac:(lia) ltac:(nra)) as (N & pN & R1 & R2 & R3 & R4 & R5).
    exists N, pN. split; [exact R1|]. split; [lia|]. split; [exact R3|]. split; [exact R4|]. intros C HC A B. apply R5; [exact HC|exact B|apply Step; assumption].
  - exists (S n), p'. split; [reflexivity|]. split; [lia|]. split; [lra|]. split; [lra|]. exact Step.
Qed.
End S.

(** ** the p-sequence up to nb - 1, with k in place of x *)
Section F.
Variable x : R.
Hypothesis Hx : / 10 ^ 4 <= x.
Variable s : nat.
Hypothesis Hs : INR s <= x < INR s + 1.
Local Notation Kx n := (kk n x).
Hypothesis Px : 0 < x.

Lemma first_p : 2 <= cj x (S s) <= 4 * 10 ^ 4.
Proof.
  split; [apply (cs_ge x Px s Hs); lia|]. unfold cj. apply Rmult_le_reg_r with x; [exact Px|]. unfold Rdiv. rewrite Rmult_assoc, Rinv_l by lra. rewrite Rmult_1_r, S_INR. pose proof (pos_INR s) as P.
  assert (10 ^ 4 * x >= 1) by (apply (Rmult_le_compat_l (10 ^ 4)) in Hx; [rewrite Rinv_r in Hx by lra; lra|lra]). lra.
Qed.

(** after [r] steps: plast and p belong to s + r and s + 1 + r *)
Definition fwd (r : nat) (st : R * R * R) : Prop :=
  let '(en, plast, p) := st in
  en = 2 * INR (s + 1 + r) + 1 /\ 1 <= plast /\ 2 * plast <= p /\ cj x (S s) <= p <= 4 * 10 ^ 4 * 4 ^ r /\ ((0 < r)%nat -> p <= 4 * plast) /\
  plast * Kx (S s) <= Kx (s + 1 + r) /\ p * Kx (S s) <= Kx (s + 2 + r).
Lemma fwd_step r st : (s + 2 + r <= 20)%nat -> fwd r st -> exists st', climb_to st (s + 2 + r) = Ok st' /\ fwd (S r) st'.
Proof.
  destruct st as [[en a] b]. intros Hr (E & A & B & U & _ & K1 & K2). unfold climb_to. set (k := (s + 2 + r)%nat) in *.
  assert (Ek : INR k = INR s + 2 + INR r) by (unfold k; rewrite !plus_INR; simpl; ring). pose proof (pos_INR s) as P1. pose proof (pos_INR r) as P2.
  assert (Een : en + 2 = 2 * INR k + 1) by (rewrite E, Ek, !plus_INR; simpl; ring). rewrite Een. set (b' := (2 * INR k + 1) * b / INR k + a).
  assert (Eb : b' = 2 * b + b / INR k + a) by (unfold b'; field; lra).
  assert (Q : 0 <= b / INR k <= b / 2). { split; [apply Rmult_le_pos; [lra|left; apply Rinv_0_lt_compat; lra]|]. apply Rmult_le_compat_l; [lra|]. apply Rinv_le_contravar; lra. }
  assert (U' : b' <= 4 * 10 ^ 4 * 4 ^ S r) by (simpl pow in *; lra).
  destruct (Rlt_dec bI_tover b') as [C|_].
  { exfalso. assert (4 ^ S r <= 4 ^ 20) by (apply Rle_pow; [lra|unfold k in Hr; lia]). assert (4 * 10 ^ 4 * 4 ^ 20 <= 10 ^ 20) by lra. assert (10 ^ 20 <= 10 ^ 292) by (apply Rle_pow; [lra|lia]). unfold bI_tover in C. lra. }
  eexists. split; [reflexivity|]. unfold fwd. replace (s + 1 + S r)%nat with k by (unfold k; lia). replace (s + 2 + S r)%nat with (S k) by (unfold k; lia). fold k in K2.
  split; [reflexivity|]. split; [lra|]. split; [lra|]. split; [split; [lra|exact U']|]. split; [intros _; lra|]. split; [exact K2|].
  replace (s + 1 + r)%nat with (pred k) in K1 by (unfold k; lia). assert (Sk : k = S (pred k)) by (unfold k; lia). rewrite Sk at 1. rewrite (K_rec x Px (pred k)), <- Sk.
  pose proof (K_pos x Px (S s)) as Ps. pose proof (K_pos x Px k) as Pk.
  assert (C : (2 * INR k + 1) / INR k <= cj x k). { unfold cj. apply Rmult_le_compat_l; [lra|]. apply Rinv_le_contravar; lra. }
  assert (Pc : 0 <= (2 * INR k + 1) / INR k) by (apply Rmult_le_pos; [lra|left; apply Rinv_0_lt_compat; lra]).
  replace (b' * Kx (S s)) with ((2 * INR k + 1) / INR k * (b * Kx (S s)) + a * Kx (S s)) by (unfold b'; field; lra).
  apply Rplus_le_compat; [|exact K1]. apply Rmult_le_compat; [exact Pc|apply Rmult_le_pos; lra|exact C|exact K2].
Qed.

Lemma fwd_loop c : (s + 1 + c <= 19)%nat -> exists st, foldM climb_to (seq (s + 2) c) (2 * INR (s + 1) + 1, 1, cj x (S s)) = Ok st /\ fwd c st.
Proof.
  intros Hc. apply (loop_ind _ climb_to fwd).
  - unfold fwd. rewrite Nat.add_0_r. pose proof first_p as Fp. pose proof (K_pos x Px (S s)) as P1. pose proof (K_pos x Px s) as P2. simpl pow. replace (s + 1)%nat with (S s) by lia. replace (s + 2 + 0)%nat with (S (S s)) by lia.
    split; [reflexivity|]. split; [lra|]. split; [lra|]. split; [lra|]. split; [lia|]. split; [lra|]. rewrite (K_rec x Px s). lra.
  - intros r st Hr F. apply fwd_step; [lia|exact F].
Qed.

(** ** the start *)
Lemma start_ok nb : (1 <= nb <= 20)%nat -> Z.to_nat (Int_part x) = s ->
  exists N p, start nb x = Ok (N, 2 * INR N + 1, p) /\ (nb <= N)%nat /\ 0 < p /\ p * Kx (S s) <= Kx (S N) /\ 19 * 10 ^ 13 * Kx 0 <= Kx (S N) /\
    forall n, (n < nb)%nat -> 2 * 10 ^ 16 * (Kx n * Kx (S n)) <= Kx (S N) * Kx (S (S N)).
Proof.
  intros Hnb Es. unfold start. rewrite Es. pose proof first_p as Fp. destruct (t0_facts x Px s Hs) as (T1 & T2 & T3 & T4). pose proof (K_pos x Px (S s)) as Ps.
  assert (Een : INR (s + 1 + (s + 1)) + (alpha + alpha) = 2 * INR (s + 1) + 1) by (rewrite plus_INR; unfold alpha; lra). rewrite Een.
  assert (Ep : (2 * INR (s + 1) + 1) / x = cj x (S s)) by (unfold cj; replace (s + 1)%nat with (S s) by lia; reflexivity). rewrite Ep.
  fold (t0 x s). assert (P60 : 2 ^ 60 <= 2 ^ 1000) by (apply Rle_pow; [lra|lia]).
  destruct (Nat.leb_spec (s + 3) nb) as [A|B].
  - set (m := (nb - 1)%nat). replace (m - (s + 2) + 1)%nat with (m - (s + 1))%nat by (unfold m; lia). set (c := (m - (s + 1))%nat).
    destruct (fwd_loop c ltac:(unfold c, m; lia)) as ([[en a] b] & El & _ & A1 & A2 & A3 & A4 & A5 & A6). rewrite El. cbn [bind]. specialize (A4 ltac:(unfold c, m; lia)).
    replace (s + 1 + c)%nat with m in * by (unfold c, m; lia). replace (s + 2 + c)%nat with (S m) in * by (unfold c, m; lia).
    assert (Em : INR (m + m) + (alpha + alpha) = 2 * INR m + 1) by (rewrite plus_INR; unfold alpha; lra). rewrite Em. set (t1 := sqrt (a * bI_ensig) * sqrt (b + b)).
    assert (Q1 : t1 * t1 = 2 * 10 ^ 16 * (a * b)). { unfold t1. transitivity ((sqrt (a * bI_ensig) * sqrt (a * bI_ensig)) * (sqrt (b + b) * sqrt (b + b))); [ring|]. unfold bI_ensig. rewrite !sqrt_sqrt by lra. ring. }
    assert (Q0 : 0 <= t1) by (apply Rmult_le_pos; apply sqrt_pos).
    assert (Tb : Rmax (t0 x s) t1 <= b * 2 ^ 1000).
    { assert (B1 : b * 2 ^ 60 <= b * 2 ^ 1000) by (apply Rmult_le_compat_l; lra). eapply Rle_trans; [|exact B1]. apply Rmax_lub.
      - eapply Rle_trans; [exact T3|]. rewrite Rmult_comm. apply Rmult_le_compat_r; lra.
      - apply Rnot_lt_le. intros L. assert (G1 : (b * 2 ^ 60) * (b * 2 ^ 60) < t1 * t1) by (apply Rmult_le_0_lt_compat; lra). rewrite Q1 in G1. assert (a * b <= b * b) by nra. nra. }
    destruct (climb_ok x Px s Hs 1000 (Rmax (t0 x s) t1) m a b ltac:(unfold m; lia) ltac:(lra) ltac:(lra) ltac:(lia) Tb) as (N & pN & R1 & R2 & R3 & R4 & R5).
    exists N, pN. split; [exact R1|]. split; [unfold m in R2; lia|]. split; [exact R4|]. pose proof (Rmax_l (t0 x s) t1) as M1. pose proof (Rmax_r (t0 x s) t1) as M2.
    assert (K1 : pN * Kx (S s) <= Kx (S N)).
    { assert (R : pN <= / Kx (S s) * Kx (S N)).
      { apply R5; [left; apply Rinv_0_lt_compat, Ps| |]; (apply Rmult_le_reg_r with (Kx (S s)); [exact Ps|]; rewrite (Rmult_comm (/ _)), Rmult_assoc, Rinv_l by lra; lra). }
      apply (Rmult_le_compat_r (Kx (S s))) in R; [|lra]. rewrite (Rmult_comm (/ _)), Rmult_assoc, Rinv_l in R by lra. lra. }
    split; [exact K1|]. split; [eapply Rle_trans; [exact T4|]; eapply Rle_trans; [|exact K1]; apply Rmult_le_compat_r; lra|].
    intros n Hn. pose proof (K_mono x Px n m ltac:(unfold m; lia)) as N1. pose proof (K_mono x Px (S n) (S m) ltac:(unfold m; lia)) as N2. pose proof (K_pos x Px n) as P1. pose proof (K_pos x Px (S n)) as P2. pose proof (K_pos x Px m) as Pm. pose proof (K_pos x Px (S m)) as Pm'. pose proof (K_pos x Px (S N)) as PN. pose proof (K_pos x Px N) as PN'.
    pose proof (cs_ge x Px s Hs m ltac:(unfold m; lia)) as Cm. pose proof (cj_le x Px m (S N) ltac:(lia)) as CN. set (cN := cj x (S N)) in *. set (cm := cj x m) in *.
    apply Rle_trans with (2 * 10 ^ 16 * (Kx m * Kx (S m))); [apply Rmult_le_compat_l; [lra|]; apply Rmult_le_compat; lra|].
    assert (G : cN * (Kx (S N) * Kx (S N)) <= Kx (S N) * Kx (S (S N))). { rewrite (K_rec x Px N). fold cN. assert (0 < Kx (S N) * Kx N) by (apply Rmult_lt_0_compat; lra). lra. }
    eapply Rle_trans; [|exact G]. clear G. assert (PP : 2 * 10 ^ 16 * (a * b) <= pN * pN) by (rewrite <- Q1; apply Rmult_le_compat; lra).
    assert (Kg : Kx (S m) <= (1 + cm) * Kx m) by apply (K_grow x Px m).
    assert (Kl : cm * Kx m <= Kx (S m)). { pose proof (K_rec x Px (pred m)) as E. replace (S (pred m)) with m in E by (unfold m; lia). fold cm in E. pose proof (K_pos x Px (pred m)). lra. }
    destruct (Rle_dec (b * Kx m) (a * Kx (S m))) as [L|L].
    + assert (R : pN * Kx m <= a * Kx (S N)).
      { assert (R : pN <= a / Kx m * Kx (S N)). { apply R5; [left; apply Rdiv_lt_0_compat; lra|apply Req_le; field; lra|]. apply Rmult_le_reg_r with (Kx m); [exact Pm|]. replace (a / Kx m * Kx (S m) * Kx m) with (a * Kx (S m)) by (field; lra). exact L. }
        apply (Rmult_le_compat_r (Kx m)) in R; [|lra]. replace (a / Kx m * Kx (S N) * Kx m) with (a * Kx (S N)) in R by (field; lra). exact R. }
      assert (RR : (pN * Kx m) * (pN * Kx m) <= (a * Kx (S N)) * (a * Kx (S N))) by (apply Rmult_le_compat; try exact R; apply Rmult_le_pos; lra).
      assert (V : 2 * 10 ^ 16 * (a * b) * (Kx m * Kx m) <= a * a * (Kx (S N) * Kx (S N))). { assert (2 * 10 ^ 16 * (a * b) * (Kx m * Kx m) <= pN * pN * (Kx m * Kx m)) by (apply Rmult_le_compat_r; [apply Rmult_le_pos; lra|exact PP]). lra. }
      apply Rmult_le_reg_l with (a * a); [nra|]. replace (a * a * (cN * (Kx (S N) * Kx (S N)))) with (cN * (a * a * (Kx (S N) * Kx (S N)))) by ring.
      apply Rle_trans with (cN * (2 * 10 ^ 16 * (a * b) * (Kx m * Kx m))); [|apply Rmult_le_compat_l; lra].
      replace (a * a * (2 * 10 ^ 16 * (Kx m * Kx (S m)))) with (2 * 10 ^ 16 * a * Kx m * (a * Kx (S m))) by ring. replace (cN * (2 * 10 ^ 16 * (a * b) * (Kx m * Kx m))) with (2 * 10 ^ 16 * a * Kx m * (b * (cN * Kx m))) by ring.
      apply Rmult_le_compat_l; [apply Rmult_le_pos; [lra|lra]|]. apply Rle_trans with ((2 * a) * (cN * Kx m)); [|apply Rmult_le_compat_r; [apply Rmult_le_pos; lra|lra]].
      replace (2 * a * (cN * Kx m)) with (a * (2 * cN * Kx m)) by ring. apply Rmult_le_compat_l; [lra|]. eapply Rle_trans; [exact Kg|]. apply Rmult_le_compat_r; lra.
    + assert (R : pN * Kx (S m) <= b * Kx (S N)).
      { assert (R : pN <= b / Kx (S m) * Kx (S N)). { apply R5; [left; apply Rdiv_lt_0_compat; lra| |apply Req_le; field; lra]. apply Rmult_le_reg_r with (Kx (S m)); [exact Pm'|]. replace (b / Kx (S m) * Kx m * Kx (S m)) with (b * Kx m) by (field; lra). lra. }
        apply (Rmult_le_compat_r (Kx (S m))) in R; [|lra]. replace (b / Kx (S m) * Kx (S N) * Kx (S m)) with (b * Kx (S N)) in R by (field; lra). exact R. }
      assert (RR : (pN * Kx (S m)) * (pN * Kx (S m)) <= (b * Kx (S N)) * (b * Kx (S N))) by (apply Rmult_le_compat; try exact R; apply Rmult_le_pos; lra).
      assert (V : 2 * 10 ^ 16 * (a * b) * (Kx (S m) * Kx (S m)) <= b * b * (Kx (S N) * Kx (S N))). { assert (2 * 10 ^ 16 * (a * b) * (Kx (S m) * Kx (S m)) <= pN * pN * (Kx (S m) * Kx (S m))) by (apply Rmult_le_compat_r; [apply Rmult_le_pos; lra|exact PP]). lra. }
      apply Rmult_le_reg_l with (b * b); [nra|]. replace (b * b * (cN * (Kx (S N) * Kx (S N)))) with (cN * (b * b * (Kx (S N) * Kx (S N)))) by ring.
      apply Rle_trans with (cN * (2 * 10 ^ 16 * (a * b) * (Kx (S m) * Kx (S m)))); [|apply Rmult_le_compat_l; lra].
      replace (b * b * (2 * 10 ^ 16 * (Kx m * Kx (S m)))) with (2 * 10 ^ 16 * b * Kx (S m) * (b * Kx m)) by ring. replace (cN * (2 * 10 ^ 16 * (a * b) * (Kx (S m) * Kx (S m)))) with (2 * 10 ^ 16 * b * Kx (S m) * (a * (cN * Kx (S m)))) by ring.
      apply Rmult_le_compat_l; [apply Rmult_le_pos; lra|]. apply Rle_trans with ((4 * a) * Kx m); [apply Rmult_le_compat_r; lra|]. replace (4 * a * Kx m) with (a * (2 * (2 * Kx m))) by ring. apply Rmult_le_compat_l; [lra|].
      apply Rmult_le_compat; [lra|lra|lra|]. eapply Rle_trans; [|exact Kl]. apply Rmult_le_compat_r; lra.
  - assert (Tb : t0 x s <= cj x (S s) * 2 ^ 1000) by (eapply Rle_trans; [exact T3|]; rewrite Rmult_comm; apply Rmult_le_compat_l; lra).
    replace (s + 1)%nat with (S s) by lia.
    destruct (climb_ok x Px s Hs 1000 (t0 x s) (S s) 1 (cj x (S s)) ltac:(lia) ltac:(lra) ltac:(lra) ltac:(lia) Tb) as (N & pN & R1 & R2 & R3 & R4 & R5).
    exists N, pN. split; [exact R1|]. split; [lia|]. split; [exact R4|].
    assert (K1 : pN * Kx (S s) <= Kx (S N)).
    { assert (R : pN <= / Kx (S s) * Kx (S N)).
      { apply R5; [left; apply Rinv_0_lt_compat, Ps|rewrite Rinv_l by lra; lra|]. rewrite (K_rec x Px s). pose proof (K_pos x Px s). replace (/ Kx (S s) * (cj x (S s) * Kx (S s) + Kx s)) with (cj x (S s) + / Kx (S s) * Kx s) by (field; lra).
        assert (0 < / Kx (S s) * Kx s) by (apply Rmult_lt_0_compat; [apply Rinv_0_lt_compat|]; lra). lra. }
      apply (Rmult_le_compat_r (Kx (S s))) in R; [|lra]. rewrite (Rmult_comm (/ _)), Rmult_assoc, Rinv_l in R by lra. lra. }
    split; [exact K1|]. split; [eapply Rle_trans; [exact T4|]; eapply Rle_trans; [|exact K1]; apply Rmult_le_compat_r; lra|].
    intros n Hn. pose proof (K_mono x Px n (S s) ltac:(lia)) as N1. pose proof (K_mono x Px (S n) (S (S s)) ltac:(lia)) as N2. pose proof (K_pos x Px n) as P1. pose proof (K_pos x Px (S n)) as P2. pose proof (K_pos x Px (S (S s))) as Ps'. pose proof (K_pos x Px (S N)) as PN. pose proof (K_pos x Px N) as PN'.
    pose proof (cj_le x Px (S s) (S N) ltac:(lia)) as CN. pose proof (proj2 (K_grow x Px (S s))) as Kg. set (c := cj x (S s)) in *. set (cN := cj x (S N)) in *.
    apply Rle_trans with (2 * 10 ^ 16 * (Kx (S s) * Kx (S (S s)))); [apply Rmult_le_compat_l; [lra|]; apply Rmult_le_compat; lra|].
    assert (G : cN * (Kx (S N) * Kx (S N)) <= Kx (S N) * Kx (S (S N))). { rewrite (K_rec x Px N). fold cN. assert (0 < Kx (S N) * Kx N) by (apply Rmult_lt_0_compat; lra). lra. }
    eapply Rle_trans; [|exact G]. clear G. assert (W : t0 x s * Kx (S s) <= Kx (S N)) by (eapply Rle_trans; [|exact K1]; apply Rmult_le_compat_r; lra).
    assert (WW : (t0 x s * Kx (S s)) * (t0 x s * Kx (S s)) <= Kx (S N) * Kx (S N)) by (apply Rmult_le_compat; try exact W; apply Rmult_le_pos; lra).
    assert (V : 3 * 10 ^ 16 * (Kx (S s) * Kx (S s)) <= Kx (S N) * Kx (S N)). { assert (3 * 10 ^ 16 * (Kx (S s) * Kx (S s)) <= t0 x s * t0 x s * (Kx (S s) * Kx (S s))) by (apply Rmult_le_compat_r; [apply Rmult_le_pos; lra|exact T2]). lra. }
    apply Rle_trans with (c * (3 * 10 ^ 16 * (Kx (S s) * Kx (S s)))).
    + replace (2 * 10 ^ 16 * (Kx (S s) * Kx (S (S s)))) with (10 ^ 16 * Kx (S s) * (2 * Kx (S (S s)))) by ring. replace (c * (3 * 10 ^ 16 * (Kx (S s) * Kx (S s)))) with (10 ^ 16 * Kx (S s) * (3 * c * Kx (S s))) by ring.
      apply Rmult_le_compat_l; [apply Rmult_le_pos; lra|]. apply Rle_trans with (2 * ((1 + c) * Kx (S s))); [lra|]. rewrite <- Rmult_assoc. apply Rmult_le_compat_r; lra.
    + apply Rle_trans with (cN * (3 * 10 ^ 16 * (Kx (S s) * Kx (S s)))); [apply Rmult_le_compat_r; [apply Rmult_le_pos; [lra|apply Rmult_le_pos; lra]|exact CN]|apply Rmult_le_compat_l; [lra|exact V]].
Qed.
End F.
