(** The recurrences of generate_dmatrix_of_beta compute the matrices of a rotation. *)
From Coq Require Import Reals ZArith List Lia Lra Psatz.
From Coquelicot Require Import Coquelicot.
From Verif Require Import Base ListFacts LegSpec LegProofs LegAdd LapModel LapArrays LapProofs SolidProofs SolidAdd SolidPair TranModel TranArrays.
Import ListNotations.
Open Scope R_scope.

Definition sq (a b : nat) : R := sqrt (INR (a * b)).
Lemma sq_0_l b : sq 0 b = 0.
Proof. unfold sq. rewrite Nat.mul_0_l. apply sqrt_0. Qed.
Lemma sq_0_r a : sq a 0 = 0.
Proof. unfold sq. rewrite Nat.mul_0_r. apply sqrt_0. Qed.

(** ** the recurrence *)
Definition three (al be ga : R) (n : nat) (f : nat -> R) (k : nat) : R :=
  al * (sq (2 * S n - k) (2 * S n - k - 1) * f k) + be * (sq (2 * S n - k) k * f (k - 1)%nat) + ga * (sq k (k - 1) * f (k - 2)%nat).

Lemma nf_alt n k : nf n k = sqrt (INR (fact k * fact (2 * n - k))).
Proof. unfold nf. rewrite mult_INR. reflexivity. Qed.
Lemma nf_scale a b x y z : (a * b * x = z)%nat -> (0 < z)%nat -> (0 < x)%nat -> sq a b * (y / sqrt (INR z)) = y / sqrt (INR x).
Proof.
  intros E Hz Hx. unfold sq. rewrite <- E, (mult_INR (a * b) x), sqrt_mult by apply pos_INR.
  assert (0 < a * b)%nat by (destruct (a * b)%nat; lia). assert (0 < sqrt (INR (a * b))) by (apply sqrt_lt_R0, lt_0_INR; assumption). assert (0 < sqrt (INR x)) by (apply sqrt_lt_R0, lt_0_INR; assumption). field. lra.
Qed.
Lemma fact_pos n : (0 < fact n)%nat.
Proof. pose proof (fact_neq_0 n). lia. Qed.
Lemma fact_two x : fact (S (S x)) = (S (S x) * S x * fact x)%nat.
Proof. cbn [fact]. lia. Qed.
Ltac fpos := repeat first [apply Nat.mul_pos_pos | apply fact_pos | lia].

Lemma mono_hi n k u v : (k <= 2 * n)%nat -> sq (2 * S n - k) (2 * S n - k - 1) * mono (S n) k u v = v * v * mono n k u v.
Proof.
  intros Hk. unfold mono. rewrite !nf_alt. replace (2 * S n - k)%nat with (S (S (2 * n - k))) by lia. replace (S (S (2 * n - k)) - 1)%nat with (S (2 * n - k)) by lia.
  rewrite (nf_scale _ _ (fact k * fact (2 * n - k))) by (try rewrite fact_two; fpos). simpl pow. unfold Rdiv. ring.
Qed.
Lemma mono_mid n k u v : (k <= 2 * n)%nat -> sq (2 * S n - S k) (S k) * mono (S n) (S k) u v = u * v * mono n k u v.
Proof.
  intros Hk. unfold mono. rewrite !nf_alt. replace (2 * S n - S k)%nat with (S (2 * n - k)) by lia.
  rewrite (nf_scale _ _ (fact k * fact (2 * n - k))) by (cbn [fact]; try fpos; ring). simpl pow. unfold Rdiv. ring.
Qed.
Lemma mono_lo n k u v : (k <= 2 * n)%nat -> sq (S (S k)) (S (S k) - 1) * mono (S n) (S (S k)) u v = u * u * mono n k u v.
Proof.
  intros Hk. unfold mono. rewrite !nf_alt. replace (2 * S n - S (S k))%nat with (2 * n - k)%nat by lia. replace (S (S k) - 1)%nat with (S k) by lia.
  rewrite (nf_scale _ _ (fact k * fact (2 * n - k))) by (try rewrite fact_two; try fpos; ring). simpl pow. unfold Rdiv. ring.
Qed.

Lemma three_sum al be ga n f u v :
  rsum (fun k => three al be ga n f k * mono (S n) k u v) (S (2 * S n)) = (al * (v * v) + be * (u * v) + ga * (u * u)) * rsum (fun k => f k * mono n k u v) (S (2 * n)).
Proof.
  transitivity (al * rsum (fun k => sq (2 * S n - k) (2 * S n - k - 1) * mono (S n) k u v * f k) (S (2 * S n)) + be * rsum (fun k => sq (2 * S n - k) k * mono (S n) k u v * f (k - 1)%nat) (S (2 * S n)) + ga * rsum (fun k => sq k (k - 1) * mono (S n) k u v * f (k - 2)%nat) (S (2 * S n))).
  { rewrite <- !rsum_scal, <- !rsum_plus. apply rsum_ext. intros k _. unfold three. ring. }
  assert (HI : rsum (fun k => sq (2 * S n - k) (2 * S n - k - 1) * mono (S n) k u v * f k) (S (2 * S n)) = v * v * rsum (fun k => f k * mono n k u v) (S (2 * n))).
  { replace (S (2 * S n)) with (S (S (S (2 * n)))) by lia. cbn [rsum]. replace (2 * S n - S (S (2 * n)))%nat with 0%nat by lia. replace (2 * S n - S (2 * n) - 1)%nat with 0%nat by lia. rewrite sq_0_l, sq_0_r.
    change (rsum (fun k => f k * mono n k u v) (2 * n) + f (2 * n)%nat * mono n (2 * n) u v) with (rsum (fun k => f k * mono n k u v) (S (2 * n))).
    match goal with |- ?A + ?B + ?C1 + ?D1 = _ => transitivity (A + B); [ring|] end.
    change (rsum (fun k => sq (2 * S n - k) (2 * S n - k - 1) * mono (S n) k u v * f k) (S (2 * n)) = v * v * rsum (fun k => f k * mono n k u v) (S (2 * n))).
    rewrite <- rsum_scal. apply rsum_ext. intros k Hk. rewrite mono_hi by lia. ring. }
  assert (MI : rsum (fun k => sq (2 * S n - k) k * mono (S n) k u v * f (k - 1)%nat) (S (2 * S n)) = u * v * rsum (fun k => f k * mono n k u v) (S (2 * n))).
  { rewrite rsum_shift, sq_0_r. set (g := fun k => sq (2 * S n - S k) (S k) * mono (S n) (S k) u v * f (S k - 1)%nat). replace (rsum g (2 * S n)) with (rsum g (S (2 * n)) + g (S (2 * n))) by (replace (2 * S n)%nat with (S (S (2 * n))) by lia; reflexivity).
    assert (G0 : g (S (2 * n)) = 0) by (unfold g; replace (2 * S n - S (S (2 * n)))%nat with 0%nat by lia; rewrite sq_0_l; ring). rewrite G0.
    match goal with |- ?A + (?B + ?C1) = _ => transitivity B; [ring|] end. rewrite <- rsum_scal. apply rsum_ext. intros k Hk. unfold g. rewrite mono_mid by lia. replace (S k - 1)%nat with k by lia. ring. }
  assert (LO : rsum (fun k => sq k (k - 1) * mono (S n) k u v * f (k - 2)%nat) (S (2 * S n)) = u * u * rsum (fun k => f k * mono n k u v) (S (2 * n))).
  { rewrite rsum_shift, sq_0_l. set (g := fun k => sq (S k) (S k - 1) * mono (S n) (S k) u v * f (S k - 2)%nat). replace (rsum g (2 * S n)) with (rsum g (S (S (2 * n)))) by (f_equal; lia). rewrite rsum_shift.
    assert (G0 : g 0%nat = 0) by (unfold g; replace (1 - 1)%nat with 0%nat by lia; rewrite sq_0_r; ring). rewrite G0.
    match goal with |- ?A + (?B + ?C1) = _ => transitivity C1; [ring|] end. rewrite <- rsum_scal. apply rsum_ext. intros k Hk. unfold g. rewrite mono_lo by lia. replace (S (S k) - 2)%nat with k by lia. ring. }
  rewrite HI, MI, LO. ring.
Qed.

Fixpoint dw (cb sb_ : R) (n mp : nat) : nat -> R :=
  match n with
  | O => fun _ => 1
  | S n' => match mp with
    | O => fun k => three (- sb_ * (1 / 2)) cb (sb_ * (1 / 2)) n' (dw cb sb_ n' 0) k / INR (S n')
    | S m => fun k => three ((1 - cb) / 2) (- sb_) ((1 + cb) / 2) n' (dw cb sb_ n' m) k * (1 / sq (S n' + S m) (S n' + S m - 1))
    end
  end.

Lemma nf_mid n : nf n n = INR (fact n).
Proof. unfold nf. replace (2 * n - n)%nat with n by lia. apply sqrt_square, pos_INR. Qed.

Lemma dw_wigner c s n : c * c + s * s = 1 -> wigner c s (dw (c * c - s * s) (2 * c * s) n) n.
Proof.
  intros cs1. induction n as [|n IH]; intros m Hm u v.
  - replace m with 0%nat by lia. cbn [dw Nat.mul rsum Nat.add]. unfold mono. replace (nf 0 0) with 1 by (rewrite (nf_mid 0); reflexivity). simpl. field.
  - destruct m as [|m].
    + cbn [dw]. transitivity (/ INR (S n) * rsum (fun k => three (- (2 * c * s) * (1 / 2)) (c * c - s * s) (2 * c * s * (1 / 2)) n (dw (c * c - s * s) (2 * c * s) n 0) k * mono (S n) k u v) (S (2 * S n))).
      { rewrite <- rsum_scal. apply rsum_ext. intros k _. unfold Rdiv. ring. }
      rewrite three_sum, (IH 0%nat) by lia. unfold mono. rewrite !Nat.add_0_r, !nf_mid. replace (2 * n - n)%nat with n by lia. replace (2 * S n - S n)%nat with (S n) by lia.
      rewrite fact_S_INR, S_INR. pose proof (INR_fact_lt_0 n). pose proof (pos_INR n). simpl pow. field. lra.
    + cbn [dw]. replace (S n + S m - 1)%nat with (S (n + m)) by lia. replace (S n + S m)%nat with (S (S (n + m))) by lia. set (F := sq (S (S (n + m))) (S (n + m))).
      assert (PF : 0 < F) by (unfold F, sq; apply sqrt_lt_R0, lt_0_INR; fpos).
      transitivity (1 / F * rsum (fun k => three ((1 - (c * c - s * s)) / 2) (- (2 * c * s)) ((1 + (c * c - s * s)) / 2) n (dw (c * c - s * s) (2 * c * s) n m) k * mono (S n) k u v) (S (2 * S n))).
      { rewrite <- rsum_scal. apply rsum_ext. intros k _. ring. }
      rewrite three_sum, (IH m) by lia. replace ((1 - (c * c - s * s)) / 2) with (s * s) by (rewrite <- cs1; field). replace ((1 + (c * c - s * s)) / 2) with (c * c) by (rewrite <- cs1; field).
      set (u' := c * u - s * v). set (v' := s * u + c * v).
      assert (Em : F * mono (S n) (S (S (n + m))) u' v' = u' * u' * mono n (n + m) u' v').
      { unfold F. pose proof (mono_lo n (n + m) u' v' ltac:(lia)) as E. replace (S (S (n + m)) - 1)%nat with (S (n + m)) in E by lia. exact E. }
      apply Rmult_eq_reg_l with F; [|lra]. rewrite Em. unfold u'. field. lra.
Qed.

(** the matrices for the opposite angle *)
Lemma sgn_cancel n k : (k <= 2 * n)%nat -> (-1) ^ (2 * n - k) = (-1) ^ k.
Proof.
  intros Hk. transitivity ((-1) ^ (2 * n - k) * ((-1) ^ k * (-1) ^ k)); [rewrite sgn_sq; ring|]. rewrite <- Rmult_assoc, <- pow_add. replace (2 * n - k + k)%nat with (2 * n)%nat by lia. rewrite pow_mult. replace ((-1) ^ 2) with 1 by ring. rewrite pow1. ring.
Qed.
Lemma mono_neg n k u v : (k <= 2 * n)%nat -> mono n k u (- v) = (-1) ^ k * mono n k u v.
Proof. intros Hk. unfold mono. replace (- v) with (-1 * v) by ring. rewrite Rpow_mult_distr, sgn_cancel by exact Hk. unfold Rdiv. ring. Qed.

Lemma wigner_neg c s a n : wigner c s a n -> wigner c (- s) (fun m k => (-1) ^ (n + m + k) * a m k) n.
Proof.
  intros W m Hm u v. transitivity ((-1) ^ (n + m) * rsum (fun k => a m k * mono n k u (- v)) (S (2 * n))).
  { rewrite <- rsum_scal. apply rsum_ext. intros k Hk. rewrite mono_neg, pow_add by lia. ring. }
  rewrite W by exact Hm. replace (s * u + c * - v) with (- (- s * u + c * v)) by ring. replace (c * u - s * - v) with (c * u - - s * v) by ring. rewrite mono_neg by lia.
  rewrite <- Rmult_assoc, sgn_sq. ring.
Qed.
Lemma wigner_ext c s a b n : (forall m k, (m <= n)%nat -> (k <= 2 * n)%nat -> a m k = b m k) -> wigner c s a n -> wigner c s b n.
Proof. intros E W m Hm u v. rewrite <- W by exact Hm. apply rsum_ext. intros k Hk. rewrite E by lia. reflexivity. Qed.
