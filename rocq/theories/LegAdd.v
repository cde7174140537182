(** The addition theorem of the Legendre polynomials, and the bound by 1. *)
From Coq Require Import Reals List Lia Lra Psatz.
From Verif Require Import LegSpec LegProofs.
Open Scope R_scope.

Definition w (n m : nat) : R := INR (fact (n - m)) / INR (fact (n + m)).
Definition eps (m : nat) : R := match m with O => 1 | S _ => 2 end.

Lemma w_pos n m : 0 < w n m.
Proof. apply Rdiv_lt_0_compat; apply INR_fact_lt_0. Qed.

Lemma w_0 n : w n 0 = 1.
Proof. unfold w. rewrite Nat.sub_0_r, Nat.add_0_r. field. apply INR_fact_neq_0. Qed.

(** one step in either index; [n = m + k] *)
Lemma w_n m k : w (S (m + k)) m * (2 * INR m + INR k + 1) = w (m + k) m * (INR k + 1).
Proof.
  unfold w. replace (S (m + k) - m)%nat with (S k) by lia. replace (m + k - m)%nat with k by lia. replace (S (m + k) + m)%nat with (S (m + k + m)) by lia.
  rewrite !fact_S_INR, !plus_INR. pose proof (pos_INR m). pose proof (pos_INR k). field. split; [apply INR_fact_neq_0|lra].
Qed.
Lemma w_m m k : w (m + S k) m = w (m + S k) (S m) * (INR k + 1) * (2 * INR m + INR k + 2).
Proof.
  unfold w. replace (m + S k - m)%nat with (S k) by lia. replace (m + S k - S m)%nat with k by lia. replace (m + S k + S m)%nat with (S (m + S k + m)) by lia.
  rewrite !fact_S_INR, !plus_INR, S_INR. pose proof (pos_INR m). pose proof (pos_INR k). field. split; [apply INR_fact_neq_0|lra].
Qed.

Section Addition.
Variables a b z : R.
Let s2 := (1 - a * a) * (1 - b * b).
Variable c : nat -> R.
Hypothesis c0 : c 0%nat = 1.
Hypothesis c1 : c 1%nat = z.
Hypothesis cS : forall m, c (S (S m)) = 2 * z * c (S m) - s2 * c m.

Definition E n m := w n m * (D n m a * D n m b).

Lemma E_high n m : (n < m)%nat -> E n m = 0.
Proof. intros H. unfold E. rewrite D_high by exact H. ring. Qed.

Lemma E_rec n m : 2 * (INR n + 2) * E (S (S n)) (S m) - 2 * (2 * INR n + 3) * (a * b) * E (S n) (S m) + 2 * (INR n + 1) * E n (S m) =
  (2 * INR n + 3) * (E (S n) m + s2 * E (S n) (S (S m))).
Proof.
  pose proof (pos_INR n) as Pn. pose proof (pos_INR m) as Pm.
  pose proof (D_rec n (S m) a) as Ra. pose proof (D_rec n (S m) b) as Rb. pose proof (D_step n m a) as Sa. pose proof (D_step n m b) as Sb.
  pose proof (D_raise n (S m) a) as Ta. pose proof (D_raise n (S m) b) as Tb. rewrite S_INR in Ra, Rb, Ta, Tb.
  set (N := 2 * INR n + 3) in *. assert (HN : 0 < N) by (unfold N; lra).
  apply Rmult_eq_reg_l with N; [|lra].
  destruct (Nat.lt_trichotomy m n) as [Lt | [Eq | Gt]].
  - destruct (Nat.le_exists_sub (S m) n Lt) as (k & Hk & _). 
    assert (Wa : w (S (S n)) (S m) * (INR n + INR m + 3) = w (S n) (S m) * (INR n + 1 - INR m)).
    { pose proof (w_n (S m) (S k)) as H. replace (S m + S k)%nat with (S n) in H by lia. rewrite !S_INR in H. replace (INR n) with (INR k + (INR m + 1)) by (rewrite <- S_INR, <- plus_INR; f_equal; lia). lra. }
    assert (Wb : w (S n) (S m) * (INR n + INR m + 2) = w n (S m) * (INR n - INR m)).
    { pose proof (w_n (S m) k) as H. replace (S m + k)%nat with n in H by lia. rewrite !S_INR in H. replace (INR n) with (INR k + (INR m + 1)) by (rewrite <- S_INR, <- plus_INR; f_equal; lia). lra. }
    assert (Wc : w (S n) m = w (S n) (S m) * (INR n + 1 - INR m) * (INR n + INR m + 2)).
    { pose proof (w_m m (S k)) as H. replace (m + S (S k))%nat with (S n) in H by lia. rewrite !S_INR in H. replace (INR n) with (INR k + (INR m + 1)) by (rewrite <- S_INR, <- plus_INR; f_equal; lia). rewrite H. ring. }
    assert (Wd : w (S n) (S m) = w (S n) (S (S m)) * (INR n - INR m) * (INR n + INR m + 3)).
    { pose proof (w_m (S m) k) as H. replace (S m + S k)%nat with (S n) in H by lia. rewrite !S_INR in H. replace (INR n) with (INR k + (INR m + 1)) by (rewrite <- S_INR, <- plus_INR; f_equal; lia). rewrite H. ring. }
    assert (Dnm : 1 <= INR n - INR m). { replace (INR n) with (INR k + (INR m + 1)) by (rewrite <- S_INR, <- plus_INR; f_equal; lia). pose proof (pos_INR k). lra. }
    unfold E. set (W := w (S n) (S m)) in *. set (W1 := w (S (S n)) (S m)) in *. set (W2 := w n (S m)) in *. set (W4 := w (S n) (S (S m))) in *. rewrite Wc.
    assert (E1 : W1 = W * (INR n + 1 - INR m) / (INR n + INR m + 3)) by (rewrite <- Wa; field; lra).
    assert (E2 : W2 = W * (INR n + INR m + 2) / (INR n - INR m)) by (rewrite Wb; field; lra).
    assert (E4 : W4 = W / ((INR n - INR m) * (INR n + INR m + 3))) by (rewrite Wd; field; lra).
    rewrite E1, E2, E4. clear Wa Wb Wc Wd E1 E2 E4 W1 W2 W4.
    set (p := D (S (S n)) (S m) a) in *. set (p' := D (S (S n)) (S m) b) in *. set (q := D n (S m) a) in *. set (q' := D n (S m) b) in *.
    transitivity (2 * (INR n + 2) * N * (W * (INR n + 1 - INR m) / (INR n + INR m + 3)) * (p * p') - 2 * W * ((N * a * D (S n) (S m) a) * (N * b * D (S n) (S m) b))
      + 2 * (INR n + 1) * N * (W * (INR n + INR m + 2) / (INR n - INR m)) * (q * q')); [ring|].
    transitivity (W * (INR n + 1 - INR m) * (INR n + INR m + 2) * ((N * D (S n) m a) * (N * D (S n) m b)) +
      W / ((INR n - INR m) * (INR n + INR m + 3)) * ((N * (1 - a * a) * D (S n) (S (S m)) a) * (N * (1 - b * b) * D (S n) (S (S m)) b))); [|unfold s2; ring].
    rewrite Ra, Rb, Ta, Tb, <- Sa, <- Sb. unfold N. field. lra.
  - subst m. rewrite (E_high n (S n)), (E_high (S n) (S (S n))) by lia. rewrite (D_high n (S n)) in Ra, Rb, Sa, Sb by lia.
    unfold E, w. replace (S (S n) - S n)%nat with 1%nat by lia. replace (S n - S n)%nat with 0%nat by lia. replace (S n - n)%nat with 1%nat by lia.
    replace (S (S n) + S n)%nat with (S (S (S (n + n)))) by lia. replace (S n + S n)%nat with (S (S (n + n))) by lia. replace (S n + n)%nat with (S (n + n)) by lia.
    rewrite (fact_S_INR (S (S (n + n)))), (fact_S_INR (S (n + n))), !S_INR, plus_INR. simpl (fact 1). simpl (fact 0). simpl (INR 1).
    pose proof (INR_fact_lt_0 (S (n + n))) as F. set (f := INR (fact (S (n + n)))) in *.
    set (p := D (S (S n)) (S n) a) in *. set (p' := D (S (S n)) (S n) b) in *.
    transitivity (2 * (INR n + 2) * N * (1 / ((INR n + INR n + 1 + 1 + 1) * ((INR n + INR n + 1 + 1) * f))) * (p * p') - 2 / ((INR n + INR n + 1 + 1) * f) * ((N * a * D (S n) (S n) a) * (N * b * D (S n) (S n) b))); [unfold N; field; lra|].
    transitivity (1 / f * ((N * D (S n) n a) * (N * D (S n) n b))); [|field; lra].
    rewrite Ra, Rb, <- Sa, <- Sb. unfold N. field. lra.
  - rewrite (E_high n (S m)), (E_high (S n) (S m)), (E_high (S n) (S (S m))) by lia. rewrite (D_high n (S m)) in Sa, Sb by lia.
    destruct (Nat.eq_dec m (S n)) as [->|Ne]; [|rewrite (E_high (S (S n))), (E_high (S n)) by lia; ring].
    unfold E, w. replace (S (S n) - S (S n))%nat with 0%nat by lia. replace (S n - S n)%nat with 0%nat by lia. 
    replace (S (S n) + S (S n))%nat with (S (S (S n + S n))) by lia. rewrite !fact_S_INR, !S_INR, plus_INR, S_INR. simpl (fact 0). simpl (INR 1).
    pose proof (INR_fact_lt_0 (S n + S n)) as F. set (f := INR (fact (S n + S n))) in *.
    set (p := D (S (S n)) (S (S n)) a) in *. set (p' := D (S (S n)) (S (S n)) b) in *.
    transitivity (2 * (INR n + 2) * N * (1 / ((INR n + 1 + (INR n + 1) + 1 + 1) * ((INR n + 1 + (INR n + 1) + 1) * f))) * (p * p')); [unfold N; field; lra|].
    transitivity (1 / f * ((N * D (S n) (S n) a) * (N * D (S n) (S n) b))); [|field; lra].
    rewrite <- Sa, <- Sb. unfold N. field. lra.
Qed.

Lemma E_rec0 n : (INR n + 2) * E (S (S n)) 0 - (2 * INR n + 3) * (a * b) * E (S n) 0 + (INR n + 1) * E n 0 = (2 * INR n + 3) * (s2 * E (S n) 1).
Proof.
  pose proof (pos_INR n) as Pn.
  pose proof (D_rec n 0 a) as Ra. pose proof (D_rec n 0 b) as Rb. 
  pose proof (D_raise n 0 a) as Ta. pose proof (D_raise n 0 b) as Tb. simpl (INR 0) in *.
  set (N := 2 * INR n + 3) in *. assert (HN : 0 < N) by (unfold N; lra).
  apply Rmult_eq_reg_l with N; [|lra].
  assert (W1 : w (S n) 1 = 1 / ((INR n + 1) * (INR n + 2))).
  { pose proof (w_m 0 n) as H. rewrite w_0 in H. simpl (INR 0) in H. cbn [Nat.add] in H. apply Rmult_eq_reg_l with ((INR n + 1) * (INR n + 2)); [|nra]. field_simplify_eq; [|lra]. lra. }
  unfold E. rewrite !w_0, W1.
  transitivity ((INR n + 2) * N * (D (S (S n)) 0 a * D (S (S n)) 0 b) - (N * a * D (S n) 0 a) * (N * b * D (S n) 0 b) + (INR n + 1) * N * (D n 0 a * D n 0 b)); [ring|].
  transitivity (1 / ((INR n + 1) * (INR n + 2)) * ((N * (1 - a * a) * D (S n) 1 a) * (N * (1 - b * b) * D (S n) 1 b))); [|unfold s2; ring].
  rewrite Ra, Rb, Ta, Tb. unfold N. field. lra.
Qed.

Definition A n N := sum_f_R0 (fun m => eps m * E n m * c m) N.

Lemma A_z n N : z * A n N = s2 * E n 1 + sum_f_R0 (fun m => match m with O => 0 | S m' => (E n m' + s2 * E n (S m)) * c m end) N
  + E n N * c (S N) - s2 * E n (S N) * c N.
Proof.
  unfold A. induction N as [|N IH]; cbn [sum_f_R0]; [cbn [eps]; rewrite c0, c1; ring|].
  rewrite Rmult_plus_distr_l, IH. rewrite (cS N). cbn [eps]. ring.
Qed.

Lemma A_comb n N : (INR n + 2) * A (S (S n)) N - (2 * INR n + 3) * (a * b) * A (S n) N + (INR n + 1) * A n N =
  (2 * INR n + 3) * (s2 * E (S n) 1 + sum_f_R0 (fun m => match m with O => 0 | S m' => (E (S n) m' + s2 * E (S n) (S m)) * c m end) N).
Proof.
  unfold A. induction N as [|N IH]; cbn [sum_f_R0].
  - cbn [eps]. rewrite c0. pose proof (E_rec0 n). lra.
  - cbn [eps]. pose proof (E_rec n N) as H. apply (f_equal (fun t => t * c (S N))) in H. lra.
Qed.

Lemma A_stable n N : (n <= N)%nat -> A n N = A n n.
Proof.
  induction N as [|N IH]; intros H; [replace n with 0%nat by lia; reflexivity|].
  destruct (Nat.eq_dec n (S N)) as [->|Ne]; [reflexivity|]. rewrite <- IH by lia. unfold A. cbn [sum_f_R0]. rewrite (E_high n (S N)) by lia. ring.
Qed.

Lemma A_legendre n : A n n = D n 0 (a * b + z) /\ A (S n) (S n) = D (S n) 0 (a * b + z).
Proof.
  induction n as [|n [I1 I2]].
  - split.
    + unfold A, E. cbn [sum_f_R0 eps]. rewrite !D_0_0, w_0, c0. ring.
    + unfold A, E. cbn [sum_f_R0 eps]. rewrite !D_1_0, !D_1_1, w_0, c0, c1. unfold w. simpl. field.
  - split; [exact I2|]. pose proof (A_comb n (S (S n))) as H. pose proof (A_z (S n) (S (S n))) as Hz.
    rewrite (E_high (S n) (S (S n))), (E_high (S n) (S (S (S n)))) in Hz by lia.
    rewrite (A_stable n (S (S n))), (A_stable (S n) (S (S n))) in * by lia.
    pose proof (D_rec n 0 (a * b + z)) as R. simpl (INR 0) in R. rewrite <- I1, <- I2 in R. pose proof (pos_INR n).
    apply Rmult_eq_reg_l with (INR n + 2); [|lra].
    set (S0 := sum_f_R0 _ _) in *. assert (Hz' : z * A (S n) (S n) = s2 * E (S n) 1 + S0) by lra. apply (f_equal (fun t => (2 * INR n + 3) * t)) in Hz'. lra.
Qed.

End Addition.

(** the addition theorem, with [c] the sequence s^m cos (m phi) *)
Lemma addition a b z c n : c 0%nat = 1 -> c 1%nat = z -> (forall m, c (S (S m)) = 2 * z * c (S m) - (1 - a * a) * (1 - b * b) * c m) ->
  sum_f_R0 (fun m => eps m * (w n m * (D n m a * D n m b)) * c m) n = D n 0 (a * b + z).
Proof. intros H0 H1 H2. exact (proj1 (A_legendre a b z c H0 H1 H2 n)). Qed.

Lemma sum_first f N : (forall m, 0 <= f m) -> f 0%nat <= sum_f_R0 f N.
Proof. intros H. induction N as [|N IH]; cbn [sum_f_R0]; [lra|]. pose proof (H (S N)). lra. Qed.

(** |P_n(x)| <= 1 on [-1, 1]: the addition theorem at a = b *)
Lemma legendre_le_1 n x : -1 <= x <= 1 -> Rabs (D n 0 x) <= 1.
Proof.
  intros Hx. assert (P : 0 <= 1 - x * x) by nra.
  pose proof (addition x x (1 - x * x) (fun m => (1 - x * x) ^ m) n eq_refl ltac:(simpl; ring) ltac:(intros m; simpl; ring)) as H. cbn beta in H.
  replace (x * x + (1 - x * x)) with 1 in H by ring. rewrite (proj1 (D_one n)) in H.
  pose proof (sum_first (fun m => eps m * (w n m * (D n m x * D n m x)) * (1 - x * x) ^ m) n) as L. cbn beta in L. rewrite H in L. lapply L; clear L; [intros L|].
  2: { intros m. apply Rmult_le_pos; [|apply pow_le; exact P]. apply Rmult_le_pos; [destruct m; cbn [eps]; lra|]. apply Rmult_le_pos; [left; apply w_pos|nra]. }
  cbn [eps pow] in L. rewrite w_0 in L. apply Rabs_le. nra.
Qed.
