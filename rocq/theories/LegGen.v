(** The generating function of the Legendre polynomials and its truncation error. *)
From Coq Require Import Reals List Lia Lra Psatz.
From Coquelicot Require Import Coquelicot.
From Verif Require Import LegSpec LegProofs LegAdd.
Open Scope R_scope.

Section Gen.
Variable x : R.
Hypothesis Hx : -1 <= x <= 1.
Let p (n : nat) : R := D n 0 x.
Let q (t : R) : R := 1 - 2 * x * t + t * t.

Lemma radius : Rbar_le 1 (CV_radius p).
Proof.
  apply (proj1 (CV_radius_bounded p)). exists 1. intros n. rewrite pow1, Rmult_1_r. apply legendre_le_1, Hx.
Qed.

Lemma inside t : Rabs t < 1 -> Rbar_lt (Rabs t) (CV_radius p).
Proof. intros H. eapply Rbar_lt_le_trans; [|apply radius]. exact H. Qed.

Lemma q_pos t : Rabs t < 1 -> 0 < q t.
Proof. intros H. unfold q. apply Rabs_def2 in H. destruct (Rle_dec 0 t); nra. Qed.

Lemma gen_ode t : Rabs t < 1 -> q t * PSeries (PS_derive p) t = (x - t) * PSeries p t.
Proof.
  intros H. pose proof (inside t H) as I.
  assert (X0 : ex_pseries p t) by (apply CV_radius_inside; exact I).
  assert (X1 : ex_pseries (PS_derive p) t) by (apply CV_radius_inside; rewrite CV_radius_derive; exact I).
  set (a := PS_derive p) in *.
  assert (L : q t * PSeries a t = PSeries (PS_plus a (PS_plus (PS_scal (- 2 * x) (PS_incr_1 a)) (PS_incr_1 (PS_incr_1 a)))) t).
  { rewrite PSeries_plus; [|exact X1|apply ex_pseries_plus; [apply ex_pseries_scal; [intros; apply Rmult_comm|apply ex_pseries_incr_1, X1]|apply ex_pseries_incr_1, ex_pseries_incr_1, X1]].
    rewrite PSeries_plus; [|apply ex_pseries_scal; [intros; apply Rmult_comm|apply ex_pseries_incr_1, X1]|apply ex_pseries_incr_1, ex_pseries_incr_1, X1].
    rewrite PSeries_scal, !PSeries_incr_1. unfold q. ring. }
  assert (R : (x - t) * PSeries p t = PSeries (PS_plus (PS_scal x p) (PS_scal (-1) (PS_incr_1 p))) t).
  { rewrite PSeries_plus; [|apply ex_pseries_scal; [intros; apply Rmult_comm|exact X0]|apply ex_pseries_scal; [intros; apply Rmult_comm|apply ex_pseries_incr_1, X0]].
    rewrite !PSeries_scal, !PSeries_incr_1. ring. }
  rewrite L, R. apply PSeries_ext. intros n. destruct n as [|[|n]].
  - change (INR 1 * p 1 + (- 2 * x * 0 + 0) = x * p 0%nat + -1 * 0). unfold p. rewrite D_0_0, D_1_0. simpl. ring.
  - change (INR 2 * p 2%nat + (- 2 * x * (INR 1 * p 1%nat) + 0) = x * p 1%nat + -1 * p 0%nat). pose proof (D_rec 0 0 x) as B. simpl (INR 0) in B. simpl (INR 2). simpl (INR 1). unfold p. lra.
  - change (INR (S (S (S n))) * p (S (S (S n))) + (- 2 * x * (INR (S (S n)) * p (S (S n))) + INR (S n) * p (S n)) = x * p (S (S n)) + -1 * p (S n)).
    pose proof (D_rec (S n) 0 x) as B. simpl (INR 0) in B. rewrite !S_INR in *. unfold p. lra.
Qed.

(** sqrt (1 - 2 x t + t^2) times the series is constant *)
Lemma gen t : 0 <= t < 1 -> PSeries p t = / sqrt (q t).
Proof.
  intros Ht. destruct (Req_dec t 0) as [->|Nz].
  { unfold q. rewrite PSeries_0. unfold p. rewrite D_0_0. replace (1 - 2 * x * 0 + 0 * 0) with 1 by ring. rewrite sqrt_1. field. }
  pose proof (eq_is_derive (fun t => sqrt (q t) * PSeries p t) 0 t) as C.
  assert (E : sqrt (q 0) * PSeries p 0 = sqrt (q t) * PSeries p t).
  { apply C; [|lra]. intros u Hu. assert (Au : Rabs u < 1) by (apply Rabs_def1; lra). pose proof (q_pos u Au) as Q. pose proof (sqrt_lt_R0 _ Q) as SQ.
    assert (DS : is_derive (fun t => sqrt (q t)) u ((u - x) / sqrt (q u))).
    { unfold q in *. auto_derive; [lra|]. replace (1 + - (2 * x * u) + u * u) with (1 - 2 * x * u + u * u) by ring. field. lra. }
    pose proof (is_derive_mult (fun t => sqrt (q t)) (PSeries p) u _ _ DS (is_derive_PSeries p u (inside u Au)) ltac:(intros; apply Rmult_comm)) as DM.
    match type of DM with is_derive _ _ ?d => replace (@zero R_NormedModule) with d; [exact DM|] end. unfold plus, mult, zero; simpl.
    pose proof (gen_ode u Au) as O. rewrite <- (sqrt_sqrt (q u)) in O by lra.
    apply Rmult_eq_reg_l with (sqrt (q u)); [|lra]. rewrite Rmult_0_r.
    replace (sqrt (q u) * ((u - x) / sqrt (q u) * PSeries p u + sqrt (q u) * PSeries (PS_derive p) u)) with ((u - x) * PSeries p u + sqrt (q u) * sqrt (q u) * PSeries (PS_derive p) u) by (field; lra).
    rewrite O. ring. }
  rewrite PSeries_0 in E. unfold p in E at 1. rewrite D_0_0 in E. unfold q in E at 1. replace (1 - 2 * x * 0 + 0 * 0) with 1 in E by ring. rewrite sqrt_1 in E.
  pose proof (sqrt_lt_R0 _ (q_pos t ltac:(apply Rabs_def1; lra))). apply Rmult_eq_reg_l with (sqrt (q t)); [|lra]. rewrite <- E. field. lra.
Qed.

Lemma tail t N : 0 <= t < 1 -> Rabs (/ sqrt (q t) - sum_f_R0 (fun n => p n * t ^ n) N) <= t ^ S N / (1 - t).
Proof.
  intros Ht. rewrite <- gen by exact Ht. unfold PSeries.
  assert (X : ex_series (fun k => p k * t ^ k)). { apply (ex_pseries_R p t). apply CV_radius_inside, inside. apply Rabs_def1; lra. }
  rewrite (Series_incr_n (fun k => p k * t ^ k) (S N)) by (try lia; exact X). cbn [Init.Nat.pred].
  match goal with |- Rabs (?s + ?r - ?s') <= _ => replace (s + r - s') with r by ring end.
  assert (G : ex_series (fun k => t ^ S N * t ^ k)). { apply (ex_series_scal_l (K := R_AbsRing) (V := R_NormedModule) (t ^ S N) (fun k => t ^ k)). apply ex_series_geom. apply Rabs_def1; lra. }
  assert (B : forall k, 0 <= Rabs (p (S N + k) * t ^ (S N + k)) <= t ^ S N * t ^ k).
  { intros k. split; [apply Rabs_pos|]. rewrite Rabs_mult, <- pow_add. rewrite (Rabs_pos_eq (t ^ (S N + k))) by (apply pow_le; lra).
    pose proof (legendre_le_1 (S N + k) x Hx) as P. pose proof (pow_le t (S N + k) (proj1 Ht)). unfold p. nra. }
  assert (XA : ex_series (fun k => Rabs (p (S N + k) * t ^ (S N + k)))).
  { apply (ex_series_le (K := R_AbsRing) (V := R_CompleteNormedModule) _ (fun k => t ^ S N * t ^ k)); [|exact G]. intros k. unfold norm; simpl. unfold abs; simpl. rewrite Rabs_Rabsolu. apply B. }
  eapply Rle_trans; [apply Series_Rabs; exact XA|]. eapply Rle_trans; [apply (Series_le _ _ B G)|].
  rewrite Series_scal_l, Series_geom by (apply Rabs_def1; lra). apply Rle_refl.
Qed.
End Gen.
