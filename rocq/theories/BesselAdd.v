(** The addition theorem exp(-R)/R = sum (2n+1) i_n(rho) k_n(r) P_n(t), with the error of a
    partial sum.  Along a path that keeps R fixed and shrinks rho to zero the derivative of the
    partial sum telescopes. *)
From Coq Require Import Reals Lia Lra Psatz.
From Coquelicot Require Import Coquelicot.
From Verif Require Import LegSpec LegProofs LegAdd BesselSpec BesselProofs.
Open Scope R_scope.

Definition CN (N : nat) (s r t : R) : R := sum_f_R0 (fun n => (2 * INR n + 1) * ii n s * kk n r * D n 0 t) N.

Definition X (n : nat) (s r : R) : R := s * ii (S n) s * kk n r + r * ii n s * kk (S n) r.
Definition di (n : nat) (s : R) : R := INR n * s ^ pred n * F n (s * s) + ii (S n) s.
Definition dk (n : nat) (r : R) : R := INR n / r * kk n r - kk (S n) r.
Definition T (n : nat) (s r t : R) : R := di n s * kk n r * (r - s * t) + ii n s * dk n r * (r * t - s).

Lemma X_alt n s r : 0 < r -> X (S n) s r = s * ii n s * kk (S n) r + r * ii (S n) s * kk n r.
Proof. intros H. unfold X. rewrite (kk_rec n) by exact H. pose proof (ii_rec n s) as E. replace (s * ii n s * kk (S n) r) with ((s * ii n s) * kk (S n) r) by ring. rewrite E. field. lra. Qed.

Lemma T_X n s r t : 0 < r -> (2 * INR n + 3) * T (S n) s r t = (INR n + 2) * X (S (S n)) s r + (INR n + 1) * X n s r - (2 * INR n + 3) * t * X (S n) s r.
Proof.
  intros H. rewrite (X_alt (S n)) by exact H. unfold X, T, di, dk. rewrite (kk_rec n), S_INR by exact H. unfold ii. rewrite (F_rec n). cbn [pred]. simpl pow.
  generalize (s ^ n) (F (S n) (s * s)) (F (S (S n)) (s * s)) (kk n r) (kk (S n) r) (INR n). intros w a b k0 k1 m. field. lra.
Qed.

Lemma tel N s r t : 0 < r -> sum_f_R0 (fun n => (2 * INR n + 1) * D n 0 t * T n s r t) N = (INR N + 1) * (D N 0 t * X (S N) s r - D (S N) 0 t * X N s r).
Proof.
  intros H. induction N as [|N IH].
  - simpl sum_f_R0. rewrite D_0_0, D_1_0, X_alt by exact H. unfold T, X, di, dk. simpl INR. unfold ii. simpl pow. field. lra.
  - rewrite tech5, IH. pose proof (D_rec N 0 t) as R. pose proof (T_X N s r t H) as TX. rewrite S_INR. simpl (INR 0) in R.
    replace ((2 * (INR N + 1) + 1) * D (S N) 0 t * T (S N) s r t) with (D (S N) 0 t * ((2 * INR N + 3) * T (S N) s r t)) by ring. rewrite TX.
    assert (E : (INR N + 2) * D (S (S N)) 0 t = (2 * INR N + 3) * t * D (S N) 0 t - (INR N + 1) * D N 0 t) by lra.
    replace ((INR N + 1 + 1) * (D (S N) 0 t * X (S (S N)) s r - D (S (S N)) 0 t * X (S N) s r)) with ((INR N + 2) * D (S N) 0 t * X (S (S N)) s r - ((INR N + 2) * D (S (S N)) 0 t) * X (S N) s r) by ring.
    rewrite E. ring.
Qed.

(** size of the boundary term *)
Lemma X_bound n s r m b : 0 <= s <= r -> 0 < r -> s <= b -> (m <= n)%nat -> 0 <= X n s r <= (s / r) ^ m / r * (exp (b * b / (2 * (2 * INR m + 3))) * (1 + b * b / ((2 * INR m + 1) * (2 * INR m + 3)))).
Proof.
  intros Hs Hr Hb Hm. assert (Hb0 : 0 <= b) by lra. pose proof (ii_nonneg n s ltac:(lra)) as I0. pose proof (ii_nonneg (S n) s ltac:(lra)) as I1. pose proof (kk_pos n r Hr) as K0. pose proof (kk_pos (S n) r Hr) as K1.
  set (u := s / r). assert (Hu : 0 <= u <= 1). { unfold u. split; [apply Rmult_le_pos; [lra|left; apply Rinv_0_lt_compat; lra]|]. apply Rmult_le_reg_r with r; [lra|]. unfold Rdiv. rewrite Rmult_assoc, Rinv_l by lra. lra. }
  split; [unfold X; apply Rplus_le_le_0_compat; (apply Rmult_le_pos; [apply Rmult_le_pos; [lra|assumption]|left; assumption])|].
  set (En := exp (b * b / (2 * (2 * INR n + 3)))).
  assert (Hn : INR m <= INR n) by (apply le_INR; exact Hm). pose proof (pos_INR m) as Pm.
  assert (Bb : s * s <= b * b) by nra.
  assert (Inv : forall a c, 0 < c <= a -> / a <= / c) by (intros a c Hc; apply Rinv_le_contravar; lra).
  assert (E1 : exp (s * s / (2 * (2 * INR (S n) + 3))) <= En).
  { destruct (Rle_lt_or_eq_dec (s * s / (2 * (2 * INR (S n) + 3))) (b * b / (2 * (2 * INR n + 3)))) as [L|L]; [|left; apply exp_increasing, L|unfold En; rewrite L; lra].
    unfold Rdiv. apply Rmult_le_compat; [nra|left; apply Rinv_0_lt_compat; pose proof (pos_INR (S n)); lra|exact Bb|]. apply Inv. rewrite S_INR. lra. }
  assert (E0 : exp (s * s / (2 * (2 * INR n + 3))) <= En).
  { destruct (Rle_lt_or_eq_dec (s * s / (2 * (2 * INR n + 3))) (b * b / (2 * (2 * INR n + 3)))) as [L|L]; [|left; apply exp_increasing, L|unfold En; rewrite L; lra].
    unfold Rdiv. apply Rmult_le_compat_r; [left; apply Rinv_0_lt_compat; lra|exact Bb]. }
  assert (Enm : 0 < En <= exp (b * b / (2 * (2 * INR m + 3)))).
  { split; [apply exp_pos|]. destruct (Rle_lt_or_eq_dec (b * b / (2 * (2 * INR n + 3))) (b * b / (2 * (2 * INR m + 3)))) as [L|L]; [|left; apply exp_increasing, L|unfold En; rewrite L; lra].
    unfold Rdiv. apply Rmult_le_compat_l; [nra|]. apply Inv. lra. }
  set (Em := exp (b * b / (2 * (2 * INR m + 3)))) in *.
  pose proof (odd_ge n) as On. pose proof (oddm_ge n) as Om.
  assert (Eo : odd n = (2 * INR n + 1) * oddm n) by (rewrite <- oddm_S; reflexivity).
  assert (Pr : 0 < r ^ n) by (apply pow_lt, Hr). assert (Ps : 0 <= s ^ n) by (apply pow_le; lra).
  assert (Eu : u ^ n = s ^ n / r ^ n) by (unfold u, Rdiv; rewrite Rpow_mult_distr, pow_inv; reflexivity).
  assert (A1 : s * ii (S n) s * kk n r <= u ^ n / r * (En * (s * s / ((2 * INR n + 1) * (2 * INR n + 3))))).
  { apply Rle_trans with (s * (s ^ S n * En / odd (S n)) * (oddm n / r ^ S n)).
    - apply Rmult_le_compat; [apply Rmult_le_pos; lra|lra| |apply kk_up, Hr]. apply Rmult_le_compat_l; [lra|]. eapply Rle_trans; [apply ii_up; lra|]. unfold Rdiv. pose proof (odd_ge (S n)). apply Rmult_le_compat_r; [left; apply Rinv_0_lt_compat; lra|]. apply Rmult_le_compat_l; [apply pow_le; lra|exact E1].
    - right. rewrite Eu, odd_S, Eo. simpl pow. field. repeat split; lra. }
  assert (A2 : r * ii n s * kk (S n) r <= u ^ n / r * En).
  { apply Rle_trans with (r * (s ^ n * En / odd n) * (oddm (S n) / r ^ S (S n))).
    - apply Rmult_le_compat; [apply Rmult_le_pos; lra|lra| |apply kk_up, Hr]. apply Rmult_le_compat_l; [lra|]. eapply Rle_trans; [apply ii_up; lra|]. unfold Rdiv. apply Rmult_le_compat_r; [left; apply Rinv_0_lt_compat; lra|]. apply Rmult_le_compat_l; [exact Ps|exact E0].
    - right. rewrite Eu. change (oddm (S n)) with (odd n). simpl pow. field. repeat split; lra. }
  assert (Un : u ^ n <= u ^ m). { replace n with (m + (n - m))%nat by lia. rewrite pow_add. pose proof (pow_le u m (proj1 Hu)). rewrite <- (Rmult_1_r (u ^ m)) at 2. apply Rmult_le_compat_l; [assumption|]. rewrite <- (pow1 (n - m)). apply pow_incr. exact Hu. }
  pose proof (pow_le u n (proj1 Hu)) as Un0. assert (Ir : 0 < / r) by (apply Rinv_0_lt_compat, Hr).
  assert (Q : s * s / ((2 * INR n + 1) * (2 * INR n + 3)) <= b * b / ((2 * INR m + 1) * (2 * INR m + 3))).
  { unfold Rdiv. apply Rmult_le_compat; [nra|left; apply Rinv_0_lt_compat; nra|exact Bb|]. apply Inv. split; [nra|]. apply Rmult_le_compat; lra. }
  assert (Q0 : 0 <= s * s / ((2 * INR n + 1) * (2 * INR n + 3))) by (apply Rmult_le_pos; [nra|left; apply Rinv_0_lt_compat; nra]).
  set (x := s * s / ((2 * INR n + 1) * (2 * INR n + 3))) in *. set (y := b * b / ((2 * INR m + 1) * (2 * INR m + 3))) in *.
  unfold X. apply Rle_trans with (u ^ n / r * (En * (1 + x))); [lra|]. unfold Rdiv. apply Rmult_le_compat; [apply Rmult_le_pos; lra|apply Rmult_le_pos; lra|apply Rmult_le_compat_r; lra|]. apply Rmult_le_compat; lra.
Qed.

Section Path.
Variables (N : nat) (rho r t dd : R).
Hypothesis Hr : 0 < rho < r.
Hypothesis Ht : -1 <= t <= 1.
Hypothesis HR : 0 <= dd.
Hypothesis HE : dd * dd = r * r - 2 * (rho * r) * t + rho * rho.

Let a := r - rho * t.
Let S2 (s : R) : R := dd * dd - s * rho * (s * rho) * (1 - t * t).
Let Sq (s : R) : R := sqrt (S2 s).
Let rr (s : R) : R := s * rho * t + Sq s.

Let a_pos : 0 < a.
Proof. unfold a. nra. Qed.
Let S2_low s : 0 <= s <= 1 -> a * a <= S2 s.
Proof. intros H. unfold S2, a. rewrite HE. assert (0 <= 1 - t * t) by nra. assert (0 <= rho * rho * (1 - t * t) * (1 - s * s)) by (apply Rmult_le_pos; [apply Rmult_le_pos; nra|nra]). nra. Qed.
Let S2_low2 s : 0 <= s <= 1 -> (s * a) * (s * a) <= S2 s.
Proof. intros H. pose proof a_pos as A. assert (s * a * (s * a) <= a * a) by (assert (0 <= s * s <= 1) by nra; assert (0 <= a * a) by apply Rle_0_sqr; nra). pose proof (S2_low s H). lra. Qed.
Let Sq_pos s : 0 <= s <= 1 -> 0 < Sq s.
Proof. intros H. apply sqrt_lt_R0. pose proof (S2_low s H). pose proof a_pos. nra. Qed.
Let Sq_sq s : 0 <= s <= 1 -> Sq s * Sq s = S2 s.
Proof. intros H. apply sqrt_sqrt. pose proof (S2_low s H). pose proof a_pos. nra. Qed.
Let R_pos : 0 < dd.
Proof. pose proof (S2_low 1 ltac:(lra)) as L. pose proof a_pos. unfold S2 in L. assert (0 <= rho * rho * (1 - t * t)) by (apply Rmult_le_pos; nra). destruct (Req_dec dd 0) as [E|E]; [rewrite E in L; nra|lra]. Qed.
Let rr_low s : 0 <= s <= 1 -> s * r <= rr s.
Proof.
  intros H. pose proof (Sq_pos s H) as P. pose proof (Sq_sq s H) as Q. pose proof (S2_low2 s H) as L. pose proof a_pos as A. unfold rr. assert (s * a <= Sq s) by nra. unfold a in *. nra.
Qed.
Let rr_pos s : 0 <= s <= 1 -> 0 < rr s.
Proof.
  intros H. destruct (Req_dec s 0) as [->|Ns]; [|pose proof (rr_low s H); nra]. unfold rr, Sq, S2. replace (dd * dd - 0 * rho * (0 * rho) * (1 - t * t)) with (dd * dd) by ring. rewrite sqrt_square by lra. pose proof R_pos. lra.
Qed.
Let rr_eq s : 0 <= s <= 1 -> rr s * rr s - 2 * (s * rho) * rr s * t + s * rho * (s * rho) = dd * dd.
Proof. intros H. pose proof (Sq_sq s H) as Q. unfold rr. unfold S2 in Q. nra. Qed.
Let rr_up s : 0 <= s <= 1 -> rr s <= dd + rho.
Proof.
  intros H. pose proof (Sq_pos s H) as P. pose proof (Sq_sq s H) as Q. unfold S2 in Q. pose proof R_pos. assert (0 <= s * rho * (s * rho) * (1 - t * t)) by (apply Rmult_le_pos; nra). assert (Sq s <= dd) by nra. assert (0 <= s * rho <= rho) by nra. unfold rr. nra.
Qed.

Let rr_derive s : 0 <= s <= 1 -> is_derive rr s (rho * (rr s * t - s * rho) / Sq s).
Proof.
  intros H. pose proof (Sq_pos s H) as P. apply (is_derive_ext (fun s => s * rho * t + sqrt (dd * dd - s * rho * (s * rho) * (1 - t * t)))); [reflexivity|].
  auto_derive; [pose proof (S2_low s H) as L; pose proof a_pos; unfold S2 in L; nra|].
  match goal with |- context [sqrt ?e] => replace (sqrt e) with (Sq s) by (unfold Sq, S2; f_equal; ring) end. unfold rr. generalize (Sq s) P. intros q Hq. field. lra.
Qed.
Let u (s : R) : R := s * rho / rr s.
Let u_derive s : 0 <= s <= 1 -> is_derive u s (rho * (dd * dd) / (Sq s * (rr s * rr s))).
Proof.
  intros H. pose proof (Sq_pos s H) as P. pose proof (rr_pos s H) as Pr. pose proof (rr_eq s H) as E. unfold u.
  assert (D1 : is_derive (fun s => s * rho) s rho) by (auto_derive; [exact I|ring]).
  evar_last; [apply (is_derive_div (fun s => s * rho) rr s _ _ D1 (rr_derive s H)); lra|]. match goal with |- ?a = ?b => change (@eq Rdefinitions.R a b) end.
  rewrite <- E. unfold rr at 1. assert (Er : Sq s = rr s - s * rho * t) by (unfold rr; ring). fold (rr s). rewrite Er in *. field. split; lra.
Qed.
Let u_bd s : 0 <= s <= 1 -> 0 <= u s <= 1.
Proof.
  intros H. pose proof (rr_pos s H) as P. pose proof (rr_low s H) as L. unfold u. split; [apply Rmult_le_pos; [nra|left; apply Rinv_0_lt_compat, P]|]. apply Rmult_le_reg_r with (rr s); [exact P|]. unfold Rdiv. rewrite Rmult_assoc, Rinv_l by lra. nra.
Qed.

Let C (s : R) : R := CN N (s * rho) (rr s) t.

Let term_derive n s : 0 <= s <= 1 -> is_derive (fun s => (2 * INR n + 1) * ii n (s * rho) * kk n (rr s) * D n 0 t) s (rho / Sq s * ((2 * INR n + 1) * D n 0 t * T n (s * rho) (rr s) t)).
Proof.
  intros H. pose proof (Sq_pos s H) as P. pose proof (rr_pos s H) as Pr.
  assert (D1 : is_derive (fun s => ii n (s * rho)) s (rho * di n (s * rho))).
  { apply (is_derive_comp (ii n) (fun s => s * rho)); [apply ii_derive|auto_derive; [exact I|ring]]. }
  assert (D2 : is_derive (fun s => kk n (rr s)) s (rho * (rr s * t - s * rho) / Sq s * dk n (rr s))).
  { apply (is_derive_comp (kk n) rr); [apply kk_derive, Pr|apply rr_derive, H]. }
  apply (is_derive_ext (fun s => (2 * INR n + 1) * D n 0 t * (ii n (s * rho) * kk n (rr s)))); [intros; match goal with |- ?a = ?b => change (@eq Rdefinitions.R a b) end; ring|].
  evar_last; [apply (is_derive_scal (fun s => ii n (s * rho) * kk n (rr s)) s); apply (is_derive_mult (fun s => ii n (s * rho)) (fun s => kk n (rr s)) s _ _ D1 D2); intros; apply Rmult_comm|].
  match goal with |- ?a = ?b => change (@eq Rdefinitions.R a b) end. unfold T. assert (Er : rr s - s * rho * t = Sq s) by (unfold rr; ring). rewrite Er. unfold plus, mult. simpl. field. lra.
Qed.
Let C_derive s : 0 <= s <= 1 -> is_derive C s (rho / Sq s * ((INR N + 1) * (D N 0 t * X (S N) (s * rho) (rr s) - D (S N) 0 t * X N (s * rho) (rr s)))).
Proof.
  intros H. rewrite <- tel by (apply rr_pos, H). unfold C, CN. clear C. generalize N. intros M. induction M as [|M IH].
  - cbn [sum_f_R0]. apply term_derive, H.
  - evar_last; [apply (is_derive_ext (fun s => sum_f_R0 (fun n => (2 * INR n + 1) * ii n (s * rho) * kk n (rr s) * D n 0 t) M + (2 * INR (S M) + 1) * ii (S M) (s * rho) * kk (S M) (rr s) * D (S M) 0 t)); [intros; rewrite tech5; reflexivity|]; apply (is_derive_plus (fun s => sum_f_R0 _ M) _ s _ _ IH (term_derive (S M) s H))|].
    match goal with |- ?a = ?b => change (@eq Rdefinitions.R a b) end. rewrite tech5. unfold plus. simpl plus. cbn. ring.
Qed.

Let K := 2 * (dd + rho) / (dd * dd) * (exp (rho * rho / (2 * (2 * INR N + 3))) * (1 + rho * rho / ((2 * INR N + 1) * (2 * INR N + 3)))).

Let slope s sg : 0 <= s <= 1 -> -1 <= sg <= 1 ->
  sg * (rho / Sq s * ((INR N + 1) * (D N 0 t * X (S N) (s * rho) (rr s) - D (S N) 0 t * X N (s * rho) (rr s)))) <= K * (INR (S N) * u s ^ N * (rho * (dd * dd) / (Sq s * (rr s * rr s)))).
Proof.
  intros H Hsg. pose proof (Sq_pos s H) as P. pose proof (rr_pos s H) as Pr. pose proof (rr_low s H) as Lr. pose proof (rr_up s H) as Ur. pose proof R_pos as PR. pose proof (pos_INR N) as PN.
  assert (B0 : 0 <= s * rho <= rr s) by nra. assert (B1 : s * rho <= rho) by nra.
  pose proof (X_bound N (s * rho) (rr s) N rho B0 Pr B1 (le_n N)) as X0. pose proof (X_bound (S N) (s * rho) (rr s) N rho B0 Pr B1 ltac:(lia)) as X1. fold (u s) in X0, X1.
  set (Q := exp (rho * rho / (2 * (2 * INR N + 3))) * (1 + rho * rho / ((2 * INR N + 1) * (2 * INR N + 3)))) in *.
  set (Y := u s ^ N / rr s * Q) in *. set (x0 := X N (s * rho) (rr s)) in *. set (x1 := X (S N) (s * rho) (rr s)) in *.
  pose proof (legendre_le_1 N t Ht) as L0. pose proof (legendre_le_1 (S N) t Ht) as L1. set (p0 := D N 0 t) in *. set (p1 := D (S N) 0 t) in *.
  assert (Bd : sg * (p0 * x1 - p1 * x0) <= 2 * Y).
  { apply Rle_trans with (Rabs (sg * (p0 * x1 - p1 * x0))); [apply Rle_abs|]. rewrite Rabs_mult. assert (Rabs sg <= 1) by (apply Rabs_le; lra).
    assert (Rabs (p0 * x1 - p1 * x0) <= 2 * Y).
    { unfold Rminus. eapply Rle_trans; [apply Rabs_triang|]. rewrite Rabs_Ropp, !Rabs_mult, (Rabs_pos_eq x0), (Rabs_pos_eq x1) by lra. pose proof (Rabs_pos p0). pose proof (Rabs_pos p1). nra. }
    pose proof (Rabs_pos sg). pose proof (Rabs_pos (p0 * x1 - p1 * x0)). nra. }
  assert (Y0 : 0 <= Y) by lra.
  assert (Up : 0 <= u s ^ N * Q). { replace (u s ^ N * Q) with (Y * rr s) by (unfold Y; field; lra). apply Rmult_le_pos; lra. }
  replace (sg * (rho / Sq s * ((INR N + 1) * (p0 * x1 - p1 * x0)))) with (rho / Sq s * (INR N + 1) * (sg * (p0 * x1 - p1 * x0))) by ring.
  apply Rle_trans with (rho / Sq s * (INR N + 1) * (2 * Y)); [apply Rmult_le_compat_l; [apply Rmult_le_pos; [apply Rmult_le_pos; [lra|left; apply Rinv_0_lt_compat, P]|lra]|exact Bd]|].
  unfold K. fold Q. rewrite S_INR.
  replace (rho / Sq s * (INR N + 1) * (2 * Y)) with (2 * (rho / Sq s * (INR N + 1)) * (u s ^ N * Q) * (/ (rr s * rr s) * rr s)) by (unfold Y; field; split; lra).
  replace (2 * (dd + rho) / (dd * dd) * Q * ((INR N + 1) * u s ^ N * (rho * (dd * dd) / (Sq s * (rr s * rr s))))) with (2 * (rho / Sq s * (INR N + 1)) * (u s ^ N * Q) * (/ (rr s * rr s) * (dd + rho))) by (field; repeat split; lra).
  apply Rmult_le_compat_l; [apply Rmult_le_pos; [|exact Up]; apply Rmult_le_pos; [lra|apply Rmult_le_pos; [apply Rmult_le_pos; [lra|left; apply Rinv_0_lt_compat, P]|lra]]|].
  apply Rmult_le_compat_l; [left; apply Rinv_0_lt_compat; nra|exact Ur].
Qed.

Let rise sg : -1 <= sg <= 1 -> sg * (C 1 - C 0) <= K * u 1 ^ S N.
Proof.
  intros Hsg. set (h := fun s => K * u s ^ S N - sg * C s).
  set (dh := fun s => K * (INR (S N) * u s ^ N * (rho * (dd * dd) / (Sq s * (rr s * rr s)))) - sg * (rho / Sq s * ((INR N + 1) * (D N 0 t * X (S N) (s * rho) (rr s) - D (S N) 0 t * X N (s * rho) (rr s))))).
  assert (Dh : forall s, 0 <= s <= 1 -> is_derive h s (dh s)).
  { intros s H. unfold h, dh. apply (is_derive_minus (fun s => K * u s ^ S N) (fun s => sg * C s)).
    - apply (is_derive_scal (fun s => u s ^ S N) s). evar_last; [apply is_derive_pow, u_derive, H|]. match goal with |- ?a = ?b => change (@eq Rdefinitions.R a b) end. cbn [pred]. ring.
    - apply (is_derive_scal C s), C_derive, H. }
  destruct (MVT_gen h 0 1 dh) as (c & Hc & E).
  - intros s Hs. rewrite Rmin_left, Rmax_right in Hs by lra. apply Dh. lra.
  - intros s Hs. rewrite Rmin_left, Rmax_right in Hs by lra. apply continuity_pt_filterlim, (ex_derive_continuous h s). eexists. apply Dh. lra.
  - rewrite Rmin_left, Rmax_right in Hc by lra. pose proof (slope c sg Hc Hsg) as Sl. fold (dh c) in E. assert (0 <= dh c) by (unfold dh; lra). unfold h in E.
    assert (Z : u 0 ^ S N = 0) by (unfold u, Rdiv; rewrite Rmult_0_l, Rmult_0_l; simpl; ring). rewrite Z in E. lra.
Qed.

Lemma addition_path : Rabs (CN N rho r t - exp (- dd) / dd) <= 2 * (dd + rho) / (dd * dd) * (exp (rho * rho / (2 * (2 * INR N + 3))) * (1 + rho * rho / ((2 * INR N + 1) * (2 * INR N + 3)))) * (rho / r) ^ S N.
Proof.
  pose proof R_pos as PR. fold K.
  assert (R1 : rr 1 = r). { unfold rr, Sq, S2. replace (dd * dd - 1 * rho * (1 * rho) * (1 - t * t)) with (a * a) by (rewrite HE; unfold a; ring). pose proof a_pos. rewrite sqrt_square by lra. unfold a. ring. }
  assert (R0 : rr 0 = dd). { unfold rr, Sq, S2. replace (dd * dd - 0 * rho * (0 * rho) * (1 - t * t)) with (dd * dd) by ring. rewrite sqrt_square by lra. ring. }
  assert (C1 : C 1 = CN N rho r t) by (unfold C; rewrite R1, Rmult_1_l; reflexivity).
  assert (C0 : C 0 = exp (- dd) / dd).
  { unfold C. rewrite R0, Rmult_0_l. unfold CN. clear - PR. induction N as [|M IH].
    - cbn [sum_f_R0]. unfold ii, kk. rewrite Rmult_0_l, F_0_0, D_0_0. simpl. field. lra.
    - rewrite tech5, IH. unfold ii at 1. simpl pow. ring. }
  assert (U1 : u 1 = rho / r) by (unfold u; rewrite R1, Rmult_1_l; reflexivity).
  pose proof (rise 1 ltac:(lra)) as A. pose proof (rise (-1) ltac:(lra)) as B. rewrite C1, C0, U1 in A, B. apply Rabs_le. lra.
Qed.
End Path.

Lemma addition_dir N rho r : 0 < rho < r -> CN N rho r 1 <= exp (- (r - rho)) / (r - rho).
Proof.
  intros H. set (k := exp (- (r - rho)) / (r - rho)). set (K := 2 * (r - rho + rho) / ((r - rho) * (r - rho)) * (exp (rho * rho / 6) * (1 + rho * rho / 3))).
  assert (One : forall n, D n 0 1 = 1) by (intros n; apply (D_one n)).
  assert (Mono : forall M, (N <= M)%nat -> CN N rho r 1 <= CN M rho r 1).
  { intros M HM. induction HM as [|M _ IH]; [lra|]. unfold CN at 2. rewrite tech5. fold (CN M rho r 1). rewrite One.
    assert (0 <= (2 * INR (S M) + 1) * ii (S M) rho * kk (S M) r * 1); [|lra]. rewrite Rmult_1_r. pose proof (pos_INR (S M)). apply Rmult_le_pos; [apply Rmult_le_pos; [lra|apply ii_nonneg; lra]|left; apply kk_pos; lra]. }
  assert (KM : 0 < K). { unfold K. apply Rmult_lt_0_compat; [apply Rmult_lt_0_compat; [lra|apply Rinv_0_lt_compat; nra]|apply Rmult_lt_0_compat; [apply exp_pos|nra]]. }
  assert (Up : forall M, CN M rho r 1 <= k + K * (rho / r) ^ S M).
  { intros M. pose proof (addition_path M rho r 1 (r - rho) H ltac:(lra) ltac:(lra) ltac:(ring)) as A. fold k in A. apply Rabs_le_between in A.
    assert (Hu : 0 <= (rho / r) ^ S M) by (apply pow_le, Rmult_le_pos; [lra|left; apply Rinv_0_lt_compat; lra]). pose proof (pos_INR M) as PM.
    match type of A with _ <= _ <= ?Q => assert (Q <= K * (rho / r) ^ S M); [|lra] end. apply Rmult_le_compat_r; [exact Hu|]. unfold K. apply Rmult_le_compat_l; [apply Rmult_le_pos; [lra|left; apply Rinv_0_lt_compat; nra]|].
    assert (I1 : rho * rho / (2 * (2 * INR M + 3)) <= rho * rho / 6) by (apply Rmult_le_compat_l; [nra|apply Rinv_le_contravar; lra]).
    assert (I2 : rho * rho / ((2 * INR M + 1) * (2 * INR M + 3)) <= rho * rho / 3) by (apply Rmult_le_compat_l; [nra|apply Rinv_le_contravar; nra]).
    assert (I3 : 0 <= rho * rho / ((2 * INR M + 1) * (2 * INR M + 3))) by (apply Rmult_le_pos; [nra|left; apply Rinv_0_lt_compat; nra]).
    apply Rmult_le_compat; [left; apply exp_pos|lra| |lra]. destruct (Rle_lt_or_eq_dec _ _ I1) as [L|L]; [left; apply exp_increasing, L|rewrite L; lra]. }
  destruct (Rle_dec (CN N rho r 1) k) as [L|L]; [exact L|exfalso]. apply Rnot_le_lt in L. set (e := (CN N rho r 1 - k) / K). assert (He : 0 < e) by (apply Rmult_lt_0_compat; [lra|apply Rinv_0_lt_compat, KM]).
  assert (Hu : 0 <= rho / r < 1). { split; [apply Rmult_le_pos; [lra|left; apply Rinv_0_lt_compat; lra]|]. apply Rmult_lt_reg_r with r; [lra|]. unfold Rdiv. rewrite Rmult_assoc, Rinv_l by lra. lra. }
  destruct (pow_lt_1_zero (rho / r) ltac:(rewrite Rabs_pos_eq; lra) e He) as (M0 & HM0). set (M := max N M0).
  specialize (HM0 (S M) ltac:(unfold M; lia)). rewrite Rabs_pos_eq in HM0 by (apply pow_le; lra). pose proof (Up M) as U. pose proof (Mono M ltac:(unfold M; lia)) as Mo.
  assert (K * (rho / r) ^ S M < K * e) by (apply Rmult_lt_compat_l; assumption). assert (K * e = CN N rho r 1 - k) by (unfold e; field; lra). lra.
Qed.
