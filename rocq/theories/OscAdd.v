(** The addition theorem cos(R + phi)/R = sum (2n+1) j_n(rho) z_n(r) P_n(t), z_n the singular
    function with the phase phi, with the error of a partial sum, as for the modified functions
    (BesselAdd). *)
From Coq Require Import Reals Lia Lra Psatz.
From Coquelicot Require Import Coquelicot.
From Verif Require Import LegSpec LegProofs LegAdd BesselSpec BesselProofs BesselAdd OscSpec OscProofs.
Open Scope R_scope.

Definition CO (phi : R) (N : nat) (s r t : R) : R := sum_f_R0 (fun n => (2 * INR n + 1) * jj n s * zz phi n r * D n 0 t) N.

Definition XO (phi : R) (n : nat) (s r : R) : R := r * jj n s * zz phi (S n) r - s * jj (S n) s * zz phi n r.
Definition dj (n : nat) (s : R) : R := INR n * s ^ pred n * F n (- (s * s)) - jj (S n) s.
Definition dz (phi : R) (n : nat) (r : R) : R := INR n / r * zz phi n r - zz phi (S n) r.
Definition TO (phi : R) (n : nat) (s r t : R) : R := dj n s * zz phi n r * (r - s * t) + jj n s * dz phi n r * (r * t - s).

Lemma XO_alt phi n s r : 0 < r -> XO phi (S n) s r = s * jj n s * zz phi (S n) r - r * jj (S n) s * zz phi n r.
Proof. intros H. unfold XO. rewrite (zz_rec phi n) by exact H. pose proof (jj_rec n s) as E. replace (s * jj n s * zz phi (S n) r) with ((s * jj n s) * zz phi (S n) r) by ring. rewrite E. field. lra. Qed.

Lemma TO_X phi n s r t : 0 < r -> (2 * INR n + 3) * TO phi (S n) s r t = (INR n + 2) * XO phi (S (S n)) s r + (INR n + 1) * XO phi n s r - (2 * INR n + 3) * t * XO phi (S n) s r.
Proof.
  intros H. rewrite (XO_alt phi (S n)) by exact H. unfold XO, TO, dj, dz. rewrite (zz_rec phi n), S_INR by exact H. unfold jj. rewrite (F_rec n). cbn [pred]. simpl pow.
  generalize (s ^ n) (F (S n) (- (s * s))) (F (S (S n)) (- (s * s))) (zz phi n r) (zz phi (S n) r) (INR n). intros w a b k0 k1 m. field. lra.
Qed.

Lemma telO phi N s r t : 0 < r -> sum_f_R0 (fun n => (2 * INR n + 1) * D n 0 t * TO phi n s r t) N = (INR N + 1) * (D N 0 t * XO phi (S N) s r - D (S N) 0 t * XO phi N s r).
Proof.
  intros H. induction N as [|N IH].
  - simpl sum_f_R0. rewrite D_0_0, D_1_0, XO_alt by exact H. unfold TO, XO, dj, dz. simpl INR. unfold jj. simpl pow. field. lra.
  - rewrite tech5, IH. pose proof (D_rec N 0 t) as R. pose proof (TO_X phi N s r t H) as TX. rewrite S_INR. simpl (INR 0) in R.
    replace ((2 * (INR N + 1) + 1) * D (S N) 0 t * TO phi (S N) s r t) with (D (S N) 0 t * ((2 * INR N + 3) * TO phi (S N) s r t)) by ring. rewrite TX.
    assert (E : (INR N + 2) * D (S (S N)) 0 t = (2 * INR N + 3) * t * D (S N) 0 t - (INR N + 1) * D N 0 t) by lra.
    replace ((INR N + 1 + 1) * (D (S N) 0 t * XO phi (S (S N)) s r - D (S (S N)) 0 t * XO phi (S N) s r)) with ((INR N + 2) * D (S N) 0 t * XO phi (S (S N)) s r - ((INR N + 2) * D (S (S N)) 0 t) * XO phi (S N) s r) by ring.
    rewrite E. ring.
Qed.

Lemma XO_le phi n s r : 0 <= s -> 0 < r -> Rabs (XO phi n s r) <= exp r * X n s r.
Proof.
  intros Hs Hr. unfold XO, X. pose proof (jj_le n s Hs) as J0. pose proof (jj_le (S n) s Hs) as J1. pose proof (zz_le phi n r Hr) as Z0. pose proof (zz_le phi (S n) r Hr) as Z1.
  pose proof (Rabs_pos (jj n s)). pose proof (Rabs_pos (jj (S n) s)). pose proof (Rabs_pos (zz phi n r)). pose proof (Rabs_pos (zz phi (S n) r)).
  unfold Rminus. eapply Rle_trans; [apply Rabs_triang|]. rewrite Rabs_Ropp, !Rabs_mult, (Rabs_pos_eq r), (Rabs_pos_eq s) by lra.
  replace (exp r * (s * ii (S n) s * kk n r + r * ii n s * kk (S n) r)) with (r * (ii n s * (exp r * kk (S n) r)) + s * (ii (S n) s * (exp r * kk n r))) by ring.
  rewrite !Rmult_assoc. apply Rplus_le_compat; (apply Rmult_le_compat_l; [lra|]; apply Rmult_le_compat; assumption).
Qed.

Section Path.
Variables (phi : R) (N : nat) (rho r t dd : R).
Hypothesis Hr : 0 < rho < r.
Hypothesis Ht : -1 <= t <= 1.
Hypothesis HR : 0 <= dd.
Hypothesis HE : dd * dd = r * r - 2 * (rho * r) * t + rho * rho.

Let a := r - rho * t.
Let S2 (s : R) : R := dd * dd - s * rho * (s * rho) * (1 - t * t).
Let Sq (s : R) : R := sqrt (S2 s).
Let rr (s : R) : R := s * rho * t + Sq s.

Let a_pos : 0 < a.
Proof. unfold a. nra. Qed.
Let S2_low s : 0 <= s <= 1 -> a * a <= S2 s.
Proof. intros H. unfold S2, a. rewrite HE. assert (0 <= 1 - t * t) by nra. assert (0 <= rho * rho * (1 - t * t) * (1 - s * s)) by (apply Rmult_le_pos; [apply Rmult_le_pos; nra|nra]). nra. Qed.
Let S2_low2 s : 0 <= s <= 1 -> (s * a) * (s * a) <= S2 s.
Proof. intros H. pose proof a_pos as A. assert (s * a * (s * a) <= a * a) by (assert (0 <= s * s <= 1) by nra; assert (0 <= a * a) by apply Rle_0_sqr; nra). pose proof (S2_low s H). lra. Qed.
Let Sq_pos s : 0 <= s <= 1 -> 0 < Sq s.
Proof. intros H. apply sqrt_lt_R0. pose proof (S2_low s H). pose proof a_pos. nra. Qed.
Let Sq_sq s : 0 <= s <= 1 -> Sq s * Sq s = S2 s.
Proof. intros H. apply sqrt_sqrt. pose proof (S2_low s H). pose proof a_pos. nra. Qed.
Let R_pos : 0 < dd.
Proof. pose proof (S2_low 1 ltac:(lra)) as L. pose proof a_pos. unfold S2 in L. assert (0 <= rho * rho * (1 - t * t)) by (apply Rmult_le_pos; nra). destruct (Req_dec dd 0) as [E|E]; [rewrite E in L; nra|lra]. Qed.
Let rr_low s : 0 <= s <= 1 -> s * r <= rr s.
Proof.
  intros H. pose proof (Sq_pos s H) as P. pose proof (Sq_sq s H) as Q. pose proof (S2_low2 s H) as L. pose proof a_pos as A. unfold rr. assert (s * a <= Sq s) by nra. unfold a in *. nra.
Qed.
Let rr_pos s : 0 <= s <= 1 -> 0 < rr s.
Proof.
  intros H. destruct (Req_dec s 0) as [->|Ns]; [|pose proof (rr_low s H); nra]. unfold rr, Sq, S2. replace (dd * dd - 0 * rho * (0 * rho) * (1 - t * t)) with (dd * dd) by ring. rewrite sqrt_square by lra. pose proof R_pos. lra.
Qed.
Let rr_eq s : 0 <= s <= 1 -> rr s * rr s - 2 * (s * rho) * rr s * t + s * rho * (s * rho) = dd * dd.
Proof. intros H. pose proof (Sq_sq s H) as Q. unfold rr. unfold S2 in Q. nra. Qed.
Let rr_up s : 0 <= s <= 1 -> rr s <= dd + rho.
Proof.
  intros H. pose proof (Sq_pos s H) as P. pose proof (Sq_sq s H) as Q. unfold S2 in Q. pose proof R_pos. assert (0 <= s * rho * (s * rho) * (1 - t * t)) by (apply Rmult_le_pos; nra). assert (Sq s <= dd) by nra. assert (0 <= s * rho <= rho) by nra. unfold rr. nra.
Qed.

Let rr_derive s : 0 <= s <= 1 -> is_derive rr s (rho * (rr s * t - s * rho) / Sq s).
Proof.
  intros H. pose proof (Sq_pos s H) as P. apply (is_derive_ext (fun s => s * rho * t + sqrt (dd * dd - s * rho * (s * rho) * (1 - t * t)))); [reflexivity|].
  auto_derive; [pose proof (S2_low s H) as L; pose proof a_pos; unfold S2 in L; nra|].
  match goal with |- context [sqrt ?e] => replace (sqrt e) with (Sq s) by (unfold Sq, S2; f_equal; ring) end. unfold rr. generalize (Sq s) P. intros q Hq. field. lra.
Qed.
Let u (s : R) : R := s * rho / rr s.
Let u_derive s : 0 <= s <= 1 -> is_derive u s (rho * (dd * dd) / (Sq s * (rr s * rr s))).
Proof.
  intros H. pose proof (Sq_pos s H) as P. pose proof (rr_pos s H) as Pr. pose proof (rr_eq s H) as E. unfold u.
  assert (D1 : is_derive (fun s => s * rho) s rho) by (auto_derive; [exact I|ring]).
  evar_last; [apply (is_derive_div (fun s => s * rho) rr s _ _ D1 (rr_derive s H)); lra|]. match goal with |- ?a = ?b => change (@eq Rdefinitions.R a b) end.
  rewrite <- E. unfold rr at 1. assert (Er : Sq s = rr s - s * rho * t) by (unfold rr; ring). fold (rr s). rewrite Er in *. field. split; lra.
Qed.
Let u_bd s : 0 <= s <= 1 -> 0 <= u s <= 1.
Proof.
  intros H. pose proof (rr_pos s H) as P. pose proof (rr_low s H) as L. unfold u. split; [apply Rmult_le_pos; [nra|left; apply Rinv_0_lt_compat, P]|]. apply Rmult_le_reg_r with (rr s); [exact P|]. unfold Rdiv. rewrite Rmult_assoc, Rinv_l by lra. nra.
Qed.

Let C (s : R) : R := CO phi N (s * rho) (rr s) t.

Let term_derive n s : 0 <= s <= 1 -> is_derive (fun s => (2 * INR n + 1) * jj n (s * rho) * zz phi n (rr s) * D n 0 t) s (rho / Sq s * ((2 * INR n + 1) * D n 0 t * TO phi n (s * rho) (rr s) t)).
Proof.
  intros H. pose proof (Sq_pos s H) as P. pose proof (rr_pos s H) as Pr.
  assert (D1 : is_derive (fun s => jj n (s * rho)) s (rho * dj n (s * rho))).
  { apply (is_derive_comp (jj n) (fun s => s * rho)); [apply jj_derive|auto_derive; [exact I|ring]]. }
  assert (D2 : is_derive (fun s => zz phi n (rr s)) s (rho * (rr s * t - s * rho) / Sq s * dz phi n (rr s))).
  { apply (is_derive_comp (zz phi n) rr); [apply zz_derive, Pr|apply rr_derive, H]. }
  apply (is_derive_ext (fun s => (2 * INR n + 1) * D n 0 t * (jj n (s * rho) * zz phi n (rr s)))); [intros; match goal with |- ?a = ?b => change (@eq Rdefinitions.R a b) end; ring|].
  evar_last; [apply (is_derive_scal (fun s => jj n (s * rho) * zz phi n (rr s)) s); apply (is_derive_mult (fun s => jj n (s * rho)) (fun s => zz phi n (rr s)) s _ _ D1 D2); intros; apply Rmult_comm|].
  match goal with |- ?a = ?b => change (@eq Rdefinitions.R a b) end. unfold TO. assert (Er : rr s - s * rho * t = Sq s) by (unfold rr; ring). rewrite Er. unfold plus, mult. simpl. field. lra.
Qed.
Let C_derive s : 0 <= s <= 1 -> is_derive C s (rho / Sq s * ((INR N + 1) * (D N 0 t * XO phi (S N) (s * rho) (rr s) - D (S N) 0 t * XO phi N (s * rho) (rr s)))).
Proof.
  intros H. rewrite <- telO by (apply rr_pos, H). unfold C, CO. clear C. generalize N. intros M. induction M as [|M IH].
  - cbn [sum_f_R0]. apply term_derive, H.
  - evar_last; [apply (is_derive_ext (fun s => sum_f_R0 (fun n => (2 * INR n + 1) * jj n (s * rho) * zz phi n (rr s) * D n 0 t) M + (2 * INR (S M) + 1) * jj (S M) (s * rho) * zz phi (S M) (rr s) * D (S M) 0 t)); [intros; rewrite tech5; reflexivity|]; apply (is_derive_plus (fun s => sum_f_R0 _ M) _ s _ _ IH (term_derive (S M) s H))|].
    match goal with |- ?a = ?b => change (@eq Rdefinitions.R a b) end. rewrite tech5. unfold plus. simpl plus. cbn. ring.
Qed.

Let K := 2 * (dd + rho) / (dd * dd) * (exp (dd + rho) * (exp (rho * rho / (2 * (2 * INR N + 3))) * (1 + rho * rho / ((2 * INR N + 1) * (2 * INR N + 3))))).

Let slope s sg : 0 <= s <= 1 -> -1 <= sg <= 1 ->
  sg * (rho / Sq s * ((INR N + 1) * (D N 0 t * XO phi (S N) (s * rho) (rr s) - D (S N) 0 t * XO phi N (s * rho) (rr s)))) <= K * (INR (S N) * u s ^ N * (rho * (dd * dd) / (Sq s * (rr s * rr s)))).
Proof.
  intros H Hsg. pose proof (Sq_pos s H) as P. pose proof (rr_pos s H) as Pr. pose proof (rr_low s H) as Lr. pose proof (rr_up s H) as Ur. pose proof R_pos as PR. pose proof (pos_INR N) as PN.
  assert (B0 : 0 <= s * rho <= rr s) by nra. assert (B1 : s * rho <= rho) by nra.
  pose proof (X_bound N (s * rho) (rr s) N rho B0 Pr B1 (le_n N)) as X0. pose proof (X_bound (S N) (s * rho) (rr s) N rho B0 Pr B1 ltac:(lia)) as X1. fold (u s) in X0, X1.
  set (Q0 := exp (rho * rho / (2 * (2 * INR N + 3))) * (1 + rho * rho / ((2 * INR N + 1) * (2 * INR N + 3)))) in *.
  set (Q := exp (dd + rho) * Q0). assert (Ee : exp (rr s) <= exp (dd + rho)) by (destruct (Rle_lt_or_eq_dec _ _ Ur) as [Lt|Eq]; [left; apply exp_increasing, Lt|rewrite Eq; lra]). pose proof (exp_pos (rr s)) as Pe.
  set (Y := u s ^ N / rr s * Q) in *.
  assert (Z0 : Rabs (XO phi N (s * rho) (rr s)) <= Y).
  { eapply Rle_trans; [apply XO_le; lra|]. unfold Y, Q. replace (u s ^ N / rr s * (exp (dd + rho) * Q0)) with (exp (dd + rho) * (u s ^ N / rr s * Q0)) by ring. apply Rmult_le_compat; lra. }
  assert (Z1 : Rabs (XO phi (S N) (s * rho) (rr s)) <= Y).
  { eapply Rle_trans; [apply XO_le; lra|]. unfold Y, Q. replace (u s ^ N / rr s * (exp (dd + rho) * Q0)) with (exp (dd + rho) * (u s ^ N / rr s * Q0)) by ring. apply Rmult_le_compat; lra. }
  clear X0 X1. set (x0 := XO phi N (s * rho) (rr s)) in *. set (x1 := XO phi (S N) (s * rho) (rr s)) in *. pose proof (Rabs_pos x0) as A0. pose proof (Rabs_pos x1) as A1.
  pose proof (legendre_le_1 N t Ht) as L0. pose proof (legendre_le_1 (S N) t Ht) as L1. set (p0 := D N 0 t) in *. set (p1 := D (S N) 0 t) in *.
  assert (Bd : sg * (p0 * x1 - p1 * x0) <= 2 * Y).
  { apply Rle_trans with (Rabs (sg * (p0 * x1 - p1 * x0))); [apply Rle_abs|]. rewrite Rabs_mult. assert (Rabs sg <= 1) by (apply Rabs_le; lra).
    assert (Rabs (p0 * x1 - p1 * x0) <= 2 * Y).
    { unfold Rminus. eapply Rle_trans; [apply Rabs_triang|]. rewrite Rabs_Ropp, !Rabs_mult. pose proof (Rabs_pos p0). pose proof (Rabs_pos p1). nra. }
    pose proof (Rabs_pos sg). pose proof (Rabs_pos (p0 * x1 - p1 * x0)). nra. }
  assert (Y0 : 0 <= Y) by lra.
  assert (Up : 0 <= u s ^ N * Q). { replace (u s ^ N * Q) with (Y * rr s) by (unfold Y; field; lra). apply Rmult_le_pos; lra. }
  replace (sg * (rho / Sq s * ((INR N + 1) * (p0 * x1 - p1 * x0)))) with (rho / Sq s * (INR N + 1) * (sg * (p0 * x1 - p1 * x0))) by ring.
  apply Rle_trans with (rho / Sq s * (INR N + 1) * (2 * Y)); [apply Rmult_le_compat_l; [apply Rmult_le_pos; [apply Rmult_le_pos; [lra|left; apply Rinv_0_lt_compat, P]|lra]|exact Bd]|].
  unfold K. fold Q0. fold Q. rewrite S_INR.
  replace (rho / Sq s * (INR N + 1) * (2 * Y)) with (2 * (rho / Sq s * (INR N + 1)) * (u s ^ N * Q) * (/ (rr s * rr s) * rr s)) by (unfold Y; field; split; lra).
  replace (2 * (dd + rho) / (dd * dd) * Q * ((INR N + 1) * u s ^ N * (rho * (dd * dd) / (Sq s * (rr s * rr s))))) with (2 * (rho / Sq s * (INR N + 1)) * (u s ^ N * Q) * (/ (rr s * rr s) * (dd + rho))) by (field; repeat split; lra).
  apply Rmult_le_compat_l; [apply Rmult_le_pos; [|exact Up]; apply Rmult_le_pos; [lra|apply Rmult_le_pos; [apply Rmult_le_pos; [lra|left; apply Rinv_0_lt_compat, P]|lra]]|].
  apply Rmult_le_compat_l; [left; apply Rinv_0_lt_compat; nra|exact Ur].
Qed.

Let rise sg : -1 <= sg <= 1 -> sg * (C 1 - C 0) <= K * u 1 ^ S N.
Proof.
  intros Hsg. set (h := fun s => K * u s ^ S N - sg * C s).
  set (dh := fun s => K * (INR (S N) * u s ^ N * (rho * (dd * dd) / (Sq s * (rr s * rr s)))) - sg * (rho / Sq s * ((INR N + 1) * (D N 0 t * XO phi (S N) (s * rho) (rr s) - D (S N) 0 t * XO phi N (s * rho) (rr s))))).
  assert (Dh : forall s, 0 <= s <= 1 -> is_derive h s (dh s)).
  { intros s H. unfold h, dh. apply (is_derive_minus (fun s => K * u s ^ S N) (fun s => sg * C s)).
    - apply (is_derive_scal (fun s => u s ^ S N) s). evar_last; [apply is_derive_pow, u_derive, H|]. match goal with |- ?a = ?b => change (@eq Rdefinitions.R a b) end. cbn [pred]. ring.
    - apply (is_derive_scal C s), C_derive, H. }
  destruct (MVT_gen h 0 1 dh) as (c & Hc & E).
  - intros s Hs. rewrite Rmin_left, Rmax_right in Hs by lra. apply Dh. lra.
  - intros s Hs. rewrite Rmin_left, Rmax_right in Hs by lra. apply continuity_pt_filterlim, (ex_derive_continuous h s). eexists. apply Dh. lra.
  - rewrite Rmin_left, Rmax_right in Hc by lra. pose proof (slope c sg Hc Hsg) as Sl. fold (dh c) in E. assert (0 <= dh c) by (unfold dh; lra). unfold h in E.
    assert (Z : u 0 ^ S N = 0) by (unfold u, Rdiv; rewrite Rmult_0_l, Rmult_0_l; simpl; ring). rewrite Z in E. lra.
Qed.

Lemma osc_path : Rabs (CO phi N rho r t - cos (dd + phi) / dd) <= 2 * (dd + rho) / (dd * dd) * (exp (dd + rho) * (exp (rho * rho / (2 * (2 * INR N + 3))) * (1 + rho * rho / ((2 * INR N + 1) * (2 * INR N + 3))))) * (rho / r) ^ S N.
Proof.
  pose proof R_pos as PR. fold K.
  assert (R1 : rr 1 = r). { unfold rr, Sq, S2. replace (dd * dd - 1 * rho * (1 * rho) * (1 - t * t)) with (a * a) by (rewrite HE; unfold a; ring). pose proof a_pos. rewrite sqrt_square by lra. unfold a. ring. }
  assert (R0 : rr 0 = dd). { unfold rr, Sq, S2. replace (dd * dd - 0 * rho * (0 * rho) * (1 - t * t)) with (dd * dd) by ring. rewrite sqrt_square by lra. ring. }
  assert (C1 : C 1 = CO phi N rho r t) by (unfold C; rewrite R1, Rmult_1_l; reflexivity).
  assert (C0 : C 0 = cos (dd + phi) / dd).
  { unfold C. rewrite R0, Rmult_0_l. unfold CO. clear - PR. induction N as [|M IH].
    - cbn [sum_f_R0]. unfold jj, zz. replace (- (0 * 0)) with 0 by ring. rewrite F_0_0, D_0_0. simpl. field. lra.
    - rewrite tech5, IH. unfold jj at 1. simpl pow. ring. }
  assert (U1 : u 1 = rho / r) by (unfold u; rewrite R1, Rmult_1_l; reflexivity).
  pose proof (rise 1 ltac:(lra)) as A. pose proof (rise (-1) ltac:(lra)) as B. rewrite C1, C0, U1 in A, B. apply Rabs_le. lra.
Qed.
End Path.

(** The distance of two partial sums is at most that of the majorants. *)
Lemma CO_step phi N M rho r t : 0 <= rho -> 0 < r -> -1 <= t <= 1 -> (N <= M)%nat -> Rabs (CO phi N rho r t - CO phi M rho r t) <= exp r * (CN M rho r 1 - CN N rho r 1).
Proof.
  intros Hs Hr Ht HM. assert (One : forall n, D n 0 1 = 1) by (intros n; apply (D_one n)). induction HM as [|M _ IH].
  - replace (CO phi N rho r t - CO phi N rho r t) with 0 by ring. rewrite Rabs_R0. lra.
  - unfold CO at 2, CN at 1. rewrite !tech5. fold (CO phi M rho r t) (CN M rho r 1). rewrite One.
    set (w := (2 * INR (S M) + 1) * jj (S M) rho * zz phi (S M) r * D (S M) 0 t).
    assert (W : Rabs w <= exp r * ((2 * INR (S M) + 1) * ii (S M) rho * kk (S M) r * 1)).
    { unfold w. rewrite !Rabs_mult. pose proof (pos_INR (S M)) as P. rewrite (Rabs_pos_eq (2 * INR (S M) + 1)) by lra.
      replace (exp r * ((2 * INR (S M) + 1) * ii (S M) rho * kk (S M) r * 1)) with ((2 * INR (S M) + 1) * ii (S M) rho * (exp r * kk (S M) r) * 1) by ring.
      apply Rmult_le_compat; [repeat apply Rmult_le_pos; try apply Rabs_pos; lra|apply Rabs_pos| |apply legendre_le_1, Ht].
      apply Rmult_le_compat; [apply Rmult_le_pos; [lra|apply Rabs_pos]|apply Rabs_pos| |apply zz_le, Hr]. apply Rmult_le_compat_l; [lra|apply jj_le, Hs]. }
    replace (CO phi N rho r t - (CO phi M rho r t + w)) with ((CO phi N rho r t - CO phi M rho r t) + - w) by ring.
    eapply Rle_trans; [apply Rabs_triang|]. rewrite Rabs_Ropp. lra.
Qed.

(** The tail of the expansion is at most that of the modified functions in the direction of
    the point, times e^r. *)
Lemma osc_tail phi N rho r t dd : 0 < rho < r -> -1 <= t <= 1 -> 0 <= dd -> dd * dd = r * r - 2 * (rho * r) * t + rho * rho ->
  Rabs (CO phi N rho r t - cos (dd + phi) / dd) <= exp r * (exp (- (r - rho)) / (r - rho) - CN N rho r 1).
Proof.
  intros H Ht HR HE. assert (Pd : 0 < dd) by (destruct (Req_dec dd 0) as [E|E]; [rewrite E in HE; exfalso; assert (0 < (r - rho) * (r - rho)) by nra; assert (0 <= rho * r * (1 - t)) by (apply Rmult_le_pos; nra); nra|lra]).
  set (k := cos (dd + phi) / dd). set (B := exp r * (exp (- (r - rho)) / (r - rho) - CN N rho r 1)).
  set (K := 2 * (dd + rho) / (dd * dd) * (exp (dd + rho) * (exp (rho * rho / 6) * (1 + rho * rho / 3)))).
  assert (KM : 0 < K). { unfold K. apply Rmult_lt_0_compat; [apply Rmult_lt_0_compat; [lra|apply Rinv_0_lt_compat; nra]|apply Rmult_lt_0_compat; [apply exp_pos|apply Rmult_lt_0_compat; [apply exp_pos|nra]]]. }
  assert (Up : forall M, Rabs (CO phi M rho r t - k) <= K * (rho / r) ^ S M).
  { intros M. eapply Rle_trans; [apply (osc_path phi M rho r t dd H Ht HR HE)|].
    assert (Hu : 0 <= (rho / r) ^ S M) by (apply pow_le, Rmult_le_pos; [lra|left; apply Rinv_0_lt_compat; lra]). pose proof (pos_INR M) as PM.
    apply Rmult_le_compat_r; [exact Hu|]. unfold K. apply Rmult_le_compat_l; [apply Rmult_le_pos; [lra|left; apply Rinv_0_lt_compat; nra]|].
    apply Rmult_le_compat_l; [left; apply exp_pos|].
    assert (I1 : rho * rho / (2 * (2 * INR M + 3)) <= rho * rho / 6) by (apply Rmult_le_compat_l; [nra|apply Rinv_le_contravar; lra]).
    assert (I2 : rho * rho / ((2 * INR M + 1) * (2 * INR M + 3)) <= rho * rho / 3) by (apply Rmult_le_compat_l; [nra|apply Rinv_le_contravar; nra]).
    assert (I3 : 0 <= rho * rho / ((2 * INR M + 1) * (2 * INR M + 3))) by (apply Rmult_le_pos; [nra|left; apply Rinv_0_lt_compat; nra]).
    apply Rmult_le_compat; [left; apply exp_pos|lra| |lra]. destruct (Rle_lt_or_eq_dec _ _ I1) as [L|L]; [left; apply exp_increasing, L|rewrite L; lra]. }
  assert (Any : forall M, (N <= M)%nat -> Rabs (CO phi N rho r t - k) <= B + K * (rho / r) ^ S M).
  { intros M HM. replace (CO phi N rho r t - k) with ((CO phi N rho r t - CO phi M rho r t) + (CO phi M rho r t - k)) by ring. eapply Rle_trans; [apply Rabs_triang|]. apply Rplus_le_compat; [|apply Up].
    eapply Rle_trans; [apply (CO_step phi N M rho r t); try lra; exact HM|]. unfold B. apply Rmult_le_compat_l; [left; apply exp_pos|]. pose proof (addition_dir M rho r H). lra. }
  destruct (Rle_dec (Rabs (CO phi N rho r t - k)) B) as [L|L]; [exact L|exfalso]. apply Rnot_le_lt in L. set (e := (Rabs (CO phi N rho r t - k) - B) / K). assert (He : 0 < e) by (apply Rmult_lt_0_compat; [lra|apply Rinv_0_lt_compat, KM]).
  assert (Hu : 0 <= rho / r < 1). { split; [apply Rmult_le_pos; [lra|left; apply Rinv_0_lt_compat; lra]|]. apply Rmult_lt_reg_r with r; [lra|]. unfold Rdiv. rewrite Rmult_assoc, Rinv_l by lra. lra. }
  destruct (pow_lt_1_zero (rho / r) ltac:(rewrite Rabs_pos_eq; lra) e He) as (M0 & HM0). set (M := max N M0).
  specialize (HM0 (S M) ltac:(unfold M; lia)). rewrite Rabs_pos_eq in HM0 by (apply pow_le; lra). pose proof (Any M ltac:(unfold M; lia)) as U.
  assert (K * (rho / r) ^ S M < K * e) by (apply Rmult_lt_compat_l; assumption). assert (K * e = Rabs (CO phi N rho r t - k) - B) by (unfold e; field; lra). lra.
Qed.

(** The tail in the direction of the point, estimated. *)
Lemma tail_dir N rho r : 0 < rho < r -> exp (- (r - rho)) / (r - rho) - CN N rho r 1 <=
  2 * r / ((r - rho) * (r - rho)) * (exp (rho * rho / (2 * (2 * INR N + 3))) * (1 + rho * rho / ((2 * INR N + 1) * (2 * INR N + 3)))) * (rho / r) ^ S N.
Proof.
  intros H. pose proof (addition_path N rho r 1 (r - rho) H ltac:(lra) ltac:(lra) ltac:(ring)) as A. replace (r - rho + rho) with r in A by ring. apply Rabs_le_between in A. lra.
Qed.
