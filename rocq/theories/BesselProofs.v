(** Modified spherical Bessel functions: power series, recurrences, bounds. *)
From Coq Require Import Reals Lia Lra Psatz.
From Coquelicot Require Import Coquelicot.
From Verif Require Import BesselSpec.
Open Scope R_scope.

(** (2 n + 1)!! *)
Fixpoint odd (n : nat) : R := match n with O => 1 | S k => (2 * INR k + 3) * odd k end.
Lemma odd_ge n : 1 <= odd n.
Proof. induction n as [|n IH]; cbn [odd]; [lra|]. pose proof (pos_INR n). nra. Qed.
Lemma odd_S n : odd (S n) = (2 * INR n + 3) * odd n.
Proof. reflexivity. Qed.

Definition ac (n j : nat) : R := / (2 ^ j * INR (fact j) * odd (n + j)).
Lemma ac_pos n j : 0 < ac n j.
Proof. apply Rinv_0_lt_compat. pose proof (odd_ge (n + j)). pose proof (INR_fact_lt_0 j). pose proof (pow_lt 2 j ltac:(lra)). apply Rmult_lt_0_compat; [apply Rmult_lt_0_compat|]; lra. Qed.

Lemma ac_next n j : ac n (S j) = ac (S n) j / (2 * INR (S j)).
Proof.
  unfold ac. replace (n + S j)%nat with (S n + j)%nat by lia. rewrite fact_simpl, mult_INR. simpl pow.
  pose proof (odd_ge (S n + j)). pose proof (INR_fact_lt_0 j). pose proof (pow_lt 2 j ltac:(lra)). assert (0 < INR (S j)) by (apply lt_0_INR; lia).
  field. repeat split; lra.
Qed.
Lemma ac_up n j : ac n j = (2 * INR n + 3 + 2 * INR j) * ac (S n) j.
Proof.
  unfold ac. change (S n + j)%nat with (S (n + j)). rewrite odd_S, plus_INR. pose proof (odd_ge (n + j)). pose proof (INR_fact_lt_0 j). pose proof (pow_lt 2 j ltac:(lra)).
  pose proof (pos_INR n). pose proof (pos_INR j). field. repeat split; lra.
Qed.

Lemma ac_radius n : CV_radius (ac n) = p_infty.
Proof.
  apply CV_radius_infinite_DAlembert; [intros j; pose proof (ac_pos n j); lra|].
  apply (is_lim_seq_le_le (fun _ => 0) _ (fun j => / (INR j + 1))).
  - intros j. pose proof (ac_pos n j). pose proof (ac_pos n (S j)). split; [apply Rabs_pos|]. rewrite Rabs_pos_eq by (apply Rmult_le_pos; [lra|left; apply Rinv_0_lt_compat; lra]).
    rewrite ac_next, (ac_up n j). rewrite S_INR. pose proof (ac_pos (S n) j). pose proof (pos_INR n). pose proof (pos_INR j).
    replace (ac (S n) j / (2 * (INR j + 1)) / ((2 * INR n + 3 + 2 * INR j) * ac (S n) j)) with (/ (INR j + 1) * / (2 * (2 * INR n + 3 + 2 * INR j))) by (field; repeat split; lra).
    apply Rle_trans with (/ (INR j + 1) * 1); [|lra]. apply Rmult_le_compat_l; [left; apply Rinv_0_lt_compat; lra|]. rewrite <- Rinv_1. apply Rinv_le_contravar; lra.
  - apply is_lim_seq_const.
  - replace (Finite 0) with (Rbar_inv p_infty) by reflexivity. apply is_lim_seq_inv; [|discriminate].
    apply (is_lim_seq_ext (fun j => INR (S j))); [intros j; apply S_INR|]. apply (is_lim_seq_incr_1 INR). exact is_lim_seq_INR.
Qed.
Lemma ac_inside n y : Rbar_lt (Rabs y) (CV_radius (ac n)).
Proof. rewrite ac_radius. exact I. Qed.
Lemma ac_ex n y : ex_pseries (ac n) y.
Proof. apply CV_radius_inside, ac_inside. Qed.

Definition F (n : nat) (y : R) : R := PSeries (ac n) y.

Lemma F_derive n y : is_derive (F n) y (F (S n) y / 2).
Proof.
  replace (F (S n) y / 2) with (PSeries (PS_derive (ac n)) y); [apply is_derive_PSeries, ac_inside|].
  unfold F. unfold Rdiv. rewrite Rmult_comm, <- PSeries_scal. apply PSeries_ext. intros j. unfold PS_derive, PS_scal. rewrite ac_next. change (scal (/ 2) (ac (S n) j)) with (/ 2 * ac (S n) j).
  assert (0 < INR (S j)) by (apply lt_0_INR; lia). field. lra.
Qed.

Lemma F_rec n y : F n y = (2 * INR n + 3) * F (S n) y + y * F (S (S n)) y.
Proof.
  unfold F. rewrite <- PSeries_incr_1, <- PSeries_scal, <- PSeries_plus.
  - apply PSeries_ext. intros j. unfold PS_plus, PS_scal, PS_incr_1. change (ac n j = (2 * INR n + 3) * ac (S n) j + match j with 0%nat => 0 | S n0 => ac (S (S n)) n0 end).
    rewrite (ac_up n j). destruct j as [|j]; [change (INR 0) with 0; ring|]. rewrite (ac_next (S n) j). assert (0 < INR (S j)) by (apply lt_0_INR; lia). field. lra.
  - apply ex_pseries_scal; [apply Rmult_comm|apply ac_ex].
  - apply ex_pseries_incr_1, ac_ex.
Qed.

Lemma Series_zero : Series (fun _ => 0) = 0.
Proof. transitivity (0 * Series (fun _ => 0)); [|ring]. rewrite <- Series_scal_l. apply Series_ext. intros. ring. Qed.
Lemma F_nonneg n y : 0 <= y -> 0 <= F n y.
Proof.
  intros Hy. unfold F, PSeries. rewrite <- Series_zero. apply Series_le.
  - intros j. split; [lra|]. apply Rmult_le_pos; [left; apply ac_pos|apply pow_le, Hy].
  - exact (proj1 (ex_pseries_R _ _) (ac_ex n y)).
Qed.
Lemma F_low n y : 0 <= y -> (1 + y / (2 * (2 * INR n + 3))) / odd n <= F n y.
Proof.
  intros Hy. unfold F. rewrite PSeries_decr_1 by apply ac_ex. rewrite (PSeries_decr_1 (PS_decr_1 (ac n))) by (apply ex_pseries_decr_1; [|apply ac_ex]; destruct (Req_dec y 0) as [->|N]; [left; reflexivity|right; exists (/ y); apply Rinv_l, N]).
  unfold PS_decr_1. assert (N : 0 <= PSeries (fun k => ac n (S (S k))) y).
  { unfold PSeries. rewrite <- Series_zero. apply Series_le.
    - intros j. split; [lra|]. apply Rmult_le_pos; [left; apply ac_pos|apply pow_le, Hy].
    - assert (E : ex_pseries (fun k => ac n (S (S k))) y); [|exact (proj1 (ex_pseries_R _ _) E)].
      apply (ex_pseries_decr_1 (fun k => ac n (S k))); [destruct (Req_dec y 0) as [->|Z]; [left; reflexivity|right; exists (/ y); apply Rinv_l, Z]|].
      apply (ex_pseries_decr_1 (ac n)); [destruct (Req_dec y 0) as [->|Z]; [left; reflexivity|right; exists (/ y); apply Rinv_l, Z]|]. apply ac_ex. }
  assert (E0 : ac n 0 = / odd n) by (unfold ac; rewrite Nat.add_0_r; simpl; f_equal; ring).
  assert (E1 : ac n 1 = / (2 * ((2 * INR n + 3) * odd n))) by (unfold ac; rewrite Nat.add_1_r; simpl; f_equal; ring).
  rewrite E0, E1. pose proof (odd_ge n). pose proof (pos_INR n).
  replace ((1 + y / (2 * (2 * INR n + 3))) / odd n) with (/ odd n + y * / (2 * ((2 * INR n + 3) * odd n))) by (field; split; lra). nra.
Qed.

Lemma odd_add n j : odd n * (2 * INR n + 3) ^ j <= odd (n + j).
Proof.
  induction j as [|j IH]; [rewrite Nat.add_0_r; simpl; lra|]. rewrite Nat.add_succ_r, odd_S, plus_INR. pose proof (pos_INR j). pose proof (odd_ge n). pose proof (odd_ge (n + j)). pose proof (pos_INR n). simpl pow.
  replace (odd n * ((2 * INR n + 3) * (2 * INR n + 3) ^ j)) with ((2 * INR n + 3) * (odd n * (2 * INR n + 3) ^ j)) by ring.
  apply Rle_trans with ((2 * INR n + 3) * odd (n + j)); [apply Rmult_le_compat_l; lra|]. apply Rmult_le_compat_r; lra.
Qed.
Lemma F_up n y : 0 <= y -> F n y <= exp (y / (2 * (2 * INR n + 3))) / odd n.
Proof.
  intros Hy. pose proof (odd_ge n) as On. pose proof (pos_INR n) as Pn. rewrite exp_Reals. unfold Rdiv. rewrite Rmult_comm, <- PSeries_scal. set (z := y * / (2 * (2 * INR n + 3))).
  assert (Hz : 0 <= z) by (apply Rmult_le_pos; [exact Hy|left; apply Rinv_0_lt_compat; lra]).
  unfold F, PSeries. apply Series_le.
  - intros j. split; [apply Rmult_le_pos; [left; apply ac_pos|apply pow_le, Hy]|].
    unfold PS_scal. change (scal (/ odd n) (/ INR (fact j))) with (/ odd n * / INR (fact j)). unfold z. rewrite Rpow_mult_distr, pow_inv.
    pose proof (pow_le y j Hy) as Hp. set (K := 2 ^ j * INR (fact j)). pose proof (pow_lt 2 j ltac:(lra)) as P2. pose proof (INR_fact_lt_0 j) as Pf. pose proof (pow_lt (2 * INR n + 3) j ltac:(lra)) as P3.
    replace (/ odd n * / INR (fact j) * (y ^ j * / (2 * (2 * INR n + 3)) ^ j)) with (/ (K * (odd n * (2 * INR n + 3) ^ j)) * y ^ j) by (unfold K; rewrite Rpow_mult_distr; field; repeat split; lra).
    apply Rmult_le_compat_r; [exact Hp|]. unfold ac. fold K. assert (0 < K) by (unfold K; nra). apply Rinv_le_contravar.
    + apply Rmult_lt_0_compat; [assumption|]. apply Rmult_lt_0_compat; lra.
    + apply Rmult_le_compat_l; [lra|apply odd_add].
  - assert (E : ex_pseries (PS_scal (/ odd n) (fun k => / INR (fact k))) z); [|exact (proj1 (ex_pseries_R _ _) E)].
    apply ex_pseries_scal; [apply Rmult_comm|]. exists (exp z). apply is_exp_Reals.
Qed.
Lemma F_0_0 n : F n 0 = / odd n.
Proof. unfold F. rewrite PSeries_0. unfold ac. rewrite Nat.add_0_r. simpl. f_equal. ring. Qed.

(** ** the regular functions *)
Definition ii (n : nat) (x : R) : R := x ^ n * F n (x * x).

Lemma ii_derive n x : is_derive (ii n) x (INR n * x ^ pred n * F n (x * x) + ii (S n) x).
Proof.
  unfold ii. pose proof (F_derive n (x * x)) as Fd.
  assert (Q : is_derive (fun x => F n (x * x)) x (x * F (S n) (x * x))).
  { evar_last; [apply (is_derive_comp (F n) (fun x => x * x)); [exact Fd|auto_derive; [exact I|reflexivity]]|]. unfold scal. simpl. unfold mult. simpl. field. }
  assert (P : is_derive (fun x => x ^ n) x (INR n * x ^ pred n)).
  { evar_last; [apply is_derive_pow, is_derive_id|]. match goal with |- ?a = ?b => change (@eq R a b) end. unfold one. simpl. ring. }
  evar_last; [apply (is_derive_mult (fun x => x ^ n) (fun x => F n (x * x)) x _ _ P Q); intros; apply Rmult_comm|]. match goal with |- ?a = ?b => change (@eq R a b) end. unfold plus, mult. simpl. ring.
Qed.
Lemma ii_rec n x : x * ii n x = (2 * INR n + 3) * ii (S n) x + x * ii (S (S n)) x.
Proof. unfold ii. rewrite (F_rec n). simpl pow. ring. Qed.
Lemma ii_nonneg n x : 0 <= x -> 0 <= ii n x.
Proof. intros H. apply Rmult_le_pos; [apply pow_le, H|apply F_nonneg; nra]. Qed.
Lemma ii_up n x : 0 <= x -> ii n x <= x ^ n * exp (x * x / (2 * (2 * INR n + 3))) / odd n.
Proof. intros H. unfold ii. pose proof (F_up n (x * x) ltac:(nra)). unfold Rdiv in *. rewrite Rmult_assoc. apply Rmult_le_compat_l; [apply pow_le, H|assumption]. Qed.
Lemma ii_low n x : 0 <= x -> x ^ n * (1 + x * x / (2 * (2 * INR n + 3))) / odd n <= ii n x.
Proof. intros H. unfold ii. pose proof (F_low n (x * x) ltac:(nra)). unfold Rdiv in *. rewrite Rmult_assoc. apply Rmult_le_compat_l; [apply pow_le, H|assumption]. Qed.

Lemma const_of_derive (f : R -> R) x : (forall t, is_derive f t 0) -> f x = f 0.
Proof.
  intros H. destruct (MVT_gen f 0 x (fun _ => 0)) as (c & _ & E).
  - intros t _. apply H.
  - intros t _. apply continuity_pt_filterlim, (ex_derive_continuous f t). exists 0. apply H.
  - lra.
Qed.

Lemma ii_sinh x : x * F 0 (x * x) = sinh x.
Proof.
  set (u := fun x => x * F 0 (x * x)). set (v := fun x => F 0 (x * x) + x * x * F 1 (x * x)).
  assert (Du : forall t, is_derive u t (v t)).
  { intros t. pose proof (ii_derive 0 t) as D. unfold u. evar_last; [apply (is_derive_mult (fun x => x) (fun x => F 0 (x * x)) t 1 (t * F 1 (t * t)))|].
    - exact (is_derive_id (K := R_AbsRing) t).
    - unfold ii in D. simpl in D. eapply is_derive_ext; [|evar_last; [exact D|]]; [intros y; simpl; ring|match goal with |- ?a = ?b => change (@eq R a b) end; ring].
    - intros; apply Rmult_comm.
    - match goal with |- ?a = ?b => change (@eq R a b) end. unfold plus, mult, v. simpl. ring. }
  assert (Dv : forall t, is_derive v t (u t)).
  { intros t. pose proof (ii_derive 0 t) as D0. pose proof (ii_derive 1 t) as D1. unfold v.
    evar_last; [apply (is_derive_plus (fun x => F 0 (x * x)) (fun x => x * x * F 1 (x * x)) t (t * F 1 (t * t)) (2 * t * F 1 (t * t) + t * t * t * F 2 (t * t)))|].
    - unfold ii in D0. simpl in D0. eapply is_derive_ext; [|evar_last; [exact D0|]]; [intros y; simpl; ring|match goal with |- ?a = ?b => change (@eq R a b) end; ring].
    - apply (is_derive_ext (fun x => x * ii 1 x)); [intros y; unfold ii; simpl; ring|]. evar_last; [apply (is_derive_mult (fun x => x) (ii 1) t 1); [exact (is_derive_id (K := R_AbsRing) t)|exact D1|intros; apply Rmult_comm]|].
      match goal with |- ?a = ?b => change (@eq R a b) end. unfold plus, mult, ii. simpl. ring.
    - match goal with |- ?a = ?b => change (@eq R a b) end. unfold plus, u. simpl. rewrite (F_rec 0). simpl. ring. }
  assert (A : (u x + v x) * exp (- x) = 1).
  { rewrite (const_of_derive (fun x => (u x + v x) * exp (- x)) x).
    - unfold u, v. rewrite !Rmult_0_l, Ropp_0, exp_0, F_0_0. simpl. field.
    - intros t. assert (S1 : is_derive (fun x => u x + v x) t (v t + u t)) by (apply (is_derive_plus u v); auto).
      assert (S2 : is_derive (fun x => exp (- x)) t (- exp (- t))) by (auto_derive; [exact I|ring]).
      evar_last; [apply (is_derive_mult (fun x => u x + v x) (fun x => exp (- x)) t _ _ S1 S2); intros; apply Rmult_comm|]. match goal with |- ?a = ?b => change (@eq R a b) end. unfold plus, mult. simpl. ring. }
  assert (B : (v x - u x) * exp x = 1).
  { rewrite (const_of_derive (fun x => (v x - u x) * exp x) x).
    - unfold u, v. rewrite !Rmult_0_l, exp_0, F_0_0. simpl. field.
    - intros t. assert (S1 : is_derive (fun x => v x - u x) t (u t - v t)) by (apply (is_derive_minus v u); auto).
      evar_last; [apply (is_derive_mult (fun x => v x - u x) exp t _ _ S1 (is_derive_exp t)); intros; apply Rmult_comm|]. match goal with |- ?a = ?b => change (@eq R a b) end. unfold plus, mult. simpl. ring. }
  rewrite exp_Ropp in A. pose proof (exp_pos x) as Px. unfold sinh. rewrite exp_Ropp. fold (u x).
  assert (A' : u x + v x = exp x) by (apply Rmult_eq_reg_r with (/ exp x); [rewrite A; field; lra|apply Rinv_neq_0_compat; lra]).
  assert (B' : v x - u x = / exp x) by (apply Rmult_eq_reg_r with (exp x); [rewrite B; field; lra|lra]). lra.
Qed.

Lemma ii_sph n x : 0 < x -> sph_i n x = ii n x.
Proof.
  revert x. induction n as [|n IH]; intros x Hx; cbn [sph_i].
  - unfold ii. rewrite <- ii_sinh. simpl. field. lra.
  - rewrite (Derive_ext_loc (sph_i n) (ii n)), (is_derive_unique _ _ _ (ii_derive n x)), IH by (try exact Hx; exists (mkposreal x Hx); intros y Hy; apply IH; unfold ball in Hy; simpl in Hy; unfold AbsRing_ball, abs, minus, plus, opp in Hy; simpl in Hy; apply Rabs_def2 in Hy; lra).
    unfold ii at 2. destruct n as [|n]; [simpl INR; simpl pow; field; lra|]. simpl pred. simpl pow. field. lra.
Qed.

(** ** the singular functions *)
Fixpoint G (n : nat) (r : R) : R :=
  match n with
  | O => exp (- r)
  | S m => match m with O => (1 + r) * exp (- r) | S k => (2 * INR k + 3) * G m r + r * r * G k r end
  end.
Lemma G_rec n r : G (S (S n)) r = (2 * INR n + 3) * G (S n) r + r * r * G n r.
Proof. reflexivity. Qed.
Lemma G_pos n r : 0 <= r -> 0 < G n r.
Proof.
  intros Hr. pose proof (exp_pos (- r)) as E. assert (H : 0 < G n r /\ 0 < G (S n) r); [|tauto]. induction n as [|n [I1 I2]]; [split; simpl; nra|]. split; [exact I2|]. rewrite G_rec. pose proof (pos_INR n). assert (0 < (2 * INR n + 3) * G (S n) r) by (apply Rmult_lt_0_compat; lra). nra.
Qed.
Lemma G0_derive r : is_derive (G 0) r (- exp (- r)).
Proof. apply (is_derive_ext (fun r => exp (- r))); [reflexivity|]. auto_derive; [exact I|ring]. Qed.
Lemma G_derive n r : is_derive (G (S n)) r (- r * G n r).
Proof.
  assert (H : is_derive (G (S n)) r (- r * G n r) /\ is_derive (G (S (S n))) r (- r * G (S n) r)); [|tauto]. 
  assert (D1 : is_derive (G 1) r (- r * G 0 r)) by (apply (is_derive_ext (fun r => (1 + r) * exp (- r))); [reflexivity|]; auto_derive; [exact I|simpl; ring]).
  assert (St : forall n d0 d1, is_derive (G n) r d0 -> is_derive (G (S n)) r d1 -> is_derive (G (S (S n))) r ((2 * INR n + 3) * d1 + (2 * r * G n r + r * r * d0))).
  { intros k d0 d1 H0 H1. apply (is_derive_ext (fun r => (2 * INR k + 3) * G (S k) r + r * r * G k r)); [intros; reflexivity|]. apply (is_derive_plus (fun r => (2 * INR k + 3) * G (S k) r) (fun r => r * r * G k r)).
    - apply (is_derive_scal (G (S k)) r); exact H1.
    - assert (Sq : is_derive (fun r => r * r) r (2 * r)) by (auto_derive; [exact I|ring]). evar_last; [apply (is_derive_mult (fun r => r * r) (G k) r _ _ Sq H0); intros; apply Rmult_comm|]. match goal with |- ?a = ?b => change (@eq R a b) end. reflexivity. }
  induction n as [|n [I1 I2]].
  - split; [exact D1|]. evar_last; [apply (St 0%nat _ _ (G0_derive r) D1)|]. match goal with |- ?a = ?b => change (@eq R a b) end. simpl. ring.
  - split; [exact I2|]. evar_last; [apply (St (S n) _ _ I1 I2)|]. match goal with |- ?a = ?b => change (@eq R a b) end. rewrite G_rec, S_INR. ring.
Qed.

(** (2 n - 1)!! *)
Definition oddm (n : nat) : R := match n with O => 1 | S k => odd k end.
Lemma oddm_S n : oddm (S n) = (2 * INR n + 1) * oddm n.
Proof. destruct n as [|n]; [simpl; ring|]. cbn [oddm]. rewrite odd_S, S_INR. ring. Qed.
Lemma oddm_ge n : 1 <= oddm n.
Proof. destruct n; [simpl; lra|apply odd_ge]. Qed.
Lemma G_0_at n : G n 0 = oddm n.
Proof.
  assert (H : G n 0 = oddm n /\ G (S n) 0 = oddm (S n)); [|tauto]. induction n as [|n [I1 I2]]; [split; simpl; rewrite Ropp_0, exp_0; ring|]. split; [exact I2|]. rewrite G_rec, I2, (oddm_S (S n)), S_INR. ring.
Qed.
Lemma G_up n r : 0 <= r -> G n r <= oddm n.
Proof.
  intros Hr. destruct n as [|n].
  - simpl. rewrite <- exp_0. destruct (Req_dec r 0) as [->|N]; [rewrite Ropp_0; lra|]. left. apply exp_increasing. lra.
  - rewrite <- G_0_at. destruct (MVT_gen (G (S n)) 0 r (fun t => - t * G n t)) as (c & Hc & E).
    + intros t _. apply G_derive.
    + intros t _. apply continuity_pt_filterlim, (ex_derive_continuous (G (S n)) t). eexists. apply G_derive.
    + rewrite Rmin_left, Rmax_right in Hc by lra. pose proof (G_pos n c ltac:(lra)). assert (0 <= c * G n c * (r - 0)) by (apply Rmult_le_pos; [apply Rmult_le_pos; lra|lra]). nra.
Qed.

Definition kk (n : nat) (r : R) : R := G n r / r ^ S n.
Lemma kk_pos n r : 0 < r -> 0 < kk n r.
Proof. intros H. apply Rmult_lt_0_compat; [apply G_pos; lra|apply Rinv_0_lt_compat, pow_lt, H]. Qed.
Lemma kk_up n r : 0 < r -> kk n r <= oddm n / r ^ S n.
Proof. intros H. apply Rmult_le_compat_r; [left; apply Rinv_0_lt_compat, pow_lt, H|apply G_up; lra]. Qed.
Lemma kk_rec n r : 0 < r -> kk (S (S n)) r = kk n r + (2 * INR n + 3) / r * kk (S n) r.
Proof. intros H. unfold kk. rewrite G_rec. simpl pow. field. split; [apply pow_nonzero|]; lra. Qed.
Lemma kk_derive n r : 0 < r -> is_derive (kk n) r (INR n / r * kk n r - kk (S n) r).
Proof.
  intros H. assert (exists d, is_derive (G n) r d /\ G (S n) r = (2 * INR n + 1) * G n r - r * d) as (d & D & E).
  { destruct n as [|n]; [exists (- exp (- r)); split; [apply G0_derive|simpl; ring]|]. exists (- r * G n r). split; [apply G_derive|]. rewrite G_rec, S_INR. ring. }
  unfold kk. assert (P : is_derive (fun r => r ^ S n) r (INR (S n) * r ^ n)).
  { evar_last; [apply is_derive_pow, is_derive_id|]. match goal with |- ?a = ?b => change (@eq R a b) end. unfold one. simpl pred. simpl. ring. }
  evar_last; [apply (is_derive_div (G n) (fun r => r ^ S n) r d _ D P); apply pow_nonzero; lra|]. match goal with |- ?a = ?b => change (@eq R a b) end. rewrite E, S_INR. simpl pow. field. split; [apply pow_nonzero|]; lra.
Qed.
Lemma kk_sph n x : 0 < x -> sph_k n x = kk n x.
Proof.
  revert x. induction n as [|n IH]; intros x Hx; cbn [sph_k].
  - unfold kk. simpl. f_equal. ring.
  - rewrite (Derive_ext_loc (sph_k n) (kk n)), (is_derive_unique _ _ _ (kk_derive n x Hx)), IH by (try exact Hx; exists (mkposreal x Hx); intros y Hy; apply IH; unfold ball in Hy; simpl in Hy; unfold AbsRing_ball, abs, minus, plus, opp in Hy; simpl in Hy; apply Rabs_def2 in Hy; lra). ring.
Qed.
