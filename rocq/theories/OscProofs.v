(** Spherical Bessel functions: power series, recurrences, bounds by the modified functions. *)
From Coq Require Import Reals Lia Lra Psatz.
From Coquelicot Require Import Coquelicot.
From Verif Require Import BesselSpec BesselProofs OscSpec.
Open Scope R_scope.

Ltac re := match goal with |- ?a = ?b => change (@eq Rdefinitions.R a b) end.

(** ** the regular functions *)
Definition jj (n : nat) (x : R) : R := x ^ n * F n (- (x * x)).

Lemma F_abs n y : 0 <= y -> Rabs (F n (- y)) <= F n y.
Proof.
  intros Hy. unfold F, PSeries. assert (E : forall j, Rabs (ac n j * (- y) ^ j) = ac n j * y ^ j).
  { intros j. rewrite Rabs_mult, <- RPow_abs, Rabs_Ropp, (Rabs_pos_eq y) by exact Hy. rewrite Rabs_pos_eq by (left; apply ac_pos). reflexivity. }
  assert (X : ex_series (fun j => Rabs (ac n j * (- y) ^ j))).
  { apply (ex_series_ext (fun j => ac n j * y ^ j)); [intros j; symmetry; apply E|]. exact (proj1 (ex_pseries_R _ _) (ac_ex n y)). }
  eapply Rle_trans; [apply Series_Rabs, X|]. right. apply Series_ext. exact E.
Qed.
Lemma jj_le n x : 0 <= x -> Rabs (jj n x) <= ii n x.
Proof. intros H. unfold jj, ii. rewrite Rabs_mult, Rabs_pos_eq by (apply pow_le, H). apply Rmult_le_compat_l; [apply pow_le, H|apply F_abs; nra]. Qed.
Lemma jj_derive n x : is_derive (jj n) x (INR n * x ^ pred n * F n (- (x * x)) - jj (S n) x).
Proof.
  unfold jj. pose proof (F_derive n (- (x * x))) as Fd.
  assert (Q : is_derive (fun x => F n (- (x * x))) x (- (x * F (S n) (- (x * x))))).
  { evar_last; [apply (is_derive_comp (F n) (fun x => - (x * x))); [exact Fd|auto_derive; [exact I|reflexivity]]|]. unfold scal. simpl. unfold mult. simpl. field. }
  assert (P : is_derive (fun x => x ^ n) x (INR n * x ^ pred n)).
  { evar_last; [apply is_derive_pow, is_derive_id|]. re. unfold one. simpl. ring. }
  evar_last; [apply (is_derive_mult (fun x => x ^ n) (fun x => F n (- (x * x))) x _ _ P Q); intros; apply Rmult_comm|]. re. unfold plus, mult. simpl. ring.
Qed.
Lemma jj_rec n x : x * jj n x = (2 * INR n + 3) * jj (S n) x - x * jj (S (S n)) x.
Proof. unfold jj. rewrite (F_rec n). simpl pow. ring. Qed.

Lemma jj_sin x : x * F 0 (- (x * x)) = sin x.
Proof.
  set (u := fun x => x * F 0 (- (x * x)) - sin x). set (v := fun x => F 0 (- (x * x)) - x * x * F 1 (- (x * x)) - cos x).
  assert (D0 : forall t, is_derive (fun x => F 0 (- (x * x))) t (- (t * F 1 (- (t * t))))).
  { intros t. pose proof (jj_derive 0 t) as D. unfold jj in D. simpl in D. eapply is_derive_ext; [|evar_last; [exact D|]]; [intros y; simpl; ring|re; ring]. }
  assert (Du : forall t, is_derive u t (v t)).
  { intros t. unfold u, v. evar_last; [apply (is_derive_minus (fun x => x * F 0 (- (x * x))) sin t); [apply (is_derive_mult (fun x => x) (fun x => F 0 (- (x * x))) t 1 _ (is_derive_id (K := R_AbsRing) t) (D0 t)); intros; apply Rmult_comm|apply is_derive_sin]|].
    re. unfold minus, plus, opp, mult. simpl. ring. }
  assert (Dv : forall t, is_derive v t (- u t)).
  { intros t. unfold u, v. pose proof (jj_derive 1 t) as D1.
    assert (D2 : is_derive (fun x => x * x * F 1 (- (x * x))) t (2 * t * F 1 (- (t * t)) - t * t * t * F 2 (- (t * t)))).
    { apply (is_derive_ext (fun x => x * jj 1 x)); [intros y; unfold jj; simpl; ring|]. evar_last; [apply (is_derive_mult (fun x => x) (jj 1) t 1 _ (is_derive_id (K := R_AbsRing) t) D1); intros; apply Rmult_comm|]. re. unfold plus, mult, jj. simpl. ring. }
    evar_last; [apply (is_derive_minus (fun x => F 0 (- (x * x)) - x * x * F 1 (- (x * x))) cos t); [apply (is_derive_minus _ _ t _ _ (D0 t) D2)|apply is_derive_cos]|].
    re. unfold minus, plus, opp. simpl. rewrite (F_rec 0). simpl. ring. }
  assert (A : u x * u x + v x * v x = 0).
  { rewrite (const_of_derive (fun x => u x * u x + v x * v x) x).
    - unfold u, v. rewrite !Rmult_0_l, Ropp_0, F_0_0, sin_0, cos_0. simpl. field.
    - intros t. assert (S1 : is_derive (fun x => u x * u x) t (v t * u t + u t * v t)) by (apply (is_derive_mult u u t _ _ (Du t) (Du t)); intros; apply Rmult_comm).
      assert (S2 : is_derive (fun x => v x * v x) t (- u t * v t + v t * - u t)) by (apply (is_derive_mult v v t _ _ (Dv t) (Dv t)); intros; apply Rmult_comm).
      evar_last; [apply (is_derive_plus _ _ t _ _ S1 S2)|]. re. unfold plus. simpl. ring. }
  assert (u x = 0) by nra. unfold u in *. lra.
Qed.

(** ** the singular functions, with an arbitrary phase: phase - PI / 2 gives j_n, PI gives y_n *)
Section Phase.
Variable phi : R.
Fixpoint H (n : nat) (r : R) : R :=
  match n with
  | O => cos (r + phi)
  | S m => match m with O => cos (r + phi) + r * sin (r + phi) | S k => (2 * INR k + 3) * H m r - r * r * H k r end
  end.
Lemma H_rec n r : H (S (S n)) r = (2 * INR n + 3) * H (S n) r - r * r * H n r.
Proof. reflexivity. Qed.
Lemma H0_derive r : is_derive (H 0) r (- sin (r + phi)).
Proof. apply (is_derive_ext (fun r => cos (r + phi))); [reflexivity|]. auto_derive; [exact I|ring]. Qed.
Lemma H_derive n r : is_derive (H (S n)) r (r * H n r).
Proof.
  assert (Hd : is_derive (H (S n)) r (r * H n r) /\ is_derive (H (S (S n))) r (r * H (S n) r)); [|tauto].
  assert (D1 : is_derive (H 1) r (r * H 0 r)) by (apply (is_derive_ext (fun r => cos (r + phi) + r * sin (r + phi))); [reflexivity|]; auto_derive; [exact I|simpl; ring]).
  assert (St : forall n d0 d1, is_derive (H n) r d0 -> is_derive (H (S n)) r d1 -> is_derive (H (S (S n))) r ((2 * INR n + 3) * d1 - (2 * r * H n r + r * r * d0))).
  { intros k d0 d1 E0 E1. apply (is_derive_ext (fun r => (2 * INR k + 3) * H (S k) r - r * r * H k r)); [intros; reflexivity|]. apply (is_derive_minus (fun r => (2 * INR k + 3) * H (S k) r) (fun r => r * r * H k r)).
    - apply (is_derive_scal (H (S k)) r); exact E1.
    - assert (Sq : is_derive (fun r => r * r) r (2 * r)) by (auto_derive; [exact I|ring]). evar_last; [apply (is_derive_mult (fun r => r * r) (H k) r _ _ Sq E0); intros; apply Rmult_comm|]. re. reflexivity. }
  induction n as [|n [I1 I2]].
  - split; [exact D1|]. evar_last; [apply (St 0%nat _ _ (H0_derive r) D1)|]. re. simpl. ring.
  - split; [exact I2|]. evar_last; [apply (St (S n) _ _ I1 I2)|]. re. rewrite H_rec, S_INR. ring.
Qed.
Lemma H_le n r : 0 <= r -> Rabs (H n r) <= exp r * G n r.
Proof.
  intros Hr. assert (E : exp r * exp (- r) = 1) by (rewrite <- exp_plus, Rplus_opp_r; apply exp_0). assert (C : Rabs (cos (r + phi)) <= 1) by (apply Rabs_le, COS_bound). assert (Sn : Rabs (sin (r + phi)) <= 1) by (apply Rabs_le, SIN_bound).
  assert (T : Rabs (H n r) <= exp r * G n r /\ Rabs (H (S n) r) <= exp r * G (S n) r); [|tauto].
  induction n as [|n [I1 I2]].
  - split; cbn [H G]; [rewrite E; exact C|]. replace (exp r * ((1 + r) * exp (- r))) with ((exp r * exp (- r)) * (1 + r)) by ring. rewrite E. eapply Rle_trans; [apply Rabs_triang|]. rewrite Rabs_mult, (Rabs_pos_eq r) by exact Hr. nra.
  - split; [exact I2|]. rewrite H_rec, G_rec. pose proof (pos_INR n). eapply Rle_trans; [apply Rabs_triang|]. rewrite Rabs_Ropp, !Rabs_mult, (Rabs_pos_eq r), (Rabs_pos_eq (2 * INR n + 3)) by lra.
    replace (exp r * ((2 * INR n + 3) * G (S n) r + r * r * G n r)) with ((2 * INR n + 3) * (exp r * G (S n) r) + r * r * (exp r * G n r)) by ring.
    apply Rplus_le_compat; apply Rmult_le_compat_l; try assumption; nra.
Qed.
Definition zz (n : nat) (r : R) : R := H n r / r ^ S n.
Lemma zz_le n r : 0 < r -> Rabs (zz n r) <= exp r * kk n r.
Proof. intros Hr. unfold zz, kk, Rdiv. pose proof (pow_lt r (S n) Hr). assert (0 < / r ^ S n) by (apply Rinv_0_lt_compat; assumption). rewrite Rabs_mult, (Rabs_pos_eq (/ r ^ S n)), <- Rmult_assoc by lra. apply Rmult_le_compat_r; [lra|apply H_le; lra]. Qed.
Lemma zz_rec n r : 0 < r -> zz (S (S n)) r = (2 * INR n + 3) / r * zz (S n) r - zz n r.
Proof. intros Hr. unfold zz. rewrite H_rec. simpl pow. field. split; [apply pow_nonzero|]; lra. Qed.
Lemma zz_derive n r : 0 < r -> is_derive (zz n) r (INR n / r * zz n r - zz (S n) r).
Proof.
  intros Hr. assert (exists d, is_derive (H n) r d /\ H (S n) r = (2 * INR n + 1) * H n r - r * d) as (d & D & E).
  { destruct n as [|n]; [exists (- sin (r + phi)); split; [apply H0_derive|simpl; ring]|]. exists (r * H n r). split; [apply H_derive|]. rewrite H_rec, S_INR. ring. }
  unfold zz. assert (P : is_derive (fun r => r ^ S n) r (INR (S n) * r ^ n)).
  { evar_last; [apply is_derive_pow, is_derive_id|]. re. unfold one. simpl pred. simpl. ring. }
  evar_last; [apply (is_derive_div (H n) (fun r => r ^ S n) r d _ D P); apply pow_nonzero; lra|]. re. rewrite E, S_INR. simpl pow. field. split; [apply pow_nonzero|]; lra.
Qed.
End Phase.

Lemma near_pos x y (Hx : 0 < x) : ball x (mkposreal x Hx) y -> 0 < y.
Proof. intros Hy. unfold ball in Hy. simpl in Hy. unfold AbsRing_ball, abs, minus, plus, opp in Hy. simpl in Hy. apply Rabs_def2 in Hy. lra. Qed.
Lemma jj_sph n x : 0 < x -> sph_j n x = jj n x.
Proof.
  revert x. induction n as [|n IH]; intros x Hx; cbn [sph_j].
  - unfold jj. rewrite <- jj_sin. simpl. field. lra.
  - rewrite (Derive_ext_loc (sph_j n) (jj n)), (is_derive_unique _ _ _ (jj_derive n x)), IH by (try exact Hx; exists (mkposreal x Hx); intros y Hy; apply IH, (near_pos _ _ _ Hy)).
    unfold jj at 1. destruct n as [|n]; [simpl INR; simpl pow; field; lra|]. simpl pred. simpl pow. field. lra.
Qed.
Lemma cos_half x : cos (x + - (PI / 2)) = sin x.
Proof. rewrite <- cos_shift. rewrite <- cos_neg. f_equal. ring. Qed.
Lemma cos_pi x : cos (x + PI) = - cos x.
Proof. apply neg_cos. Qed.
Lemma zz_sph_y n x : 0 < x -> sph_y n x = zz PI n x.
Proof.
  revert x. induction n as [|n IH]; intros x Hx; cbn [sph_y].
  - unfold zz. cbn [H]. rewrite cos_pi. simpl. field. lra.
  - rewrite (Derive_ext_loc (sph_y n) (zz PI n)), (is_derive_unique _ _ _ (zz_derive PI n x Hx)), IH by (try exact Hx; exists (mkposreal x Hx); intros y Hy; apply IH, (near_pos _ _ _ Hy)). ring.
Qed.
Lemma zz_sph_j n x : 0 < x -> sph_j n x = zz (- (PI / 2)) n x.
Proof.
  revert x. induction n as [|n IH]; intros x Hx; cbn [sph_j].
  - unfold zz. cbn [H]. rewrite cos_half. simpl. field. lra.
  - rewrite (Derive_ext_loc (sph_j n) (zz (- (PI / 2)) n)), (is_derive_unique _ _ _ (zz_derive (- (PI / 2)) n x Hx)), IH by (try exact Hx; exists (mkposreal x Hx); intros y Hy; apply IH, (near_pos _ _ _ Hy)). ring.
Qed.
