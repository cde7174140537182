(** The elementary functions on numbers with a known error. *)
From Coq Require Import Reals ZArith List Lia Lra Psatz.
From Coq Require Import Machin.
From Verif Require Import QuadBall.
Import ListNotations.
Open Scope R_scope.

Fixpoint factZ (n : nat) : Z := match n with O => 1%Z | S k => (Z.of_nat (S k) * factZ k)%Z end.
Lemma factZ_INR n : IZR (factZ n) = INR (fact n).
Proof. induction n as [|n IH]; [reflexivity|]. change (factZ (S n)) with (Z.of_nat (S n) * factZ n)%Z. rewrite mult_IZR, IH, fact_step, <- INR_IZR_INZ. reflexivity. Qed.
Lemma factZ_pos n : (0 < factZ n)%Z.
Proof. induction n as [|n IH]; [reflexivity|]. change (factZ (S n)) with (Z.of_nat (S n) * factZ n)%Z. lia. Qed.

Lemma horner_snoc l c y : horner (l ++ [c]) y = horner l y + c * y ^ length l.
Proof. induction l as [|a l IH]; [cbn; ring|]. cbn [app horner fold_right length pow]. unfold horner in IH. rewrite IH. ring. Qed.
Lemma horner_sum (c : nat -> R) y n : sum_f_R0 (fun i => c i * y ^ i) n = horner (map c (seq 0 (S n))) y.
Proof.
  induction n as [|n IH]; [cbn; ring|]. cbn [sum_f_R0]. rewrite IH, (seq_S (S n) 0), map_app. cbn [map plus]. rewrite horner_snoc, map_length, seq_length. reflexivity.
Qed.
Lemma fac_list (k : nat -> nat) l : List.Forall2 within (map (fun i => bfrac 1 (factZ (k i))) l) (map (fun i => 1 / INR (fact (k i))) l).
Proof. induction l as [|i l IH]; [constructor|]. cbn [map]. constructor; [|exact IH]. rewrite <- factZ_INR. apply bfrac_ok, factZ_pos. Qed.

(** ** exp (- x) for x up to 1/2 *)
Definition bexpn (b : ball) : ball := bwide (bhorner (map (fun i => bfrac 1 (factZ i)) (seq 0 13)) (bneg b)) 1.
Lemma en_horner n x : en n x = horner (map (fun i => 1 / INR (fact i)) (seq 0 (S n))) (- x).
Proof.
  rewrite <- horner_sum. induction n as [|n IH]; [cbn; field|]. cbn [en sum_f_R0]. rewrite IH. f_equal. unfold Rdiv. ring.
Qed.
Lemma bexpn_ok b x : 0 <= x <= 1 / 2 -> within b x -> within (bexpn b) (exp (- x)).
Proof.
  intros Hx W. unfold bexpn. eapply bwide_ok; [apply bhorner_ok; [apply (fac_list (fun i => i))|apply bneg_ok, W]|]. rewrite <- (en_horner 12).
  eapply Rle_trans; [apply Rmult_le_compat_r; [left; apply SCR|apply en_bound; lra]|]. assert (x ^ 13 <= (1 / 2) ^ 13) by (apply pow_incr; lra).
  rewrite <- factZ_INR. unfold SC. change (factZ 13) with 6227020800%Z. lra.
Qed.

(** ** cos and sin for x from 0 to 8/5 *)
Definition bcos (b : ball) : ball := bwide (bhorner (map (fun i => bfrac 1 (factZ (2 * i))) (seq 0 10)) (bneg (bmul b b))) 1.
Definition bsin (b : ball) : ball := bwide (bmul b (bhorner (map (fun i => bfrac 1 (factZ (2 * i + 1))) (seq 0 10)) (bneg (bmul b b)))) 1.
Lemma sq_pow a i : a ^ (2 * i) = (-1) ^ i * (- (a * a)) ^ i.
Proof. rewrite <- Rpow_mult_distr, pow_mult. f_equal. ring. Qed.
Lemma m1_sq i : (-1) ^ i * (-1) ^ i = 1.
Proof. rewrite <- Rpow_mult_distr. replace (-1 * -1) with 1 by ring. apply pow1. Qed.
Lemma cos_horner a n : cos_approx a n = horner (map (fun i => 1 / INR (fact (2 * i))) (seq 0 (S n))) (- (a * a)).
Proof.
  rewrite <- horner_sum. unfold cos_approx. apply sum_eq. intros i _. unfold cos_term. rewrite sq_pow. pose proof (m1_sq i). unfold Rdiv. transitivity ((-1) ^ i * (-1) ^ i * (- (a * a)) ^ i * / INR (fact (2 * i))); [ring|]. rewrite H. ring.
Qed.
Lemma sin_horner a n : sin_approx a n = a * horner (map (fun i => 1 / INR (fact (2 * i + 1))) (seq 0 (S n))) (- (a * a)).
Proof.
  rewrite <- horner_sum, scal_sum. unfold sin_approx. apply sum_eq. intros i _. unfold sin_term. rewrite pow_add, sq_pow. pose proof (m1_sq i). unfold Rdiv. transitivity ((-1) ^ i * (-1) ^ i * (- (a * a)) ^ i * a * / INR (fact (2 * i + 1))); [ring|]. rewrite H. ring.
Qed.
Lemma bcos_ok b x : 0 <= x <= 8 / 5 -> within b x -> within (bcos b) (cos x).
Proof.
  intros Hx W. unfold bcos. eapply bwide_ok; [apply bhorner_ok; [apply (fac_list (fun i => 2 * i)%nat)|apply bneg_ok, bmul_ok; exact W]|]. rewrite <- (cos_horner x 9).
  pose proof (pre_cos_bound x 4 ltac:(lra) ltac:(lra)) as B. change (2 * 4 + 1)%nat with 9%nat in B. change (2 * (4 + 1))%nat with 10%nat in B.
  assert (E : cos_approx x 10 = cos_approx x 9 + cos_term x 10) by reflexivity. assert (T : cos_term x 10 = x ^ 20 / INR (fact 20)) by (unfold cos_term; change (2 * 10)%nat with 20%nat; ring).
  assert (x ^ 20 <= (8 / 5) ^ 20) by (apply pow_incr; lra). rewrite T, <- factZ_INR in E. change (factZ 20) with 2432902008176640000%Z in E. rewrite Rabs_right by lra. unfold SC. lra.
Qed.
Lemma bsin_ok b x : 0 <= x <= 8 / 5 -> within b x -> within (bsin b) (sin x).
Proof.
  intros Hx W. unfold bsin. eapply bwide_ok; [apply bmul_ok; [exact W|apply bhorner_ok; [apply (fac_list (fun i => 2 * i + 1)%nat)|apply bneg_ok, bmul_ok; exact W]]|]. rewrite <- (sin_horner x 9).
  pose proof (pre_sin_bound x 4 ltac:(lra) ltac:(lra)) as B. change (2 * 4 + 1)%nat with 9%nat in B. change (2 * (4 + 1))%nat with 10%nat in B.
  assert (E : sin_approx x 10 = sin_approx x 9 + sin_term x 10) by reflexivity. assert (T : sin_term x 10 = x ^ 21 / INR (fact 21)) by (unfold sin_term; change (2 * 10 + 1)%nat with 21%nat; ring).
  assert (x ^ 21 <= (8 / 5) ^ 21) by (apply pow_incr; lra). rewrite T, <- factZ_INR in E. change (factZ 21) with 51090942171709440000%Z in E. rewrite Rabs_right by lra. unfold SC. lra.
Qed.

(** ** pi *)
Definition bPI : ball := Ball 843314856 2.
Lemma bPI_ok : within bPI PI.
Proof.
  apply within_int. cbn [bPI mid rad]. pose proof (PI_2_3_7_ineq 7) as H. unfold SC.
  change (S (2 * 7)) with 15%nat in H. change (2 * 7)%nat with 14%nat in H. cbn [sum_f_R0] in H. unfold tg_alt, PI_2_3_7_tg, Ratan_seq in H.
  cbn [Nat.mul Nat.add] in H. simpl in H. lra.
Qed.

(** ** the inverse square root of an integer *)
Definition binvsqrt (s : Z) : ball := Ball (Z.sqrt (SC * SC / s)) 2.
Lemma binvsqrt_ok s : (0 < s)%Z -> within (binvsqrt s) (/ sqrt (IZR s)).
Proof.
  intros H. assert (P : 0 < IZR s) by (apply IZR_lt; exact H). apply within_int. cbn [binvsqrt mid rad]. set (n := Z.sqrt (SC * SC / s)).
  assert (N0 : (0 <= SC * SC / s)%Z) by (apply Z.div_pos; [vm_compute; discriminate|exact H]). pose proof (Z.sqrt_spec _ N0) as [L U]. pose proof (Z.sqrt_nonneg (SC * SC / s)) as Pn. fold n in L, U, Pn.
  pose proof (div_bounds (SC * SC) s H) as [D1 D2]. apply IZR_le in L. apply IZR_lt in U. apply IZR_le in Pn. rewrite mult_IZR in L. rewrite mult_IZR, succ_IZR in U. rewrite mult_IZR in D1, D2. pose proof SCR as PS.
  pose proof (sqrt_lt_R0 _ P) as Q. pose proof (sqrt_sqrt (IZR s) (Rlt_le _ _ P)) as SS. set (r := sqrt (IZR s)) in *.
  set (v := / r * IZR SC). assert (Pv : 0 < v) by (apply Rmult_lt_0_compat; [apply Rinv_0_lt_compat; exact Q|exact PS]). assert (V : v * v = IZR SC * IZR SC / IZR s) by (unfold v; rewrite <- SS; field; lra).
  split; nra.
Qed.
