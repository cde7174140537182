(** What the power series of the exponential function leaves out. *)
From Coq Require Import Reals ZArith List Lia Lra Psatz.
From Coquelicot Require Import Coquelicot.
From Verif Require Import LegProofs SolidProofs WaveSpec WaveAlg Pot97Bound QuadBall.
Open Scope R_scope.

(** The first [N] terms at [c * t] *)
Definition part (c : R) (N : nat) (t : R) : R := rtotal (fun n => t ^ n / INR (fact n) * c ^ n) N.
Lemma term_derive (d : R) n t : is_derive (fun t => t ^ S n / INR (fact (S n)) * d) t (t ^ n / INR (fact n) * d).
Proof.
  pose proof (INR_fact_neq_0 n) as F. assert (N : INR (S n) <> 0) by (apply not_0_INR; lia).
  apply (is_derive_ext (fun t => d * (t ^ S n / INR (fact (S n))))); [intros s; apply Rmult_comm|]. evar_last; [apply is_derive_scal, (d_pow (fun t => t) 1), (is_derive_id (K := R_AbsRing))|].
  rewrite fact_step. match goal with |- ?l = ?r => change (@eq R (d * (INR (S n) * 1 * t ^ n / (INR (S n) * INR (fact n)))) r) end. field. split; assumption.
Qed.
Lemma sum_derive (d : nat -> R) N t : is_derive (fun t => rtotal (fun n => t ^ n / INR (fact n) * d n) (S N)) t (rtotal (fun n => t ^ n / INR (fact n) * d (S n)) N).
Proof.
  induction N as [|N IH].
  - cbn [rtotal pow fact INR]. apply (is_derive_ext (fun _ => 0 + 1 / 1 * d 0%nat)); [reflexivity|]. auto_derive; [exact I|reflexivity].
  - apply (is_derive_ext (fun t => rtotal (fun n => t ^ n / INR (fact n) * d n) (S N) + t ^ S N / INR (fact (S N)) * d (S N))); [reflexivity|].
    cbn [rtotal]. apply (is_derive_plus (fun t => rtotal (fun n => t ^ n / INR (fact n) * d n) (S N)) (fun t => t ^ S N / INR (fact (S N)) * d (S N))); [exact IH|apply term_derive].
Qed.
Lemma part_derive c N t : is_derive (part c (S N)) t (c * part c N t).
Proof.
  evar_last; [apply (sum_derive (fun n => c ^ n))|]. unfold part. induction N as [|N IH]; [cbn [rtotal]; ring|]. cbn [rtotal]. rewrite IH. cbn [pow]. ring.
Qed.
Lemma part_0 c N : part c (S N) 0 = 1.
Proof. induction N as [|N IH]; [cbn; field|]. unfold part in *. cbn [rtotal] in *. rewrite IH. cbn [pow]. unfold Rdiv. ring. Qed.
Lemma exp_derive c t : is_derive (fun t => exp (c * t)) t (c * exp (c * t)).
Proof. auto_derive; [exact I|ring]. Qed.
Lemma part_exp c N t : 0 <= c -> 0 <= t -> part c N t <= exp (c * t).
Proof.
  intros Hc. revert t. induction N as [|N IH]; intros t Ht; [unfold part; cbn [rtotal]; left; apply exp_pos|].
  enough (part c (S N) t - exp (c * t) <= 0) by lra. apply (decr (fun t => part c (S N) t - exp (c * t)) (fun t => c * part c N t - c * exp (c * t)) t); [| | |lra].
  - intros s _. apply (is_derive_minus (part c (S N)) (fun t => exp (c * t))); [apply part_derive|apply exp_derive].
  - intros s Hs. specialize (IH s ltac:(lra)). nra.
  - rewrite part_0, Rmult_0_r, exp_0. lra.
Qed.

Section Tail.
Variables (z : C) (c : R).
Hypothesis Hz : Cmod z <= c.
Definition ser (u : C) (N : nat) (t : R) : R := rtotal (fun n => t ^ n / INR (fact n) * fst (u * cp z n)%C) N.
Definition osc (u : C) (t : R) : R := fst (u * cexp (RtoC t * z))%C.
Lemma ser_derive u N t : is_derive (ser u (S N)) t (ser (u * z)%C N t).
Proof.
  evar_last; [apply (sum_derive (fun n => fst (u * cp z n)%C))|]. unfold ser. induction N as [|N IH]; [reflexivity|]. cbn [rtotal]. rewrite IH. replace (u * cp z (S N))%C with (u * z * cp z N)%C by (cbn [cp]; ring). reflexivity.
Qed.
Lemma osc_derive u t : is_derive (osc u) t (osc (u * z)%C t).
Proof.
  destruct u as [a b]. pose (p := fst z). pose (q := snd z).
  apply (is_derive_ext (fun t => exp (t * p) * (a * cos (t * q) - b * sin (t * q)))).
  - intros s. unfold osc, cexp, cis, RtoC, Cmult. cbn [fst snd]. fold p q. replace (s * p - 0 * q) with (s * p) by ring. replace (s * q + 0 * p) with (s * q) by ring. match goal with |- ?l = ?r => change (@eq R l r) end. ring.
  - unfold osc, cexp, cis, RtoC, Cmult. cbn [fst snd]. fold p q. replace (t * p - 0 * q) with (t * p) by ring. replace (t * q + 0 * p) with (t * q) by ring. auto_derive; [exact I|]. ring.
Qed.
Lemma re_le (w : C) : fst w <= Cmod w.
Proof. eapply Rle_trans; [apply Rle_abs|]. apply (Rle_trans _ _ _ (Rmax_l _ _) (Rmax_Cmod _)). Qed.
Lemma c_pos : 0 <= c. Proof. eapply Rle_trans; [apply Cmod_ge_0|exact Hz]. Qed.
Lemma cexp_mod w : Cmod (cexp w) = exp (fst w).
Proof. unfold cexp. rewrite Cmod_mult, cis_mod, Rmult_1_r, Cmod_R. apply Rabs_right. left. apply exp_pos. Qed.
Lemma exp_mono x y : x <= y -> exp x <= exp y.
Proof. intros [H|H]; [left; apply exp_increasing, H|right; rewrite H; reflexivity]. Qed.
Lemma tail_re N : forall u t, 0 <= t -> osc u t - ser u N t <= Cmod u * (exp (c * t) - part c N t).
Proof.
  induction N as [|N IH]; intros u t Ht.
  - unfold ser, part. cbn [rtotal]. rewrite !Rminus_0_r. unfold osc. eapply Rle_trans; [apply re_le|]. rewrite Cmod_mult, cexp_mod. apply Rmult_le_compat_l; [apply Cmod_ge_0|].
    apply exp_mono. unfold RtoC, Cmult. cbn [fst snd]. rewrite Rmult_0_l, Rminus_0_r. pose proof (re_le z). nra.
  - enough (osc u t - ser u (S N) t - Cmod u * (exp (c * t) - part c (S N) t) <= 0) by lra.
    apply (decr (fun t => osc u t - ser u (S N) t - Cmod u * (exp (c * t) - part c (S N) t)) (fun t => osc (u * z)%C t - ser (u * z)%C N t - Cmod u * (c * exp (c * t) - c * part c N t)) t); [| | |lra].
    + intros s _. apply (is_derive_minus (fun t => osc u t - ser u (S N) t) (fun t => Cmod u * (exp (c * t) - part c (S N) t))); [apply (is_derive_minus (osc u) (ser u (S N))); [apply osc_derive|apply ser_derive]|].
      apply (is_derive_scal (fun t => exp (c * t) - part c (S N) t)). apply (is_derive_minus (fun t => exp (c * t)) (part c (S N))); [apply exp_derive|apply part_derive].
    + intros s Hs. specialize (IH (u * z)%C s ltac:(lra)). rewrite Cmod_mult in IH. pose proof (part_exp c N s c_pos ltac:(lra)) as P. pose proof (Cmod_ge_0 u) as U. pose proof (Cmod_ge_0 z).
      assert (Cmod u * Cmod z * (exp (c * s) - part c N s) <= Cmod u * c * (exp (c * s) - part c N s)) by (apply Rmult_le_compat_r; [lra|]; apply Rmult_le_compat_l; assumption). lra.
    + assert (S0 : ser u (S N) 0 = fst u). { clear. induction N as [|N IH]; unfold ser in *; cbn [rtotal] in *. - cbn [pow fact INR cp]. rewrite Cmult_1_r. match goal with |- ?l = ?r => change (@eq R l r) end. field. - rewrite IH. cbn [pow]. unfold Rdiv. ring. }
      rewrite S0, part_0, Rmult_0_r, exp_0. unfold osc. replace (RtoC 0 * z)%C with (RtoC 0) by ring. unfold cexp, cis, RtoC. cbn [fst snd]. rewrite exp_0, cos_0, sin_0. unfold Cmult. cbn [fst snd]. lra.
Qed.
Theorem exp_tail N : Cmod (cexp z - exp_upto N z)%C <= exp c - rtotal (fun n => c ^ n / INR (fact n)) (S N).
Proof.
  set (F := (cexp z - exp_upto N z)%C).
  assert (B : forall u, fst (u * F)%C <= Cmod u * (exp c - rtotal (fun n => c ^ n / INR (fact n)) (S N))).
  { intros u. pose proof (tail_re (S N) u 1 ltac:(lra)) as T. rewrite Rmult_1_r in T.
    replace (part c (S N) 1) with (rtotal (fun n => c ^ n / INR (fact n)) (S N)) in T by (unfold part; apply rtotal_ext; intros k _; rewrite pow1; unfold Rdiv; ring).
    replace (osc u 1 - ser u (S N) 1) with (fst (u * F)%C) in T; [exact T|]. unfold F, osc. replace (RtoC 1 * z)%C with z by ring.
    replace (ser u (S N) 1) with (fst (u * exp_upto N z)%C).
    - unfold Cmult, Cminus, Cplus, Copp. cbn [fst snd]. ring.
    - unfold exp_upto, ser. change total with csum. change power with cp. generalize (S N). clear. intros M. induction M as [|M IH]; [cbn [csum rtotal]; rewrite Cmult_0_r; reflexivity|]. cbn [csum rtotal]. rewrite <- IH, pow1.
      unfold Cmult, Cplus, RtoC. cbn [fst snd]. unfold Rdiv. ring. }
  specialize (B (Cconj F)). replace (fst (Cconj F * F)%C) with (Cmod F * Cmod F) in B.
  - replace (Cmod (Cconj F)) with (Cmod F) in B by (unfold Cmod, Cconj; cbn [fst snd]; f_equal; ring). destruct (Req_dec (Cmod F) 0) as [E|E].
    + rewrite E. pose proof (part_exp c (S N) 1 c_pos ltac:(lra)) as P. rewrite Rmult_1_r in P. unfold part in P. rewrite (rtotal_ext _ (fun n => c ^ n / INR (fact n))) in P by (intros k _; rewrite pow1; unfold Rdiv; ring). lra.
    + pose proof (Cmod_ge_0 F). apply (Rmult_le_reg_l (Cmod F)); lra.
  - unfold Cmod. rewrite sqrt_sqrt by (pose proof (pow2_ge_0 (fst F)); pose proof (pow2_ge_0 (snd F)); lra). unfold Cconj, Cmult. cbn [fst snd]. ring.
Qed.
End Tail.
