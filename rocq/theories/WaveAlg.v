(** Powers of (z - i (x cos a + y sin a)) in terms of the solid harmonics, and Fourier sums. *)
From Coq Require Import Reals List Lia Lra ZArith Psatz.
From Coquelicot Require Import Coquelicot.
From Verif Require Import LegSpec LegProofs LegAdd SolidProofs SolidAdd SolidPair TranField WaveSpec.
Open Scope C_scope.

Lemma total_csum f n : total f n = csum f n.
Proof. reflexivity. Qed.
Lemma power_cp z n : power z n = cp z n.
Proof. reflexivity. Qed.

Definition zeta (v : vec) (a : R) : C := (vz v, (- (vx v * cos a + vy v * sin a))%R).

(** ** the generating function at complex arguments *)
Lemma csum_sh (f : nat -> C) w K : csum (fun k => sh f k * cp w k) (S K) = w * csum (fun k => f k * cp w k) K.
Proof.
  rewrite csum_shift. cbn [sh]. rewrite <- csum_scal, Cmult_0_l, Cplus_0_l. apply csum_ext. intros k _. cbn [cp]. ring.
Qed.
Lemma csum_more (f : nat -> C) w K j : (forall k, (K < k)%nat -> f k = 0) -> csum (fun k => f k * cp w k) (S K + j) = csum (fun k => f k * cp w k) (S K).
Proof. intros Z. rewrite csum_split. rewrite (csum_zero (fun k => f (S K + k)%nat * cp w (S K + k))) by (intros k _; rewrite Z by lia; ring). ring. Qed.

Definition pform (x : vec) (w : C) : C := RtoC (2 * vz x) * w - Cconj (xi x) * (w * w) + xi x.
Lemma gco_pgen x w n : csum (fun k => gco x n k * cp w k) (S (2 * n)) = cp (pform x w) n.
Proof.
  induction n as [|n IH]; [cbn [csum gco cp]; cbn; ring|].
  assert (Z : forall k, (2 * n < k)%nat -> gco x n k = 0) by (intros; apply gco_high; assumption).
  set (g := gco x n) in *. replace (S (2 * S n)) with (S (2 * n) + 2)%nat by lia.
  transitivity (csum (fun k => RtoC (2 * vz x) * (sh g k * cp w k) + (-(1) * Cconj (xi x) * (sh (sh g) k * cp w k) + xi x * (g k * cp w k))) (S (2 * n) + 2)).
  { apply csum_ext. intros k _. cbn [gco]. fold g. ring. }
  rewrite !csum_plus, !csum_scal. replace (S (2 * n) + 2)%nat with (S (S (S (2 * n)))) by lia.
  rewrite (csum_sh (sh g)), !(csum_sh g). replace (S (S (S (2 * n)))) with (S (2 * n) + 2)%nat by lia. replace (S (S (2 * n))) with (S (2 * n) + 1)%nat by lia.
  rewrite !(csum_more g) by exact Z. rewrite IH. cbn [cp]. unfold pform. ring.
Qed.

(** on the unit circle *)
Definition wv (a : R) : C := Ci * cis a.
Lemma cis_sq a : (cos a * cos a + sin a * sin a = 1)%R.
Proof. pose proof (sin2_cos2 a) as E. unfold Rsqr in E. lra. Qed.
Lemma pform_circle x a : pform x (wv a) = RtoC 2 * wv a * zeta x a.
Proof.
  pose proof (cis_sq a) as E. unfold pform, wv, zeta, xi, cis, Ci. set (c := cos a) in *. set (s := sin a) in *.
  apply injective_projections; unfold Cminus, Cconj, Cplus, Copp, Cmult, RtoC; cbn [fst snd].
  - transitivity (vx x * (c * c - s * s) + 2 * vy x * c * s + vx x * (c * c + s * s) - 2 * vz x * s)%R; [rewrite E; ring|ring].
  - transitivity (- vy x * (c * c - s * s) + 2 * vx x * c * s + vy x * (c * c + s * s) + 2 * vz x * c)%R; [rewrite E; ring|ring].
Qed.
Lemma cp_mulr (r : R) z n : cp (RtoC r * z) n = RtoC (r ^ n) * cp z n.
Proof. rewrite cp_mul, cp_R. reflexivity. Qed.
Lemma cis_add a b : cis (a + b) = cis a * cis b.
Proof. unfold cis. rewrite cos_plus, sin_plus. apply injective_projections; cbn [fst snd Cmult]; ring. Qed.
Lemma cis_0 : cis 0 = 1.
Proof. unfold cis. rewrite cos_0, sin_0. reflexivity. Qed.
Lemma cis_mul n a : cp (cis a) n = cis (INR n * a).
Proof. induction n as [|n IH]; [cbn [cp INR]; rewrite Rmult_0_l, cis_0; reflexivity|]. cbn [cp]. rewrite IH, S_INR, Rmult_plus_distr_r, Rmult_1_l, cis_add. reflexivity. Qed.
Lemma cis_conj a : Cconj (cis a) = cis (- a).
Proof. unfold cis. rewrite cos_neg, sin_neg. reflexivity. Qed.
Lemma cis_inv a : cis a * cis (- a) = 1.
Proof. rewrite <- cis_add, Rplus_opp_r, cis_0. reflexivity. Qed.
Lemma wv_inv a : wv a * Cconj (wv a) = 1.
Proof. pose proof (cis_sq a). unfold wv, cis, Ci. apply injective_projections; unfold Cconj, Cmult, RtoC; cbn [fst snd]; lra. Qed.

(** [T v n m a]: the part of frequency [m] of [zeta ^ n / n!] *)
Definition T (v : vec) (n m : nat) (a : R) : C := cp Ci m * RtoC (eps m * fst (har v n (n + m) * cis (INR m * a)) / nf n (n + m)).

Lemma csum_mid (g : nat -> C) n : csum g (S (2 * n)) = csum (fun m => match m with O => g n | S _ => g (n + m)%nat + g (n - m)%nat end) (S n).
Proof.
  assert (G : forall j, (j <= n)%nat -> csum (fun m => match m with O => g n | S _ => g (n + m)%nat + g (n - m)%nat end) (S j) = csum (fun k => g (n - j + k)%nat) (S (2 * j))).
  { induction j as [|j IH]; intros Hj; [cbn [csum Nat.mul Nat.add]; replace (n - 0 + 0)%nat with n by lia; reflexivity|].
    change (csum ?h (S (S j))) with (csum h (S j) + h (S j)). cbn beta iota. rewrite IH by lia. replace (S (2 * S j)) with (S (S (S (2 * j)))) by lia.
    rewrite (csum_shift _ (S (S (2 * j)))). change (csum ?h (S (S (2 * j)))) with (csum h (S (2 * j)) + h (S (2 * j))). cbn beta.
    replace (n - S j + S (S (2 * j)))%nat with (n + S j)%nat by lia. replace (n - S j + 0)%nat with (n - S j)%nat by lia.
    rewrite (csum_ext (fun k => g (n - j + k)%nat) (fun k => g (n - S j + S k)%nat)) by (intros k _; f_equal; lia). ring. }
  rewrite G by lia. apply csum_ext. intros k _. f_equal. lia.
Qed.

Lemma nf_sym n m : (m <= n)%nat -> nf n (n - m) = nf n (n + m).
Proof. intros H. unfold nf. f_equal. replace (2 * n - (n - m))%nat with (n + m)%nat by lia. replace (2 * n - (n + m))%nat with (n - m)%nat by lia. ring. Qed.


Lemma conj_2re (z : C) : z + Cconj z = RtoC (2 * fst z).
Proof. apply injective_projections; unfold Cconj, Cplus, RtoC; cbn [fst snd]; ring. Qed.
Lemma cp_Ci_sign m : RtoC ((-1) ^ m) * Cconj (cp Ci m) = cp Ci m.
Proof.
  induction m as [|m IH]; [cbn [pow cp]; ceq|]. transitivity (RtoC ((-1) ^ m) * Cconj (cp Ci m) * Ci); [|rewrite IH; reflexivity].
  cbn [pow cp]. rewrite RtoC_mult, cp_conj. cbn [cp]. rewrite <- cp_conj. replace (Cconj (cp Ci m * Ci)) with (Cconj (cp Ci m) * Cconj Ci) by ceq.
  replace (RtoC (-1) * RtoC ((-1) ^ m) * (Cconj (cp Ci m) * Cconj Ci)) with (RtoC ((-1) ^ m) * Cconj (cp Ci m) * (RtoC (-1) * Cconj Ci)) by ring. f_equal. unfold Ci. ceq.
Qed.

Lemma zeta_pow v n a : csum (fun m => T v n m a) (S n) = cp (zeta v a) n * RtoC (/ INR (fact n)).
Proof.
  pose proof (wv_inv a) as U. set (w := wv a) in *.
  assert (I : cp w n * cp (Cconj w) n = 1) by (rewrite <- cp_mul, U; clear; induction n as [|n IH]; cbn [cp]; [reflexivity|rewrite IH; ring]).
  assert (G : csum (fun k => RtoC (/ nf n k) * har v n k * (cp (Cconj w) n * cp w k)) (S (2 * n)) = cp (zeta v a) n * RtoC (/ INR (fact n))).
  { transitivity (cp (Cconj w) n * RtoC (/ cn n) * csum (fun k => gco v n k * cp w k) (S (2 * n))).
    - rewrite <- csum_scal. apply csum_ext. intros k _. unfold har. pose proof (nf_pos n k). pose proof (cn_pos n). replace (/ cn n)%R with (/ nf n k * (nf n k / cn n))%R by (field; lra). rewrite RtoC_mult. ring.
    - rewrite gco_pgen. unfold w. rewrite pform_circle. fold w. replace (RtoC 2 * w * zeta v a) with (RtoC 2 * (w * zeta v a)) by ring. rewrite cp_mulr, cp_mul. unfold cn. pose proof (INR_fact_lt_0 n). pose proof (pow_lt 2 n ltac:(lra)).
      replace (RtoC (/ INR (fact n))) with (RtoC (/ (2 ^ n * INR (fact n))) * RtoC (2 ^ n)) by (rewrite <- RtoC_mult; f_equal; field; lra). transitivity (cp w n * cp (Cconj w) n * (cp (zeta v a) n * (RtoC (/ (2 ^ n * INR (fact n))) * RtoC (2 ^ n)))); [ring|rewrite I; ring]. }
  rewrite <- G, csum_mid. apply csum_ext. intros m Hm.
  assert (P : forall j, cp (Cconj w) n * cp w (n + j) = cp w j) by (intros j; rewrite cp_add; replace (cp (Cconj w) n * (cp w n * cp w j)) with (cp w n * cp (Cconj w) n * cp w j) by ring; rewrite I; ring).
  assert (Q : forall j, (j <= n)%nat -> cp (Cconj w) n * cp w (n - j) = Cconj (cp w j)).
  { intros j Hj. rewrite cp_conj. replace (cp (Cconj w) n) with (cp (Cconj w) (j + (n - j))) by (f_equal; lia). rewrite cp_add, <- Cmult_assoc, <- cp_mul.
    replace (Cconj w * w) with (RtoC 1) by (rewrite <- U; ring). rewrite cp_R, pow1. ring. }
  assert (W : cp w m = cp Ci m * cis (INR m * a)) by (unfold w, wv; rewrite cp_mul, cis_mul; reflexivity).
  unfold T. destruct m as [|m].
  - pose proof (P 0%nat) as P0. rewrite Nat.add_0_r in P0. rewrite P0. rewrite !Nat.add_0_r. cbn [cp eps INR]. rewrite Rmult_0_l, cis_0. pose proof (har_real v n) as Hr. rewrite Nat.add_0_r in Hr.
    pose proof (nf_pos n n). apply injective_projections; unfold Cmult, RtoC; cbn [fst snd]; rewrite Hr; unfold Rdiv; ring.
  - set (M := S m) in *. rewrite !(P M), Q, nf_sym, har_sym, W by lia. set (h := har v n (n + M)). set (e := cis (INR M * a)).
    replace (eps M) with 2%R by reflexivity. replace (Cconj (cp Ci M * e)) with (Cconj (cp Ci M) * Cconj e) by (rewrite conj_mul; reflexivity).
    transitivity (cp Ci M * RtoC (/ nf n (n + M)) * (h * e + Cconj (h * e))).
    + rewrite conj_2re. unfold Rdiv. rewrite RtoC_mult. ring.
    + rewrite conj_mul. rewrite <- (cp_Ci_sign M) at 1.
      replace (RtoC (/ nf n (n + M)) * (RtoC ((-1) ^ M) * Cconj h) * (Cconj (cp Ci M) * Cconj e)) with (RtoC (/ nf n (n + M)) * (RtoC ((-1) ^ M) * Cconj (cp Ci M)) * (Cconj h * Cconj e)) by ring.
      rewrite !cp_Ci_sign. ring.
Qed.

(** ** the exponential series without the high frequencies *)
Definition lp (kap : R) (v : vec) (p f : nat) (a : R) : C :=
  csum (fun m => csum (fun n => if (m <=? n)%nat then RtoC (kap ^ n) * T v n m a else 0) (S p)) (S f).
Definition lpc (kap : R) (v : vec) (p : nat) (m : Z) : C :=
  let M := Z.to_nat (Z.abs m) in
  cp Ci M * csum (fun n => if (M <=? n)%nat then RtoC (kap ^ n / nf n (n + M)) * (if (0 <=? m)%Z then har v n (n + M) else Cconj (har v n (n + M))) else 0) (S p).
Lemma lpc_mode kap v p m a : mode (lpc kap v p) m a = csum (fun n => if (m <=? n)%nat then RtoC (kap ^ n) * T v n m a else 0) (S p).
Proof.
  unfold mode, lpc. destruct m as [|m].
  - cbn [Z.abs Z.to_nat Z.leb Z.compare cp]. rewrite Cmult_1_l. apply csum_ext. intros n _. cbn [Nat.leb]. unfold T. cbn [cp eps INR]. rewrite Rmult_0_l, cis_0.
    pose proof (har_real v n) as Hr. set (h := har v n (n + 0)) in *. apply injective_projections; unfold Cmult, RtoC; cbn [fst snd]; rewrite Hr; unfold Rdiv; ring.
  - set (M := S m). replace (Z.abs (- Z.of_nat M)) with (Z.of_nat M) by lia. replace (Z.abs (Z.of_nat M)) with (Z.of_nat M) by lia. rewrite Nat2Z.id.
    replace (0 <=? Z.of_nat M)%Z with true by (symmetry; apply Z.leb_le; lia). replace (0 <=? - Z.of_nat M)%Z with false by (symmetry; apply Z.leb_gt; lia).
    set (e := cis (INR M * a)). replace (cis (- (INR M * a))) with (Cconj e) by (unfold e; apply cis_conj).
    match goal with |- cp Ci M * csum ?f _ * e + cp Ci M * csum ?g _ * _ = _ => transitivity (csum (fun n => cp Ci M * e * f n + cp Ci M * Cconj e * g n) (S p)) end.
    { rewrite csum_plus, !csum_scal. ring. }
    apply csum_ext. intros n _. destruct (M <=? n)%nat; [|ring]. unfold T. fold e. replace (eps M) with 2%R by reflexivity. set (h := har v n (n + M)).
    transitivity (cp Ci M * RtoC (kap ^ n / nf n (n + M)) * (h * e + Cconj (h * e))); [rewrite conj_mul; ring|]. rewrite conj_2re. unfold Rdiv. rewrite !RtoC_mult. ring.
Qed.
Lemma lp_fourier kap v p f a : lp kap v p f a = fourier f (lpc kap v p) a.
Proof. unfold lp, fourier. change total with csum. apply csum_ext. intros m _. symmetry. apply lpc_mode. Qed.
Lemma lp_exp kap v p a : lp kap v p p a = exp_upto p (RtoC kap * zeta v a).
Proof.
  unfold lp, exp_upto. change total with csum. rewrite csum_swap. apply csum_ext. intros n Hn. change power with cp. rewrite cp_mulr, <- Cmult_assoc, <- zeta_pow, <- csum_scal.
  replace (S p) with (S n + (p - n))%nat by lia. rewrite csum_split. rewrite (csum_zero (fun k => if (S n + k <=? n)%nat then _ else _)).
  - rewrite Cplus_0_r. apply csum_ext. intros m Hm. replace (m <=? n)%nat with true by (symmetry; apply Nat.leb_le; lia). reflexivity.
  - intros k _. replace (S n + k <=? n)%nat with false by (symmetry; apply Nat.leb_gt; lia). reflexivity.
Qed.
Lemma lp_lowpass kap v p f : lowpass f (fun a => exp_upto p (RtoC kap * zeta v a)) (lp kap v p f).
Proof.
  exists p, (lpc kap v p). split; [|split].
  - intros m Hm. unfold lpc. rewrite csum_zero; [ring|]. intros n Hn. replace (Z.to_nat (Z.abs m) <=? n)%nat with false by (symmetry; apply Nat.leb_gt; lia). reflexivity.
  - intros a. rewrite <- lp_fourier. symmetry. apply lp_exp.
  - intros a. apply lp_fourier.
Qed.

(** ** a function has one low-pass *)
Lemma cis_period r : cis (2 * PI * IZR r) = 1.
Proof.
  assert (P : forall n, cis (2 * PI * IZR (Z.of_nat n)) = 1).
  { intros n. rewrite <- INR_IZR_INZ. replace (2 * PI * INR n)%R with (0 + 2 * INR n * PI)%R by ring. unfold cis. rewrite cos_period, sin_period, cos_0, sin_0. reflexivity. }
  destruct (Z_le_gt_dec 0 r) as [H|H]; [rewrite <- (Z2Nat.id r H); apply P|].
  pose proof (P (Z.to_nat (- r))) as E. rewrite Z2Nat.id in E by lia. apply (f_equal Cconj) in E. rewrite cis_conj in E. rewrite opp_IZR in E.
  replace (- (2 * PI * - IZR r))%R with (2 * PI * IZR r)%R in E by ring. rewrite E. ceq.
Qed.
Lemma geom (z : C) n : (z - 1) * csum (fun k => cp z k) n = cp z n - 1.
Proof. induction n as [|n IH]; cbn [csum cp]; [ring|]. rewrite Cmult_plus_distr_l, IH. ring. Qed.
Lemma root_sum K r : (0 < Z.abs r < Z.of_nat K)%Z -> csum (fun l => cis (2 * PI * IZR r / INR K * INR l)) K = 0.
Proof.
  intros Hr. set (th := (2 * PI * IZR r / INR K)%R). assert (HK : (0 < INR K)%R) by (apply lt_0_INR; lia).
  assert (E : csum (fun l => cis (th * INR l)) K = csum (fun l => cp (cis th) l) K) by (apply csum_ext; intros l _; rewrite cis_mul, Rmult_comm; reflexivity).
  rewrite E. pose proof (geom (cis th) K) as G. rewrite cis_mul in G. replace (INR K * th)%R with (2 * PI * IZR r)%R in G by (unfold th; field; lra). rewrite cis_period in G.
  replace (RtoC 1 - RtoC 1) with (RtoC 0) in G by ring.
  assert (N : cis th - 1 <> 0).
  { intros A. apply (f_equal fst) in A. unfold cis, Cminus, Cplus, Copp, RtoC in A. cbn [fst] in A.
    assert (C1 : cos th = 1%R) by lra. replace th with (2 * (th / 2))%R in C1 by field. rewrite cos_2a_sin in C1.
    assert (S0 : (sin (th / 2) = 0)%R) by nra. assert (Ab : (th / 2 = PI * IZR r / INR K)%R) by (unfold th; field; lra).
    assert (HP := PI_RGT_0). assert (Q : forall r : Z, (0 < r < Z.of_nat K)%Z -> (0 < PI * IZR r / INR K < PI)%R).
    { intros r0 [A1 A2]. apply IZR_lt in A1. apply IZR_lt in A2. rewrite <- INR_IZR_INZ in A2. split; [apply Rdiv_lt_0_compat; nra|]. apply Rmult_lt_reg_r with (INR K); [exact HK|]. unfold Rdiv. rewrite Rmult_assoc, Rinv_l by lra. nra. }
    rewrite Ab in S0. destruct (Z_le_gt_dec 0 r) as [P|P].
    - destruct (Q r ltac:(lia)) as [B1 B2]. pose proof (sin_gt_0 _ B1 B2). lra.
    - destruct (Q (- r)%Z ltac:(lia)) as [B1 B2]. pose proof (sin_gt_0 _ B1 B2) as B3. rewrite opp_IZR in B3. replace (PI * - IZR r / INR K)%R with (- (PI * IZR r / INR K))%R in B3 by (field; lra). rewrite sin_neg in B3. lra. }
  destruct (Ceq_dec (csum (fun l => cp (cis th) l) K) 0) as [E0|E0]; [exact E0|]. exfalso. apply (Cmult_neq_0 _ _ N E0 G).
Qed.
Lemma root_full K : csum (fun l => cis (2 * PI * IZR 0 / INR K * INR l)) K = RtoC (INR K).
Proof.
  rewrite (csum_ext _ (fun _ => RtoC 1)) by (intros; unfold Rdiv; rewrite Rmult_0_r, !Rmult_0_l; apply cis_0).
  induction K as [|K IH]; [reflexivity|]. rewrite S_INR, RtoC_plus. cbn [csum]. rewrite IH. reflexivity.
Qed.

Definition zterm (c : Z -> C) (N : nat) (a : R) (i : nat) : C := c (Z.of_nat i - Z.of_nat N)%Z * cis (IZR (Z.of_nat i - Z.of_nat N) * a).
Lemma fourier_z N c a : fourier N c a = csum (zterm c N a) (S (2 * N)).
Proof.
  unfold fourier. change total with csum. rewrite csum_mid. apply csum_ext. intros m Hm. unfold mode, zterm. destruct m as [|m].
  - replace (Z.of_nat N - Z.of_nat N)%Z with 0%Z by lia. rewrite Rmult_0_l, cis_0. ring.
  - replace (Z.of_nat (N + S m) - Z.of_nat N)%Z with (Z.of_nat (S m)) by lia. replace (Z.of_nat (N - S m) - Z.of_nat N)%Z with (- Z.of_nat (S m))%Z by lia.
    rewrite opp_IZR, <- INR_IZR_INZ. replace (- INR (S m) * a)%R with (- (INR (S m) * a))%R by ring. reflexivity.
Qed.
Lemma fourier_zero N (c : Z -> C) : (forall a, fourier N c a = 0) -> forall m, (Z.abs m <= Z.of_nat N)%Z -> c m = 0.
Proof.
  intros H m Hm. set (K := S (2 * N)). set (i0 := Z.to_nat (m + Z.of_nat N)).
  assert (E : csum (fun l => cis (- (IZR m * (2 * PI * INR l / INR K))) * fourier N c (2 * PI * INR l / INR K)) K = RtoC (INR K) * c m).
  { transitivity (csum (fun l => csum (fun i => c (Z.of_nat i - Z.of_nat N)%Z * cis (2 * PI * IZR (Z.of_nat i - Z.of_nat N - m) / INR K * INR l)) K) K).
    { apply csum_ext. intros l _. rewrite fourier_z, <- csum_scal. fold K. apply csum_ext. intros i _. unfold zterm. set (a := (2 * PI * INR l / INR K)%R).
      replace (2 * PI * IZR (Z.of_nat i - Z.of_nat N - m) / INR K * INR l)%R with (- (IZR m * a) + IZR (Z.of_nat i - Z.of_nat N) * a)%R.
      - rewrite cis_add. ring.
      - unfold a. rewrite !minus_IZR. field. apply not_0_INR. unfold K. lia. }
    rewrite csum_swap. rewrite (csum_one _ K i0).
    - rewrite csum_scal. unfold i0. rewrite Z2Nat.id by lia. replace (m + Z.of_nat N - Z.of_nat N - m)%Z with 0%Z by lia. rewrite root_full. replace (m + Z.of_nat N - Z.of_nat N)%Z with m by lia. ring.
    - unfold i0, K. lia.
    - intros i Hi Ni. rewrite csum_scal, root_sum; [ring|]. unfold i0, K in *. lia. }
  rewrite (csum_zero (fun l => cis _ * _)) in E by (intros; rewrite H; ring).
  destruct (Ceq_dec (c m) 0) as [Z|Z]; [exact Z|]. exfalso. apply (Cmult_neq_0 (RtoC (INR K)) (c m)); [|exact Z|symmetry; exact E].
  intros A. apply RtoC_inj in A. apply (not_0_INR K); [unfold K; lia|exact A].
Qed.
Lemma fourier_more N M (c : Z -> C) a : (N <= M)%nat -> (forall m, (Z.of_nat N < Z.abs m)%Z -> c m = 0) -> fourier M c a = fourier N c a.
Proof.
  intros L Z. unfold fourier. change total with csum. replace (S M) with (S N + (M - N))%nat by lia. rewrite csum_split, (csum_zero (fun k => mode c (S N + k) a)); [ring|].
  intros k _. unfold mode. change (S N + k)%nat with (S (N + k)). cbn match. rewrite !Z by lia. ring.
Qed.
Lemma fourier_sub N (c c' : Z -> C) a : fourier N (fun m => c m - c' m) a = fourier N c a - fourier N c' a.
Proof.
  unfold fourier. change total with csum. assert (E : forall x y : C, x - y = x + -(1) * y) by (intros; ring). rewrite E, <- csum_scal, <- csum_plus.
  apply csum_ext. intros m _. unfold mode. destruct m; ring.
Qed.
Lemma lowpass_unique f g h h' : lowpass f g h -> lowpass f g h' -> forall a, h a = h' a.
Proof.
  intros (N & c & Z & G & Hh) (N' & c' & Z' & G' & Hh') a. rewrite Hh, Hh'. assert (E : forall m, c m = c' m).
  { intros m. set (M := Nat.max N (Nat.max N' (Z.to_nat (Z.abs m)))). pose proof (fourier_zero M (fun m => c m - c' m)) as F. assert (D : c m - c' m = 0).
    { apply F; [|unfold M; lia]. intros b. rewrite fourier_sub, (fourier_more N M c b) by (try exact Z; unfold M; lia). rewrite (fourier_more N' M c' b) by (try exact Z'; unfold M; lia). rewrite <- G, <- G'. ring. }
    replace (c m) with (c m - c' m + c' m) by ring. rewrite D. ring. }
  unfold fourier. change total with csum. apply csum_ext. intros m _. unfold mode. destruct m; rewrite !E; reflexivity.
Qed.
