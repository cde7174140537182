(** What the waves lose when they are cut off at a degree and at some frequencies. *)
From Coq Require Import Reals ZArith List Lia Lra Psatz Bool.
From Coquelicot Require Import Coquelicot.
From Verif Require Import LegSpec LegProofs LegAdd SolidProofs SolidAdd SolidPair TranField LapModel TranEval WaveSpec WaveAlg Pot97Spec Pot97Bound QuadBall QuadFun QuadTail.
Import ListNotations.
Open Scope R_scope.

(** ** A bound of the coefficients: those of (w + b w^2 + b)^n, b = 0.7072 *)
Definition at_ (l : list Z) (k s : nat) : Z := if (s <=? k)%nat then nth (k - s) l 0%Z else 0%Z.
Fixpoint grow (n : nat) : list Z :=
  match n with
  | O => [1%Z]
  | S n => let l := grow n in map (fun k => (10000 * at_ l k 1 + 7072 * (at_ l k 2 + at_ l k 0))%Z) (seq 0 (2 * n + 3))
  end.
Definition gz (n k : nat) : Z := nth k (grow n) 0%Z.
Lemma gz_S n k : (k < 2 * n + 3)%nat -> gz (S n) k = (10000 * at_ (grow n) k 1 + 7072 * (at_ (grow n) k 2 + at_ (grow n) k 0))%Z.
Proof.
  intros H. unfold gz. cbn [grow]. set (f := fun k => (10000 * at_ (grow n) k 1 + 7072 * (at_ (grow n) k 2 + at_ (grow n) k 0))%Z). cbv zeta.
  rewrite (nth_indep _ 0%Z (f 0%nat)) by (rewrite map_length, seq_length; exact H). rewrite map_nth, seq_nth by exact H. reflexivity.
Qed.
Lemma gz_pos n k : (0 <= gz n k)%Z.
Proof.
  revert k. induction n as [|n IH]; intros k; [unfold gz; destruct k as [|[|k]]; cbn; lia|].
  destruct (Nat.lt_ge_cases k (2 * n + 3)) as [L|L]; [|unfold gz; rewrite nth_overflow; [lia|cbn [grow]; rewrite map_length, seq_length; lia]].
  rewrite gz_S by exact L. assert (P : forall s, (0 <= at_ (grow n) k s)%Z) by (intros s; unfold at_; destruct (s <=? k)%nat; [apply IH|lia]). pose proof (P 0%nat). pose proof (P 1%nat). pose proof (P 2%nat). lia.
Qed.
Lemma xi_mod v : in_unit v -> Cmod (xi (tov v)) <= 7072 / 10000.
Proof.
  intros (Hx & Hy & _). unfold Cmod, xi, tov. cbn [fst snd vx vy]. rewrite <- (sqrt_square (7072 / 10000)) by lra. apply sqrt_le_1_alt. pose proof (pow2_abs (px v)) as A. pose proof (pow2_abs (py v)) as B. pose proof (Rabs_pos (px v)). pose proof (Rabs_pos (py v)). nra.
Qed.
Lemma gco_gz v n : in_unit v -> forall k, Cmod (gco (tov v) n k) * 10000 ^ n <= IZR (gz n k).
Proof.
  intros U. pose proof (xi_mod v U) as X. assert (Xc : Cmod (Cconj (xi (tov v))) <= 7072 / 10000) by (replace (Cmod (Cconj (xi (tov v)))) with (Cmod (xi (tov v))) by (unfold Cmod, Cconj; cbn [fst snd]; f_equal; ring); exact X).
  destruct U as (_ & _ & Hz). assert (Z2 : Cmod (RtoC (2 * vz (tov v))) <= 1) by (rewrite Cmod_R, Rabs_mult, (Rabs_right 2) by lra; unfold tov; cbn [vz]; lra).
  induction n as [|n IH]; intros k.
  - unfold gz. cbn [gco pow grow]. destruct k as [|k]; cbn [nth]; [rewrite Cmod_1; lra|]. rewrite Cmod_0. destruct k; cbn [nth]; lra.
  - destruct (Nat.lt_ge_cases k (2 * n + 3)) as [L|L].
    + rewrite gz_S by exact L. set (g := gco (tov v) n) in *. pose proof (pow_lt 10000 n ltac:(lra)) as P.
      assert (A0 : Cmod (g k) * 10000 ^ n <= IZR (at_ (grow n) k 0)) by (unfold at_; cbn [Nat.leb]; rewrite Nat.sub_0_r; apply IH).
      assert (A1 : Cmod (sh g k) * 10000 ^ n <= IZR (at_ (grow n) k 1)) by (destruct k as [|k]; cbn [sh at_]; [rewrite Cmod_0; unfold at_; cbn [Nat.leb]; lra|unfold at_; cbn [Nat.leb]; replace (S k - 1)%nat with k by lia; apply IH]).
      assert (A2 : Cmod (sh (sh g) k) * 10000 ^ n <= IZR (at_ (grow n) k 2)).
      { destruct k as [|[|k]]; cbn [sh]; [rewrite Cmod_0; unfold at_; cbn [Nat.leb]; lra|rewrite Cmod_0; unfold at_; cbn [Nat.leb]; lra|]. unfold at_. cbn [Nat.leb]. replace (S (S k) - 2)%nat with k by lia. apply IH. }
      change (gco (tov v) (S n) k) with (RtoC (2 * vz (tov v)) * sh g k - Cconj (xi (tov v)) * sh (sh g) k + xi (tov v) * g k)%C.
      assert (M : forall (a b : C) (r s : R), Cmod a <= r -> Cmod b * 10000 ^ n <= s -> Cmod (a * b)%C * 10000 ^ n <= r * s).
      { intros a b r s Ha Hb. rewrite Cmod_mult, Rmult_assoc. apply Rmult_le_compat; [apply Cmod_ge_0|apply Rmult_le_pos; [apply Cmod_ge_0|lra]|exact Ha|exact Hb]. }
      pose proof (M _ _ _ _ Z2 A1) as B1. pose proof (M _ _ _ _ Xc A2) as B2. pose proof (M _ _ _ _ X A0) as B3.
      assert (T : Cmod (RtoC (2 * vz (tov v)) * sh g k - Cconj (xi (tov v)) * sh (sh g) k + xi (tov v) * g k)%C <= Cmod (RtoC (2 * vz (tov v)) * sh g k)%C + Cmod (Cconj (xi (tov v)) * sh (sh g) k)%C + Cmod (xi (tov v) * g k)%C).
      { unfold Cminus. eapply Rle_trans; [apply Cmod_triangle|]. apply Rplus_le_compat_r. eapply Rle_trans; [apply Cmod_triangle|]. rewrite Cmod_opp. lra. }
      rewrite plus_IZR, !mult_IZR, plus_IZR. cbn [pow]. set (s0 := Cmod (RtoC (2 * vz (tov v)) * sh g k)%C) in *. set (s1 := Cmod (Cconj (xi (tov v)) * sh (sh g) k)%C) in *. set (s2 := Cmod (xi (tov v) * g k)%C) in *.
      match goal with |- ?t * _ <= _ => set (t0 := t) in * end. assert (t0 * 10000 ^ n <= (s0 + s1 + s2) * 10000 ^ n) by (apply Rmult_le_compat_r; lra). lra.
    + rewrite gco_high by lia. rewrite Cmod_0, Rmult_0_l. apply IZR_le, gz_pos.
Qed.

(** ** The frequencies that are cut off *)
Lemma T_gz v n m a : in_unit v -> Cmod (T (tov v) n (S m) a) <= 2 * IZR (gz n (n + S m)) / (20000 ^ n * INR (fact n)).
Proof.
  intros U. pose proof (nf_pos n (n + S m)) as N. pose proof (cn_pos n) as Cn. pose proof (INR_fact_lt_0 n) as F. pose proof (pow_lt 2 n ltac:(lra)) as P2. pose proof (pow_lt 10000 n ltac:(lra)) as P4.
  unfold T. rewrite Cmod_mult, cp_mod. replace (Cmod Ci) with 1 by (unfold Cmod, Ci; cbn [fst snd]; replace (0 ^ 2 + 1 ^ 2) with 1 by ring; symmetry; apply sqrt_1). rewrite pow1, Rmult_1_l, Cmod_R. cbn [eps]. unfold Rdiv at 1. rewrite !Rabs_mult, (Rabs_right (/ nf n (n + S m))), (Rabs_right 2) by (try apply Rle_ge; try (left; apply Rinv_0_lt_compat, N); lra).
  assert (H : Rabs (fst (har (tov v) n (n + S m) * cis (INR (S m) * a))%C) <= IZR (gz n (n + S m)) / 10000 ^ n * (nf n (n + S m) / cn n)).
  { eapply Rle_trans; [apply (Rle_trans _ _ _ (Rmax_l _ _) (Rmax_Cmod _))|]. rewrite Cmod_mult, cis_mod, Rmult_1_r. unfold har. rewrite Cmod_mult, Cmod_R, (Rabs_right (nf n (n + S m) / cn n)) by (apply Rle_ge; left; apply Rdiv_lt_0_compat; assumption).
    apply Rmult_le_compat_r; [left; apply Rdiv_lt_0_compat; assumption|]. apply (Rmult_le_reg_r (10000 ^ n)); [exact P4|]. replace (IZR (gz n (n + S m)) / 10000 ^ n * 10000 ^ n) with (IZR (gz n (n + S m))) by (field; lra). apply gco_gz, U. }
  replace (2 * IZR (gz n (n + S m)) / (20000 ^ n * INR (fact n))) with (2 * (IZR (gz n (n + S m)) / 10000 ^ n * (nf n (n + S m) / cn n)) * / nf n (n + S m)).
  - apply Rmult_le_compat_r; [left; apply Rinv_0_lt_compat, N|]. lra.
  - unfold cn. replace 20000 with (10000 * 2) by lra. rewrite Rpow_mult_distr. field. repeat split; lra.
Qed.
Lemma csum_mod (f : nat -> C) (b : nat -> R) n : (forall k, (k < n)%nat -> Cmod (f k) <= b k) -> Cmod (csum f n) <= rtotal b n.
Proof.
  induction n as [|n IH]; intros H; cbn [csum rtotal]; [rewrite Cmod_0; lra|]. eapply Rle_trans; [apply Cmod_triangle|]. apply Rplus_le_compat; [apply IH; intros; apply H; lia|apply H; lia].
Qed.
Definition cutw (L : R) (p f : nat) : R :=
  rtotal (fun j => rtotal (fun n => if (S f + j <=? n)%nat then IZR (2 * gz n (n + (S f + j))) / IZR (20000 ^ Z.of_nat n * factZ n) * L ^ n else 0) (S p)) (p - f).
Lemma freq_cut kap L v p f a : in_unit v -> Rabs kap <= L -> (f <= p)%nat -> Cmod (exp_upto p (RtoC kap * zeta (tov v) a) - lp kap (tov v) p f a)%C <= cutw L p f.
Proof.
  intros U HL Hf. rewrite <- lp_exp. set (t := fun m => csum (fun n => if (m <=? n)%nat then RtoC (kap ^ n) * T (tov v) n m a else 0)%C (S p)).
  change (lp kap (tov v) p p a) with (csum t (S p)). change (lp kap (tov v) p f a) with (csum t (S f)). replace (csum t (S p)) with (csum t (S f + (p - f))) by (f_equal; lia). rewrite csum_split.
  match goal with |- Cmod (?A + ?B - ?A)%C <= _ => replace (A + B - A)%C with B by ring end.
  unfold cutw. apply csum_mod. intros j Hj. apply csum_mod. intros n Hn. destruct (Nat.leb_spec (S f + j) n) as [Q|Q]; [|rewrite Cmod_0; lra].
  rewrite Cmod_mult, Cmod_R. pose proof (T_gz v n (f + j) a U) as B. change (S (f + j)) with (S f + j)%nat in B. rewrite Rmult_comm.
  rewrite !mult_IZR, factZ_INR, <- pow_IZR. apply Rmult_le_compat; [apply Cmod_ge_0|apply Rabs_pos|exact B|]. rewrite <- RPow_abs. apply pow_incr. split; [apply Rabs_pos|exact HL].
Qed.

(** ** At most the frequency 1: the mean with the kernel 1 + 2 cos *)
Lemma fourier_coef N (c : Z -> C) m : (Z.abs m <= Z.of_nat N)%Z ->
  csum (fun l => cis (- (IZR m * (2 * PI * INR l / INR (S (2 * N))))) * fourier N c (2 * PI * INR l / INR (S (2 * N))))%C (S (2 * N)) = (RtoC (INR (S (2 * N))) * c m)%C.
Proof.
  intros Hm. set (K := S (2 * N)). set (i0 := Z.to_nat (m + Z.of_nat N)).
  transitivity (csum (fun l => csum (fun i => c (Z.of_nat i - Z.of_nat N)%Z * cis (2 * PI * IZR (Z.of_nat i - Z.of_nat N - m) / INR K * INR l)) K) K)%C.
  { apply csum_ext. intros l _. rewrite fourier_z, <- csum_scal. fold K. apply csum_ext. intros i _. unfold zterm. set (a := (2 * PI * INR l / INR K)%R).
    replace (2 * PI * IZR (Z.of_nat i - Z.of_nat N - m) / INR K * INR l)%R with (- (IZR m * a) + IZR (Z.of_nat i - Z.of_nat N) * a)%R.
    - rewrite cis_add. ring.
    - unfold a. rewrite !minus_IZR. field. apply not_0_INR. unfold K. lia. }
  rewrite csum_swap. rewrite (csum_one _ K i0).
  - rewrite csum_scal. unfold i0. rewrite Z2Nat.id by lia. replace (m + Z.of_nat N - Z.of_nat N - m)%Z with 0%Z by lia. rewrite root_full. replace (m + Z.of_nat N - Z.of_nat N)%Z with m by lia. ring.
  - unfold i0, K. lia.
  - intros i Hi Ni. rewrite csum_scal, root_sum; [ring|]. unfold i0, K in *. lia.
Qed.
Section One.
Variables (N : nat) (c : Z -> C) (G : R).
Hypothesis HN : (1 <= N)%nat.
Hypothesis HG : forall a, Cmod (fourier N c a) <= G.
Let K := S (2 * N).
Let b (l : nat) : R := 2 * PI * INR l / INR K.
Lemma KR : 0 < INR K. Proof. apply lt_0_INR. unfold K. lia. Qed.
Definition ker (a : R) : R := 1 + 2 * cos a.
Lemma kernel a : (RtoC (INR K) * fourier 1 c a)%C = csum (fun l => RtoC (ker (a - b l)) * fourier N c (b l))%C K.
Proof.
  pose proof (fourier_coef N c 0 ltac:(lia)) as E0. pose proof (fourier_coef N c 1 ltac:(lia)) as E1. pose proof (fourier_coef N c (-1) ltac:(lia)) as E2. fold K in E0, E1, E2.
  unfold fourier at 1, mode. cbn [total]. change (Z.of_nat 1) with 1%Z. change (- (1))%Z with (-1)%Z. change (INR 1) with 1. rewrite !Rmult_1_l.
  transitivity (RtoC (INR K) * c 0%Z + cis a * (RtoC (INR K) * c 1%Z) + cis (- a) * (RtoC (INR K) * c (-1)%Z))%C; [ring|]. rewrite <- E0, <- E1, <- E2, <- !csum_scal, <- !csum_plus.
  apply csum_ext. intros l _. fold (b l). rewrite Rmult_0_l, Ropp_0, cis_0, Rmult_1_l. replace (- (-1 * b l)) with (b l) by ring.
  transitivity ((1 + cis (a - b l) + cis (- (a - b l))) * fourier N c (b l))%C.
  - replace (a - b l) with (a + - b l) by ring. replace (- (a + - b l)) with (- a + b l) by ring. rewrite !cis_add. ring.
  - f_equal. unfold ker, cis, RtoC, Cplus. cbn [fst snd]. rewrite cos_neg, sin_neg. apply injective_projections; cbn [fst snd]; ring.
Qed.
Lemma cos_sum (r : Z) a : (0 < Z.abs r < Z.of_nat K)%Z -> rtotal (fun l => cos (IZR r * (a - b l))) K = 0.
Proof.
  intros Hr. pose proof (root_sum K (- r) ltac:(lia)) as E. apply (f_equal (fun z => fst (cis (IZR r * a) * z)%C)) in E. rewrite Cmult_0_r in E. cbn [fst RtoC] in E. rewrite <- E, <- csum_scal. clear E.
  assert (Q : forall (f : nat -> C) n, fst (csum f n) = rtotal (fun k => fst (f k)) n) by (intros f n; induction n as [|n IH]; [reflexivity|]; cbn [csum rtotal]; rewrite <- IH; reflexivity).
  rewrite Q. apply rtotal_ext. intros l _. rewrite <- cis_add. unfold cis. cbn [fst]. f_equal. unfold b. rewrite opp_IZR. field. pose proof KR. lra.
Qed.
Lemma ker_sum a : rtotal (fun l => Rabs (ker (a - b l))) K <= INR K * (97 / 56).
Proof.
  assert (A : forall f g n, (forall k, f k <= g k) -> rtotal f n <= rtotal g n) by (clear; intros f g n H; induction n as [|n IH]; cbn [rtotal]; [lra|]; specialize (H n); lra).
  eapply Rle_trans; [apply (A _ (fun l => 97 / 56 + (8 / 7 * cos (IZR 1 * (a - b l)) + 4 / 7 * cos (IZR 2 * (a - b l)))))|].
  - intros l. set (t := a - b l). unfold ker. rewrite Rmult_1_l. rewrite cos_2a_cos. set (k := cos t). assert (Rabs (1 + 2 * k) <= (4 / 7 * (1 + 2 * k) ^ 2 + 7 / 4) / 2) by (pose proof (pow2_ge_0 (1 + 2 * k - 7 / 4)); pose proof (pow2_ge_0 (1 + 2 * k + 7 / 4)); unfold Rabs; destruct (Rcase_abs (1 + 2 * k)); lra). lra.
  - assert (S : forall n, rtotal (fun l => 97 / 56 + (8 / 7 * cos (IZR 1 * (a - b l)) + 4 / 7 * cos (IZR 2 * (a - b l)))) n = INR n * (97 / 56) + (8 / 7 * rtotal (fun l => cos (IZR 1 * (a - b l))) n + 4 / 7 * rtotal (fun l => cos (IZR 2 * (a - b l))) n)).
    { intros n. induction n as [|n IH]; [cbn; ring|]. rewrite S_INR. cbn [rtotal]. rewrite IH. ring. }
    rewrite S, !cos_sum by (unfold K; lia). lra.
Qed.
Theorem low_one a : Cmod (fourier 1 c a) <= 97 / 56 * G.
Proof.
  pose proof KR as P. apply (Rmult_le_reg_l (INR K)); [exact P|]. rewrite <- (Rabs_right (INR K)) at 1 by lra. rewrite <- Cmod_R, <- Cmod_mult, kernel.
  assert (G0 : 0 <= G) by (eapply Rle_trans; [apply Cmod_ge_0|apply (HG 0)]).
  eapply Rle_trans; [apply (csum_mod _ (fun l => Rabs (ker (a - b l)) * G)); intros l _; rewrite Cmod_mult, Cmod_R; apply Rmult_le_compat_l; [apply Rabs_pos|apply HG]|].
  replace (rtotal (fun l => Rabs (ker (a - b l)) * G) K) with (rtotal (fun l => Rabs (ker (a - b l))) K * G).
  - pose proof (ker_sum a). nra.
  - assert (Q : forall (f : nat -> R) n, rtotal f n * G = rtotal (fun l => f l * G) n); [|apply Q]. clear. intros f n. induction n as [|n IH]; cbn [rtotal]; [ring|]. rewrite <- IH. ring.
Qed.
End One.
