(** The quadrature is accurate to some bound. *)
From Coq Require Import Reals ZArith List Lia Lra Psatz.
From Coquelicot Require Import Coquelicot.
From Verif Require Import LegSpec LegProofs LegAdd SolidProofs SolidAdd SolidPair TranField LapModel LapSpec TranEval TranProofs MergeShiftModel WaveModel WaveSpec WaveAlg WaveFrom Pot97Spec.
Import ListNotations.
Open Scope R_scope.

Lemma cmod_sh f B : (forall k, Cmod (f k) <= B) -> 0 <= B -> forall k, Cmod (sh f k) <= B.
Proof. intros H P [|k]; cbn [sh]; [rewrite Cmod_0; exact P|apply H]. Qed.
Lemma gco_bound v n : Rabs (vx v) <= 1 / 2 -> Rabs (vy v) <= 1 / 2 -> Rabs (vz v) <= 1 / 2 -> forall k, Cmod (gco v n k) <= 3 ^ n.
Proof.
  intros Hx Hy Hz. assert (Hxi : Cmod (xi v) <= 1).
  { unfold Cmod, xi. cbn [fst snd]. rewrite <- sqrt_1. apply sqrt_le_1_alt. pose proof (pow2_abs (vx v)) as A. pose proof (pow2_abs (vy v)) as B. pose proof (Rabs_pos (vx v)). pose proof (Rabs_pos (vy v)). nra. }
  assert (Hc : Cmod (Cconj (xi v)) <= 1) by (replace (Cmod (Cconj (xi v))) with (Cmod (xi v)) by (unfold Cmod, Cconj; cbn [fst snd]; f_equal; ring); exact Hxi). assert (Hr : Cmod (RtoC (2 * vz v)) <= 1) by (rewrite Cmod_R, Rabs_mult, (Rabs_right 2) by lra; lra).
  assert (M : forall a b B, Cmod a <= 1 -> Cmod b <= B -> Cmod (a * b)%C <= B) by (intros a b B A1 A2; rewrite Cmod_mult; pose proof (Cmod_ge_0 a); pose proof (Cmod_ge_0 b); nra).
  induction n as [|n IH]; intros k.
  - cbn [gco pow]. destruct k; rewrite ?Cmod_0, ?Cmod_1; lra.
  - assert (P : 0 <= 3 ^ n) by (apply pow_le; lra). cbn [gco pow]. pose proof (M _ _ _ Hr (cmod_sh _ _ IH P k)) as A. pose proof (M _ _ _ Hc (cmod_sh _ _ (cmod_sh _ _ IH P) P k)) as B. pose proof (M _ _ _ Hxi (IH k)) as D.
    unfold Cminus. eapply Rle_trans; [apply Cmod_triangle|]. eapply Rle_trans; [apply Rplus_le_compat_r, Cmod_triangle|]. rewrite Cmod_opp. lra.
Qed.
Lemma cp_mod z n : Cmod (cp z n) = Cmod z ^ n.
Proof. induction n as [|n IH]; [apply Cmod_1|]. cbn [cp pow]. rewrite Cmod_mult, IH. ring. Qed.
Lemma cis_mod a : Cmod (cis a) = 1.
Proof. unfold Cmod, cis. cbn [fst snd]. replace (cos a ^ 2 + sin a ^ 2) with 1; [apply sqrt_1|]. pose proof (cis_sq a). lra. Qed.

(** A family of complex numbers is bounded *)
Definition bounded (f : pt -> R -> C) : Prop := exists B, forall v a, in_unit v -> Cmod (f v a) <= B.
Lemma bounded_sum (f : nat -> pt -> R -> C) n : (forall k, bounded (f k)) -> bounded (fun v a => csum (fun k => f k v a) n).
Proof.
  intros H. induction n as [|n [B HB]]; [exists 0; intros; cbn [csum]; rewrite Cmod_0; lra|]. destruct (H n) as [B' HB']. exists (B + B'). intros v a U. cbn [csum]. eapply Rle_trans; [apply Cmod_triangle|]. specialize (HB v a U). specialize (HB' v a U). lra.
Qed.
Lemma T_bounded (n m : nat) : bounded (fun v a => T (tov v) n m a).
Proof.
  exists (Rabs (eps m) * (nf n (n + m) / cn n * 3 ^ n) / nf n (n + m)). intros v a (Hx & Hy & Hz). pose proof (nf_pos n (n + m)) as N. pose proof (cn_pos n) as Cn.
  unfold T. rewrite Cmod_mult, cp_mod. replace (Cmod Ci) with 1 by (unfold Cmod, Ci; cbn [fst snd]; replace (0 ^ 2 + 1 ^ 2) with 1 by ring; symmetry; apply sqrt_1). rewrite pow1, Rmult_1_l, Cmod_R. unfold Rdiv. rewrite !Rabs_mult, (Rabs_right (/ nf n (n + m))) by (apply Rle_ge; left; apply Rinv_0_lt_compat, N).
  apply Rmult_le_compat_r; [left; apply Rinv_0_lt_compat, N|]. apply Rmult_le_compat_l; [apply Rabs_pos|]. eapply Rle_trans; [apply Rmod_le_Cmod || apply (Rle_trans _ _ _ (Rmax_l _ _) (Rmax_Cmod _))|].
  rewrite Cmod_mult, cis_mod, Rmult_1_r. unfold har. rewrite Cmod_mult, Cmod_R, Rabs_right by (apply Rle_ge; left; apply Rdiv_lt_0_compat; assumption). rewrite Rmult_comm. apply Rmult_le_compat_l; [left; apply Rdiv_lt_0_compat; assumption|]. apply gco_bound; assumption.
Qed.
Lemma lp_bounded kap p f : bounded (fun v a => lp kap (tov v) p f a).
Proof.
  unfold lp. apply bounded_sum. intros m. apply bounded_sum. intros n. destruct (m <=? n)%nat; [|exists 0; intros; rewrite Cmod_0; lra]. destruct (T_bounded n m) as [B HB]. exists (Rabs (kap ^ n) * B). intros v a U. rewrite Cmod_mult, Cmod_R. apply Rmult_le_compat_l; [apply Rabs_pos|apply HB, U].
Qed.

(** One factor per wave length and the other factors bounded: so is the quadrature. *)
Lemma rtotal_bounded {X} (P : X -> Prop) (f : nat -> X -> R) n : (forall k, exists B, forall x, P x -> Rabs (f k x) <= B) -> exists B, forall x, P x -> Rabs (rtotal (fun k => f k x) n) <= B.
Proof.
  intros H. induction n as [|n [B HB]]; [exists 0; intros; cbn [rtotal]; rewrite Rabs_R0; lra|]. destruct (H n) as [B' HB']. exists (B + B'). intros x Px. cbn [rtotal]. eapply Rle_trans; [apply Rabs_triang|]. specialize (HB x Px). specialize (HB' x Px). lra.
Qed.
Lemma rtotal_ext f g n : (forall k, (k < n)%nat -> f k = g k) -> rtotal f n = rtotal g n.
Proof. induction n as [|n IH]; intros H; [reflexivity|]. cbn [rtotal]. rewrite IH, H by (intros; try apply H; lia). reflexivity. Qed.
Theorem some_bound q p : exists eps, accurate q p eps.
Proof.
  pose (X := (pt * pt * (Z * Z * Z))%type). pose (P := fun x : X => let '(a, b, (i, j, k)) := x in in_unit a /\ in_unit b /\ (-3 <= i <= 3)%Z /\ (-3 <= j <= 3)%Z /\ (2 <= k <= 3)%Z).
  pose (lw := fun (v : pt) (n : nat) => lp (sgn MZ * len q n) (tov v) p (frq q n)).
  pose (w := fun (x : X) n al => let '(a, b, (i, j, k)) := x in (lw a n al * cexp (exponent (len q n) (mkPt (IZR i) (IZR j) (IZR k)) al) * lw b n al)%C).
  destruct (rtotal_bounded P (fun n x => wgt q n * (rtotal (fun j => fst (w x n (ang q n (S j)))) (cnt q n) / INR (cnt q n))) (q_s q)) as [B HB].
  - intros n. destruct (lp_bounded (sgn MZ * len q n) p (frq q n)) as [Bl HBl].
    destruct (rtotal_bounded P (fun j x => fst (w x n (ang q n (S j)))) (cnt q n)) as [B HB].
    + intros j. exists (Bl * exp (Rabs (len q n) * 3) * Bl). intros [[a b] [[i0 j0] k0]] (Ha & Hb & _ & _ & Hk). cbn [w].
      eapply Rle_trans; [apply (Rle_trans _ _ _ (Rmax_l _ _) (Rmax_Cmod _))|]. rewrite !Cmod_mult. pose proof (HBl a (ang q n (S j)) Ha) as A1. pose proof (HBl b (ang q n (S j)) Hb) as A2.
      assert (E : Cmod (cexp (exponent (len q n) (mkPt (IZR i0) (IZR j0) (IZR k0)) (ang q n (S j)))) <= exp (Rabs (len q n) * 3)).
      { unfold cexp. rewrite Cmod_mult, cis_mod, Rmult_1_r, Cmod_R, Rabs_right by (apply Rle_ge; left; apply exp_pos). unfold exponent. cbn [fst pz]. destruct Hk as [K1 K2]. apply IZR_le in K1. apply IZR_le in K2. assert (X1 : - len q n * IZR k0 <= Rabs (len q n) * 3) by (pose proof (Rle_abs (- len q n)) as L; rewrite Rabs_Ropp in L; pose proof (Rabs_pos (len q n)); nra). destruct X1 as [X1|X1]; [left; apply exp_increasing, X1|rewrite X1; lra]. }
      pose proof (exp_pos (Rabs (len q n) * 3)). fold (lw a n) in A1. fold (lw b n) in A2. pose proof (Cmod_ge_0 (lw a n (ang q n (S j)))). pose proof (Cmod_ge_0 (lw b n (ang q n (S j)))). pose proof (Cmod_ge_0 (cexp (exponent (len q n) (mkPt (IZR i0) (IZR j0) (IZR k0)) (ang q n (S j))))).
      apply Rmult_le_compat; [apply Rmult_le_pos; assumption|assumption|apply Rmult_le_compat; assumption|assumption].
    + exists (Rabs (wgt q n) * (B * Rabs (/ INR (cnt q n)))). intros x Px. unfold Rdiv. rewrite !Rabs_mult. apply Rmult_le_compat_l; [apply Rabs_pos|]. apply Rmult_le_compat_r; [apply Rabs_pos|apply HB, Px].
  - exists (B + 1). intros a b i j k h g Ha Hb Hi Hj Hk Wh Wg. eapply Rle_trans; [apply Rabs_triang|]. rewrite Rabs_Ropp. apply Rplus_le_compat.
    + specialize (HB (a, b, (i, j, k)) (Logic.conj Ha (Logic.conj Hb (Logic.conj Hi (Logic.conj Hj Hk))))). eapply Rle_trans; [right; apply (f_equal Rabs)|exact HB]. unfold quadrature. apply rtotal_ext. intros n _. f_equal. unfold Rdiv. f_equal. apply rtotal_ext. intros l _. cbn [w]. apply (f_equal fst). f_equal; [apply (f_equal (fun z => Cmult z _))|]; [exact (wave_is_lp MZ p (frq q n) (len q n) a (h n) _ (Wh n))|exact (wave_is_lp MZ p (frq q n) (len q n) b (g n) _ (Wg n))].
    + destruct Ha as (_ & _ & Az), Hb as (_ & _ & Bz). destruct Hk as [K1 _]. apply IZR_le in K1. apply Rabs_le_between in Az. apply Rabs_le_between in Bz.
      assert (D : 1 <= sqrt ((IZR i + px a + px b) ^ 2 + (IZR j + py a + py b) ^ 2 + (IZR k + pz a + pz b) ^ 2)).
      { rewrite <- sqrt_1 at 1. apply sqrt_le_1_alt. pose proof (pow2_ge_0 (IZR i + px a + px b)). pose proof (pow2_ge_0 (IZR j + py a + py b)). assert (1 <= IZR k + pz a + pz b) by lra. nra. }
      rewrite Rabs_inv, Rabs_right by lra. rewrite <- Rinv_1. apply Rinv_le_contravar; lra.
Qed.
