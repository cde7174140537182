(** The arithmetic behind Miller's algorithm: the backward recursion as a combination of the
    two kinds of functions, the sum it is normalized with, and how much of the second kind
    stays. *)
From Coq Require Import Reals Lia Lra Psatz.
From Coquelicot Require Import Coquelicot.
From Verif Require Import BesselSpec BesselProofs.
Open Scope R_scope.

Lemma ii_cosh x : ii 0 x + x * ii 1 x = cosh x.
Proof.
  assert (D : is_derive (fun x => x * ii 0 x) x (ii 0 x + x * ii 1 x)).
  { evar_last; [apply (is_derive_mult (fun x => x) (ii 0) x 1 _ (is_derive_id (K := R_AbsRing) x) (ii_derive 0 x)); intros; apply Rmult_comm|].
    match goal with |- ?a = ?b => change (@eq R a b) end. unfold plus, mult. simpl. ring. }
  assert (D' : is_derive (fun x => x * ii 0 x) x (cosh x)).
  { apply (is_derive_ext sinh); [intros t; unfold ii; rewrite <- ii_sinh; simpl; match goal with |- ?a = ?b => change (@eq R a b) end; ring|]. apply is_derive_Reals, derivable_pt_lim_sinh. }
  rewrite <- (is_derive_unique _ _ _ D). apply is_derive_unique, D'.
Qed.
Lemma ii_exp x : (1 + x) * ii 0 x + x * ii 1 x = exp x.
Proof. pose proof (ii_cosh x) as C. assert (S : x * ii 0 x = sinh x) by (unfold ii; rewrite <- ii_sinh; simpl; ring). unfold sinh, cosh in *. lra. Qed.
Lemma kk_balance x : 0 < x -> (1 + x) * kk 0 x = x * kk 1 x.
Proof. intros H. unfold kk. simpl. field. lra. Qed.

Section At.
Variable x : R.
Hypothesis Hx : 0 < x.
Local Notation Ix n := (ii n x).
Local Notation Kx n := (kk n x).

Definition cj (j : nat) : R := (2 * INR j + 1) / x.
Lemma cj_pos j : 0 < cj j.
Proof. unfold cj. pose proof (pos_INR j). apply Rdiv_lt_0_compat; lra. Qed.
Lemma cj_le i j : (i <= j)%nat -> cj i <= cj j.
Proof. intros H. apply le_INR in H. unfold cj, Rdiv. apply Rmult_le_compat_r; [left; apply Rinv_0_lt_compat, Hx|lra]. Qed.
Lemma K_rec n : Kx (S (S n)) = cj (S n) * Kx (S n) + Kx n.
Proof. rewrite kk_rec by exact Hx. unfold cj. rewrite S_INR. field. lra. Qed.
Lemma I_rec n : Ix n = cj (S n) * Ix (S n) + Ix (S (S n)).
Proof. unfold cj. pose proof (ii_rec n x) as E. rewrite S_INR. apply Rmult_eq_reg_l with x; [|lra]. rewrite E. field. lra. Qed.
Lemma K_pos n : 0 < Kx n.
Proof. apply kk_pos, Hx. Qed.
Lemma I_low n : x ^ n / odd n <= Ix n.
Proof.
  eapply Rle_trans; [|apply ii_low; lra]. pose proof (odd_ge n). pose proof (pos_INR n). unfold Rdiv. apply Rmult_le_compat_r; [left; apply Rinv_0_lt_compat; lra|].
  assert (0 <= x * x * / (2 * (2 * INR n + 3))) by (apply Rmult_le_pos; [nra|left; apply Rinv_0_lt_compat; lra]). pose proof (pow_lt x n Hx). nra.
Qed.
Lemma I_pos n : 0 < Ix n.
Proof. eapply Rlt_le_trans; [|apply I_low]. pose proof (odd_ge n). apply Rdiv_lt_0_compat; [apply pow_lt, Hx|lra]. Qed.

(** the Casoratian *)
Lemma cas n : Ix n * Kx (S n) + Ix (S n) * Kx n = / (x * x).
Proof.
  induction n as [|n IH].
  - unfold kk. simpl G. simpl pow. pose proof (ii_exp x) as E. rewrite exp_Ropp, <- E. pose proof (exp_pos x) as P. rewrite <- E in P. field. split; lra.
  - rewrite <- IH, K_rec, (I_rec n). ring.
Qed.
Lemma I_up_K n : Ix n * Kx (S n) <= / (x * x).
Proof. rewrite <- (cas n). pose proof (I_pos (S n)). pose proof (K_pos n). nra. Qed.
(** the second kind grows *)
Lemma K_grow n : Kx n <= Kx (S n) <= (1 + cj n) * Kx n.
Proof.
  induction n as [|n [L U]].
  - assert (E : Kx 1 = (1 + cj 0) * Kx 0) by (unfold kk, cj; simpl; field; lra). rewrite E. pose proof (K_pos 0). pose proof (cj_pos 0). split; nra.
  - rewrite K_rec. pose proof (K_pos n). pose proof (K_pos (S n)). pose proof (cj_pos n). pose proof (cj_le n (S n) ltac:(lia)). split; [|nra].
    set (c := cj n) in *. set (c' := cj (S n)) in *. set (k := Kx n) in *. set (k' := Kx (S n)) in *.
    assert (k' * (c * k') <= k' * (c' * k')) by (apply Rmult_le_compat_l; [lra|]; apply Rmult_le_compat_r; lra).
    assert (c * k' <= c' * k') by (apply Rmult_le_compat_r; lra). destruct (Rle_dec 1 c) as [C|C]; [nra|]. assert (k' * (1 - c) <= (1 + c) * k * (1 - c)) by (apply Rmult_le_compat_r; lra). nra.
Qed.
Lemma K_mono i j : (i <= j)%nat -> Kx i <= Kx j.
Proof. induction 1 as [|j _ IH]; [lra|]. pose proof (K_grow j). lra. Qed.

Lemma I_low_K n : / (x * x) <= (1 + / cj (S n)) * (Ix n * Kx (S n)).
Proof.
  pose proof (cas n) as C. pose proof (I_up_K (S n)) as U. rewrite (K_rec n) in U. pose proof (cj_pos (S n)) as Pc. pose proof (K_pos n). pose proof (proj1 (K_grow n)). pose proof (I_pos n). pose proof (I_pos (S n)).
  set (c := cj (S n)) in *. set (w := / (x * x)) in *. set (a := Ix n) in *. set (a' := Ix (S n)) in *. set (k := Kx n) in *. set (k' := Kx (S n)) in *.
  apply Rmult_le_reg_l with c; [exact Pc|]. replace (c * ((1 + / c) * (a * k'))) with ((c + 1) * (a * k')) by (field; lra).
  assert (a' * (c * k) <= a' * (c * k')) by (apply Rmult_le_compat_l; [lra|]; apply Rmult_le_compat_l; lra). nra.
Qed.

(** ** the backward recursion from 0 at N + 1 and 1 / p at N *)
Section Back.
Variables (N : nat) (p : R).
Hypothesis Hp : 0 < p.
Definition yy (n : nat) : R := x * x / p * (Ix n * Kx (S N) + (-1) ^ (N + n) * (Ix (S N) * Kx n)).
Lemma yy_rec n : yy n = cj (S n) * yy (S n) + yy (S (S n)).
Proof. unfold yy. rewrite (K_rec n), (I_rec n). rewrite !Nat.add_succ_r. simpl pow. ring. Qed.
Lemma yy_top : yy (S N) = 0.
Proof. unfold yy. replace (N + S N)%nat with (S (2 * N)) by lia. rewrite pow_1_odd. ring. Qed.
Lemma yy_N : yy N = / p.
Proof. unfold yy. replace (N + N)%nat with (2 * N)%nat by lia. rewrite pow_1_even, Rmult_1_l, cas. field. lra. Qed.
Lemma yy_tele n : (2 * INR (S n) + 1) * yy (S n) = x * (yy n - yy (S (S n))).
Proof. rewrite (yy_rec n). unfold cj. field. lra. Qed.
Lemma yy_total : x * (yy 0 + yy 1 - yy N) + yy 0 = x * x * exp x / p * (Kx (S N) - Kx 0).
Proof.
  rewrite yy_N. unfold yy. rewrite Nat.add_0_r, Nat.add_1_r. simpl pow. pose proof (ii_exp x) as E. pose proof (kk_balance x Hx) as B.
  assert (K0 : x * (Kx 0 * exp x) = 1). { unfold kk. simpl. rewrite exp_Ropp. pose proof (exp_pos x). field. lra. }
 
  set (s := (-1) ^ N) in *. set (K := Kx (S N)) in *. set (J := Ix (S N)) in *.
  transitivity (x * x / p * (K * ((1 + x) * Ix 0 + x * Ix 1) + s * J * ((1 + x) * Kx 0 - x * Kx 1)) - x / p); [field; lra|].
  rewrite E, B. transitivity (x / p * (x * (K * exp x) - x * (Kx 0 * exp x))); [rewrite K0; field; lra|]. field. lra.
Qed.
Definition share (n : nat) : R := Ix (S N) * Kx n / (Ix n * Kx (S N)).
Lemma share_pos n : 0 < share n.
Proof. unfold share. pose proof (I_pos n). pose proof (I_pos (S N)). pose proof (K_pos n). pose proof (K_pos (S N)). apply Rdiv_lt_0_compat; apply Rmult_lt_0_compat; assumption. Qed.
Lemma yy_share n : yy n = x * x / p * Kx (S N) * (Ix n * (1 + (-1) ^ (N + n) * share n)).
Proof. unfold yy, share. pose proof (I_pos n). pose proof (K_pos (S N)). field. repeat split; lra. Qed.
Lemma share_le n Q : 0 < Q -> Q * (Kx n * Kx (S n)) <= Kx (S N) * Kx (S (S N)) -> share n <= (1 + x / 3) / Q.
Proof.
  intros HQ H. pose proof (I_pos n) as A1. pose proof (I_pos (S N)) as A2. pose proof (K_pos n) as A3. pose proof (K_pos (S n)) as A4. pose proof (K_pos (S N)) as A5. pose proof (K_pos (S (S N))) as A6.
  pose proof (I_up_K (S N)) as U. pose proof (I_low_K n) as L. assert (C : / cj (S n) <= x / 3).
  { unfold cj. pose proof (pos_INR n). rewrite S_INR. replace (/ ((2 * (INR n + 1) + 1) / x)) with (x * / (2 * INR n + 3)) by (field; split; lra). apply Rmult_le_compat_l; [lra|]. apply Rinv_le_contravar; lra. }
  assert (U' : Ix (S N) * Kx (S (S N)) <= (1 + x / 3) * (Ix n * Kx (S n))).
  { eapply Rle_trans; [exact U|]. eapply Rle_trans; [exact L|]. apply Rmult_le_compat_r; [apply Rmult_le_pos; lra|lra]. }
  unfold share. apply Rmult_le_reg_r with (Ix n * Kx (S N)); [apply Rmult_lt_0_compat; assumption|]. unfold Rdiv at 1. rewrite Rmult_assoc, Rinv_l by (apply Rgt_not_eq, Rmult_lt_0_compat; assumption). rewrite Rmult_1_r.
  apply Rmult_le_reg_r with (Q * (Kx (S n) * Kx (S (S N)))); [apply Rmult_lt_0_compat; [exact HQ|apply Rmult_lt_0_compat; assumption]|].
  replace ((1 + x / 3) / Q * (Ix n * Kx (S N)) * (Q * (Kx (S n) * Kx (S (S N))))) with (((1 + x / 3) * (Ix n * Kx (S n))) * (Kx (S N) * Kx (S (S N)))) by (field; lra).
  replace (Ix (S N) * Kx n * (Q * (Kx (S n) * Kx (S (S N))))) with ((Ix (S N) * Kx (S (S N))) * (Q * (Kx n * Kx (S n)))) by ring.
  apply Rmult_le_compat; [apply Rmult_le_pos; lra|apply Rmult_le_pos; [lra|apply Rmult_le_pos; lra]|exact U'|exact H].
Qed.
End Back.
End At.
