(** Solid harmonics as coefficients of the powers of a quadratic form in two variables. *)
From Coq Require Import Reals List Lia Lra Psatz.
From Coquelicot Require Import Coquelicot.
From Verif Require Import LegSpec LegProofs.
Open Scope R_scope.

(** ** real polynomials *)
Fixpoint rsum (f : nat -> R) (n : nat) : R := match n with O => 0 | S k => rsum f k + f k end.
Lemma rsum_ext f g n : (forall k, (k < n)%nat -> f k = g k) -> rsum f n = rsum g n.
Proof. induction n as [|n IH]; intros H; cbn [rsum]; [reflexivity|]. rewrite IH, H by (try (intros; apply H); lia). reflexivity. Qed.
Lemma rsum_shift f n : rsum f (S n) = f 0%nat + rsum (fun k => f (S k)) n.
Proof. induction n as [|n IH]; [cbn; ring|]. change (rsum f (S (S n))) with (rsum f (S n) + f (S n)). rewrite IH. cbn [rsum]. ring. Qed.
Lemma rsum_scal a f n : rsum (fun k => a * f k) n = a * rsum f n.
Proof. induction n as [|n IH]; cbn [rsum]; [ring|]. rewrite IH. ring. Qed.
Lemma rsum_plus f g n : rsum (fun k => f k + g k) n = rsum f n + rsum g n.
Proof. induction n as [|n IH]; cbn [rsum]; [ring|]. rewrite IH. ring. Qed.
Lemma rsum_abs f n : Rabs (rsum f n) <= rsum (fun k => Rabs (f k)) n.
Proof. induction n as [|n IH]; cbn [rsum]; [rewrite Rabs_R0; lra|]. eapply Rle_trans; [apply Rabs_triang|]. lra. Qed.
Lemma rsum_le f g n : (forall k, (k < n)%nat -> f k <= g k) -> rsum f n <= rsum g n.
Proof. induction n as [|n IH]; intros H; cbn [rsum]; [lra|]. pose proof (H n ltac:(lia)). pose proof (IH ltac:(intros; apply H; lia)). lra. Qed.

Lemma rsum_f f n : sum_f_R0 f n = rsum f (S n).
Proof. induction n as [|n IH]; [cbn; ring|]. cbn [sum_f_R0]. rewrite IH. reflexivity. Qed.
Lemma rsum_zero n : rsum (fun _ => 0) n = 0.
Proof. induction n as [|n IH]; cbn [rsum]; [reflexivity|]. rewrite IH. ring. Qed.

Definition poly (a : nat -> R) (n : nat) (t : R) : R := rsum (fun k => a k * t ^ k) n.
Lemma poly_S a n t : poly a (S n) t = a 0%nat + t * poly (fun k => a (S k)) n t.
Proof.
  unfold poly. rewrite rsum_shift, <- rsum_scal. f_equal; [cbn; ring|]. apply rsum_ext. intros k _. cbn [pow]. ring.
Qed.
Lemma poly_bound a n t : Rabs t <= 1 -> Rabs (poly a n t) <= rsum (fun k => Rabs (a k)) n.
Proof.
  intros H. unfold poly. eapply Rle_trans; [apply rsum_abs|]. apply rsum_le. intros k _. rewrite Rabs_mult, <- RPow_abs.
  pose proof (Rabs_pos (a k)). assert (Rabs t ^ k <= 1) by (rewrite <- (pow1 k); apply pow_incr; split; [apply Rabs_pos|exact H]). nra.
Qed.
Lemma poly_zero n : forall a, (forall t, t <> 0 -> poly a n t = 0) -> forall k, (k < n)%nat -> a k = 0.
Proof.
  induction n as [|n IH]; intros a H k Hk; [lia|]. set (a' := fun k => a (S k)). set (B := rsum (fun k => Rabs (a' k)) n).
  assert (HB : 0 <= B) by (unfold B; clear; induction n as [|n IH]; cbn [rsum]; [lra|]; pose proof (Rabs_pos (a' n)); lra).
  assert (Z : a 0%nat = 0).
  { destruct (Req_EM_T (a 0%nat) 0) as [E|N]; [exact E|exfalso]. pose proof (Rabs_pos_lt _ N) as Hp. set (e := Rabs (a 0%nat)) in *.
    set (t := Rmin 1 (e / (2 * (B + 1)))). assert (Hq : 0 < e / (2 * (B + 1))) by (apply Rdiv_lt_0_compat; lra).
    assert (Ht : 0 < t <= 1) by (unfold t; split; [apply Rmin_glb_lt; lra|apply Rmin_l]). assert (Ht2 : t <= e / (2 * (B + 1))) by apply Rmin_r.
    pose proof (H t ltac:(lra)) as E. rewrite poly_S in E. fold a' in E. pose proof (poly_bound a' n t ltac:(rewrite Rabs_right; lra)) as Pb. fold B in Pb.
    assert (e = t * Rabs (poly a' n t)) by (unfold e; replace (a 0%nat) with (- (t * poly a' n t)) by lra; rewrite Rabs_Ropp, Rabs_mult, (Rabs_right t) by lra; reflexivity).
    assert (t * Rabs (poly a' n t) <= e / (2 * (B + 1)) * B) by (apply Rmult_le_compat; try lra; apply Rabs_pos).
    assert (e / (2 * (B + 1)) * B <= e / 2) by (apply Rmult_le_reg_r with (2 * (B + 1)); [lra|]; field_simplify; [nra|lra]). lra. }
  destruct k as [|k]; [exact Z|]. apply (IH a'); [|lia]. intros t Ht. pose proof (H t Ht) as E. rewrite poly_S, Z in E. fold a' in E.
  apply Rmult_eq_reg_l with t; [|exact Ht]. lra.
Qed.

(** ** complex sums *)
Open Scope C_scope.
Ltac ceq := apply injective_projections; unfold Cminus, Cconj, Cplus, Copp, Cmult, RtoC; cbn [fst snd]; ring.
Fixpoint csum (f : nat -> C) (n : nat) : C := match n with O => 0 | S k => csum f k + f k end.
Lemma csum_ext f g n : (forall k, (k < n)%nat -> f k = g k) -> csum f n = csum g n.
Proof. induction n as [|n IH]; intros H; cbn [csum]; [reflexivity|]. rewrite IH, H by (try (intros; apply H); lia). reflexivity. Qed.
Lemma csum_shift f n : csum f (S n) = f 0%nat + csum (fun k => f (S k)) n.
Proof. induction n as [|n IH]; [cbn [csum]; ring|]. change (csum f (S (S n))) with (csum f (S n) + f (S n)). rewrite IH. cbn [csum]. ring. Qed.
Lemma csum_scal a f n : csum (fun k => a * f k) n = a * csum f n.
Proof. induction n as [|n IH]; cbn [csum]; [ring|]. rewrite IH. ring. Qed.
Lemma csum_plus f g n : csum (fun k => f k + g k) n = csum f n + csum g n.
Proof. induction n as [|n IH]; cbn [csum]; [ring|]. rewrite IH. ring. Qed.
Lemma csum_zero (f : nat -> C) n : (forall k, (k < n)%nat -> f k = 0) -> csum f n = 0.
Proof. induction n as [|n IH]; intros H; cbn [csum]; [reflexivity|]. rewrite IH, H by (try (intros; apply H); lia). ring. Qed.
Lemma csum_swap f a b : csum (fun i => csum (f i) b) a = csum (fun j => csum (fun i => f i j) a) b.
Proof. induction a as [|a IH]; cbn [csum]; [symmetry; apply csum_zero; reflexivity|]. rewrite IH, <- csum_plus. reflexivity. Qed.
Lemma csum_split f a b : csum f (a + b) = csum f a + csum (fun k => f (a + k)%nat) b.
Proof. induction b as [|b IH]; [rewrite Nat.add_0_r; cbn [csum]; ring|]. rewrite Nat.add_succ_r. cbn [csum]. rewrite IH. ring. Qed.
Lemma csum_conj f n : Cconj (csum f n) = csum (fun k => Cconj (f k)) n.
Proof. induction n as [|n IH]; cbn [csum]; [ceq|]. rewrite <- IH. ceq. Qed.
Lemma csum_fst f n : fst (csum f n) = rsum (fun k => fst (f k)) n.
Proof. induction n as [|n IH]; cbn [csum rsum]; [reflexivity|]. rewrite <- IH. reflexivity. Qed.
Lemma csum_snd f n : snd (csum f n) = rsum (fun k => snd (f k)) n.
Proof. induction n as [|n IH]; cbn [csum rsum]; [reflexivity|]. rewrite <- IH. reflexivity. Qed.
Lemma csum_one (f : nat -> C) n i : (i < n)%nat -> (forall k, (k < n)%nat -> k <> i -> f k = 0) -> csum f n = f i.
Proof.
  induction n as [|n IH]; intros Hi H; [lia|]. cbn [csum]. destruct (Nat.eq_dec i n) as [->|N].
  - rewrite csum_zero; [ring|]. intros k Hk. apply H; lia.
  - rewrite IH; [|lia|intros; apply H; lia]. rewrite (H n) by lia. ring.
Qed.

(** powers *)
Fixpoint cp (a : C) (n : nat) : C := match n with O => 1 | S k => cp a k * a end.
Lemma cp_mul a b n : cp (a * b) n = cp a n * cp b n.
Proof. induction n as [|n IH]; cbn [cp]; [ring|]. rewrite IH. ring. Qed.
Lemma cp_R r n : cp (RtoC r) n = RtoC (r ^ n).
Proof. induction n as [|n IH]; cbn [cp]; [reflexivity|]. rewrite IH, <- RtoC_mult. f_equal. cbn [pow]. ring. Qed.
Lemma cp_conj a n : Cconj (cp a n) = cp (Cconj a) n.
Proof. induction n as [|n IH]; cbn [cp]; [ceq|]. rewrite <- IH. ceq. Qed.
Lemma cp_add a i j : cp a (i + j) = cp a i * cp a j.
Proof. induction j as [|j IH]; [rewrite Nat.add_0_r; cbn [cp]; ring|]. rewrite Nat.add_succ_r. cbn [cp]. rewrite IH. ring. Qed.

(** ** homogeneous forms *)
Definition H (K : nat) (f : nat -> C) (u v : R) : C := csum (fun k => f k * RtoC (u ^ k * v ^ (K - k))) (S K).
Definition sh (f : nat -> C) (k : nat) : C := match k with O => 0 | S j => f j end.

Lemma H_ext K f g u v : (forall k, (k <= K)%nat -> f k = g k) -> H K f u v = H K g u v.
Proof. intros E. apply csum_ext. intros k Hk. rewrite E by lia. reflexivity. Qed.
Lemma H_plus K f g u v : H K (fun k => f k + g k) u v = H K f u v + H K g u v.
Proof. unfold H. rewrite <- csum_plus. apply csum_ext. intros. ring. Qed.
Lemma H_scal K a f u v : H K (fun k => a * f k) u v = a * H K f u v.
Proof. unfold H. rewrite <- csum_scal. apply csum_ext. intros. ring. Qed.
Lemma H_sh K f u v : H (S K) (sh f) u v = RtoC u * H K f u v.
Proof.
  unfold H. rewrite csum_shift. cbn [sh]. rewrite <- csum_scal, Cmult_0_l, Cplus_0_l. apply csum_ext. intros k Hk. cbn [Nat.sub]. rewrite !RtoC_mult. cbn [pow]. rewrite RtoC_mult. ring.
Qed.
Lemma H_up K (f : nat -> C) u v : f (S K) = 0 -> H (S K) f u v = RtoC v * H K f u v.
Proof.
  intros Z. unfold H. change (csum ?g (S (S K))) with (csum g (S K) + g (S K)). cbn beta. rewrite Z, Cmult_0_l, Cplus_0_r, <- csum_scal.
  apply csum_ext. intros k Hk. replace (S K - k)%nat with (S (K - k)) by lia. rewrite !RtoC_mult. cbn [pow]. rewrite RtoC_mult. ring.
Qed.

Lemma H_zero K (f : nat -> C) : (forall u v, u <> 0%R -> v <> 0%R -> H K f u v = 0) -> forall k, (k <= K)%nat -> f k = 0.
Proof.
  intros E. assert (P : forall t, t <> 0%R -> poly (fun k => fst (f k)) (S K) t = 0%R /\ poly (fun k => snd (f k)) (S K) t = 0%R).
  { intros t Ht. pose proof (E t 1%R Ht R1_neq_R0) as Z. unfold H in Z. split; unfold poly.
    - apply (f_equal fst) in Z. rewrite csum_fst in Z. cbn [fst RtoC] in Z. rewrite <- Z. apply rsum_ext. intros k _. rewrite pow1, Rmult_1_r. cbn [Cmult fst snd RtoC]. ring.
    - apply (f_equal snd) in Z. rewrite csum_snd in Z. cbn [snd RtoC] in Z. rewrite <- Z. apply rsum_ext. intros k _. rewrite pow1, Rmult_1_r. cbn [Cmult fst snd RtoC]. ring. }
  intros k Hk. assert (A : fst (f k) = 0%R) by (apply (poly_zero (S K) (fun k => fst (f k))); [intros; apply P; assumption|lia]).
  assert (B : snd (f k) = 0%R) by (apply (poly_zero (S K) (fun k => snd (f k))); [intros; apply P; assumption|lia]).
  destruct (f k) as [a b]. cbn [fst snd] in A, B. rewrite A, B. reflexivity.
Qed.
Lemma H_eq K f g : (forall u v, u <> 0%R -> v <> 0%R -> H K f u v = H K g u v) -> forall k, (k <= K)%nat -> f k = g k.
Proof.
  intros E k Hk. assert (Z : f k + (-(1)) * g k = 0).
  { apply (H_zero K (fun k => f k + (-(1)) * g k)); [|exact Hk]. intros u v Hu Hv. rewrite H_plus, H_scal, (E u v Hu Hv). ring. }
  replace (f k) with (f k + -(1) * g k + g k) by ring. rewrite Z. ring.
Qed.

(** ** the harmonics of a point *)
Record vec := mkVec { vx : R; vy : R; vz : R }.
Definition xi (x : vec) : C := (vx x, vy x).
Definition form (x : vec) (u v : R) : C := RtoC (2 * u * v * vz x) - RtoC (u * u) * Cconj (xi x) + RtoC (v * v) * xi x.

Fixpoint gco (x : vec) (n : nat) (k : nat) : C :=
  match n with
  | O => match k with O => 1 | S _ => 0 end
  | S n => RtoC (2 * vz x) * sh (gco x n) k - Cconj (xi x) * sh (sh (gco x n)) k + xi x * gco x n k
  end.

Lemma gco_high x n : forall k, (2 * n < k)%nat -> gco x n k = 0.
Proof.
  induction n as [|n IH]; intros k Hk; [destruct k; [lia|reflexivity]|]. cbn [gco]. destruct k as [|[|k]]; [lia|lia|]. cbn [sh]. rewrite !IH by lia. ring.
Qed.

Lemma gco_gen x n u v : H (2 * n) (gco x n) u v = cp (form x u v) n.
Proof.
  induction n as [|n IH]; [unfold H; cbn; unfold Cplus, Cmult, RtoC; cbn; f_equal; ring|]. replace (2 * S n)%nat with (S (S (2 * n))) by lia.
  rewrite (H_ext _ _ (fun k => RtoC (2 * vz x) * sh (gco x n) k + (-(1) * Cconj (xi x) * sh (sh (gco x n)) k + xi x * gco x n k))) by (intros; cbn [gco]; ring).
  rewrite !H_plus, !H_scal. rewrite (H_sh (S (2 * n)) (sh (gco x n))), !(H_sh _ (gco x n)), !(H_up _ (gco x n)) by (apply gco_high; lia). rewrite IH. cbn [cp]. unfold form.
  rewrite !RtoC_mult. ring.
Qed.

(** orders of opposite sign *)
Lemma sgn_sq k : ((-1) ^ k * (-1) ^ k = 1)%R.
Proof. rewrite <- pow_add. replace (k + k)%nat with (2 * k)%nat by lia. rewrite pow_mult. replace ((-1) ^ 2)%R with 1%R by ring. apply pow1. Qed.

Lemma gco_sym x n : forall a b, (a + b = 2 * n)%nat -> gco x n a = RtoC ((-1) ^ (n + b)) * Cconj (gco x n b).
Proof.
  induction n as [|n IH]; intros a b E.
  - replace a with 0%nat by lia. replace b with 0%nat by lia. cbn [gco Nat.add pow]. ceq.
  - cbn [gco]. replace (S n + b)%nat with (S (n + b)) by lia. set (g := gco x n) in *.
    assert (Z : forall k, (2 * n < k)%nat -> g k = 0) by (intros; apply gco_high; assumption).
    assert (A1 : sh g a = RtoC ((-1) ^ S (n + b)) * Cconj (sh g b)).
    { destruct a as [|a]; [destruct b as [|b]; [lia|]; cbn [sh]; rewrite Z by lia; ceq|]. destruct b as [|b]; cbn [sh]; [rewrite Z by lia; ceq|].
      rewrite (IH a b) by lia. f_equal. f_equal. rewrite Nat.add_succ_r. cbn [pow]. ring. }
    assert (A2 : sh (sh g) a = RtoC ((-1) ^ (n + b)) * Cconj (g b)).
    { destruct a as [|[|a]]; cbn [sh]; [rewrite (Z b) by lia; ceq|rewrite (Z b) by lia; ceq|]. apply IH. lia. }
    assert (A3 : g a = RtoC ((-1) ^ (n + b)) * Cconj (sh (sh g) b)).
    { destruct b as [|[|b]]; cbn [sh]; [rewrite (Z a) by lia; ceq|rewrite (Z a) by lia; ceq|]. rewrite (IH a b) by lia. f_equal. f_equal. rewrite !Nat.add_succ_r. cbn [pow]. ring. }
    rewrite A1, A2, A3. cbn [pow]. generalize (sh (sh g) b) (sh g b) (g b) ((-1) ^ (n + b))%R (xi x). intros. ceq.
Qed.

(** ** normalised *)
Definition nf (n k : nat) : R := sqrt (INR (fact k) * INR (fact (2 * n - k))).
Definition cn (n : nat) : R := (2 ^ n * INR (fact n))%R.
Definition mono (n k : nat) (u v : R) : R := (u ^ k * v ^ (2 * n - k) / nf n k)%R.
Definition har (x : vec) (n k : nat) : C := gco x n k * RtoC (nf n k / cn n).

Lemma nf_pos n k : (0 < nf n k)%R.
Proof. apply sqrt_lt_R0, Rmult_lt_0_compat; apply INR_fact_lt_0. Qed.
Lemma nf_sq n k : (nf n k * nf n k = INR (fact k) * INR (fact (2 * n - k)))%R.
Proof. apply sqrt_sqrt. pose proof (INR_fact_lt_0 k). pose proof (INR_fact_lt_0 (2 * n - k)). nra. Qed.
Lemma cn_pos n : (0 < cn n)%R.
Proof. apply norm_pos. Qed.

Lemma har_gen x n u v : csum (fun k => har x n k * RtoC (mono n k u v)) (S (2 * n)) = cp (form x u v) n * RtoC (/ cn n).
Proof.
  rewrite <- gco_gen. unfold H. rewrite Cmult_comm, <- csum_scal. apply csum_ext. intros k _. unfold har, mono. pose proof (nf_pos n k). pose proof (cn_pos n).
  rewrite <- Cmult_assoc, <- RtoC_mult. replace (nf n k / cn n * (u ^ k * v ^ (2 * n - k) / nf n k))%R with (/ cn n * (u ^ k * v ^ (2 * n - k)))%R by (field; lra). rewrite (RtoC_mult (/ cn n)). ring.
Qed.

Lemma mono_eq n (f g : nat -> C) : (forall u v, csum (fun k => f k * RtoC (mono n k u v)) (S (2 * n)) = csum (fun k => g k * RtoC (mono n k u v)) (S (2 * n))) ->
  forall k, (k <= 2 * n)%nat -> f k = g k.
Proof.
  intros E k Hk. assert (N : forall k, RtoC (/ nf n k) <> 0) by (intros j A; apply RtoC_inj in A; pose proof (Rinv_0_lt_compat _ (nf_pos n j)); lra).
  assert (Q : f k * RtoC (/ nf n k) = g k * RtoC (/ nf n k)).
  { apply (H_eq (2 * n) (fun k => f k * RtoC (/ nf n k)) (fun k => g k * RtoC (/ nf n k))); [|exact Hk]. intros u v _ _. pose proof (E u v) as Euv. unfold H, mono, Rdiv in *.
    etransitivity; [etransitivity; [|exact Euv]|]; apply csum_ext; intros j _; rewrite !RtoC_mult; ring. }
  apply (f_equal (fun a => a * RtoC (nf n k))) in Q. pose proof (nf_pos n k).
  rewrite <- !Cmult_assoc, <- RtoC_mult, Rinv_l, !Cmult_1_r in Q by lra. exact Q.
Qed.

Lemma har_sym x n m : (m <= n)%nat -> har x n (n - m) = RtoC ((-1) ^ m) * Cconj (har x n (n + m)).
Proof.
  intros Hm. unfold har. rewrite (gco_sym x n (n - m) (n + m)) by lia. assert (Nq : nf n (n - m) = nf n (n + m)) by (unfold nf; replace (2 * n - (n - m))%nat with (n + m)%nat by lia; replace (2 * n - (n + m))%nat with (n - m)%nat by lia; rewrite Rmult_comm; reflexivity).
  rewrite Nq. replace (n + (n + m))%nat with (2 * n + m)%nat by lia. rewrite pow_add, pow_mult. replace ((-1) ^ 2)%R with 1%R by ring. rewrite pow1, Rmult_1_l. ceq.
Qed.

(** ** rotation about the y axis *)
Section Rotation.
Variables c s : R.
Hypothesis cs1 : (c * c + s * s = 1)%R.
Let cb := (c * c - s * s)%R.
Let sb := (2 * c * s)%R.
Definition rot_y (x : vec) : vec := mkVec (vx x * (c * c - s * s) + vz x * (2 * c * s)) (vy x) (vz x * (c * c - s * s) - vx x * (2 * c * s)).

Lemma form_rot x u v : form (rot_y x) (c * u - s * v) (s * u + c * v) = form x u v.
Proof.
  destruct x as [x1 x2 x3]. unfold form, rot_y, xi. cbn [vx vy vz]. apply injective_projections; unfold Cminus, Cconj, Cplus, Copp, Cmult, RtoC; cbn [fst snd].
  - transitivity ((c * c + s * s) * (c * c + s * s) * (2 * u * v * x3 - u * u * x1 + v * v * x1))%R; [ring|]. rewrite cs1. ring.
  - transitivity ((c * c + s * s) * (u * u * x2 + v * v * x2))%R; [ring|]. rewrite cs1. ring.
Qed.

Lemma choose A (P : nat -> A -> Prop) (a0 : A) N : (forall j, (j <= N)%nat -> exists d, P j d) -> exists D : nat -> A, forall j, (j <= N)%nat -> P j (D j).
Proof.
  induction N as [|N IH]; intros E.
  - destruct (E 0%nat (le_n _)) as [d Hd]. exists (fun _ => d). intros j Hj. replace j with 0%nat by lia. exact Hd.
  - destruct IH as [D HD]; [intros; apply E; lia|]. destruct (E (S N) (le_n _)) as [d Hd]. exists (fun j => if Nat.eqb j (S N) then d else D j). intros j Hj.
    destruct (Nat.eqb_spec j (S N)) as [->|Nq]; [exact Hd|apply HD; lia].
Qed.

(** forms of degree K in u and v *)
Definition homog (K : nat) (F : R -> R -> C) : Prop := exists a : nat -> C, (forall k, (K < k)%nat -> a k = 0) /\ forall u v, F u v = H K a u v.
Lemma homog_lin K F (p q : R) : homog K F -> homog (S K) (fun u v => RtoC (p * u + q * v) * F u v).
Proof.
  intros (a & Z & E). exists (fun k => RtoC p * sh a k + RtoC q * a k). split.
  - intros k Hk. destruct k as [|k]; [lia|]. cbn [sh]. rewrite !Z by lia. ring.
  - intros u v. rewrite H_plus, !H_scal, H_sh, H_up by (apply Z; lia). rewrite E, RtoC_plus, !RtoC_mult. ring.
Qed.
Lemma homog_ext K F G : (forall u v, F u v = G u v) -> homog K F -> homog K G.
Proof. intros E (a & Z & A). exists a. split; [exact Z|]. intros u v. rewrite <- E. apply A. Qed.
Lemma homog_pow p q p' q' i j : homog (i + j) (fun u v => RtoC ((p * u + q * v) ^ i * (p' * u + q' * v) ^ j)).
Proof.
  induction i as [|i IH].
  - cbn [Nat.add]. induction j as [|j IH].
    + exists (fun k => match k with O => 1 | S _ => 0 end). split; [intros k Hk; destruct k; [lia|reflexivity]|]. intros u v. unfold H. cbn [csum Nat.sub pow]. ceq.
    + apply homog_ext with (2 := homog_lin _ _ p' q' IH). intros u v. rewrite <- RtoC_mult. f_equal. cbn [pow]. ring.
  - apply homog_ext with (2 := homog_lin _ _ p q IH). intros u v. rewrite <- RtoC_mult. f_equal. cbn [pow]. ring.
Qed.

Lemma rows n : exists D : nat -> nat -> C, forall j, (j <= 2 * n)%nat -> forall u v,
  csum (fun k => D j k * RtoC (mono n k u v)) (S (2 * n)) = RtoC (mono n j (c * u - s * v) (s * u + c * v)).
Proof.
  apply (choose (nat -> C) (fun j d => forall u v, csum (fun k => d k * RtoC (mono n k u v)) (S (2 * n)) = RtoC (mono n j (c * u - s * v) (s * u + c * v))) (fun _ => 0)).
  intros j Hj. destruct (homog_pow c (- s) s c j (2 * n - j)) as (a & _ & E). replace (j + (2 * n - j))%nat with (2 * n)%nat in E by lia.
  exists (fun k => a k * RtoC (nf n k / nf n j)). intros u v. pose proof (E u v) as Euv. unfold mono, Rdiv. rewrite (RtoC_mult _ (/ nf n j)).
  replace (c * u - s * v)%R with (c * u + - s * v)%R by ring. rewrite Euv. unfold H. rewrite Cmult_comm, <- csum_scal. apply csum_ext. intros k _.
  pose proof (nf_pos n k). pose proof (nf_pos n j). rewrite !RtoC_mult. transitivity (a k * RtoC (/ nf n j) * (RtoC (u ^ k) * RtoC (v ^ (2 * n - k))) * (RtoC (nf n k) * RtoC (/ nf n k))); [ring|].
  rewrite <- (RtoC_mult (nf n k)), Rinv_r by lra. ring.
Qed.

Lemma kernel n u v p q : csum (fun k => RtoC (mono n k u v) * RtoC (mono n k p q)) (S (2 * n)) = RtoC ((u * p + v * q) ^ (2 * n) / INR (fact (2 * n))).
Proof.
  unfold Rdiv. assert (B : ((u * p + v * q) ^ (2 * n) = rsum (fun k => Binomial.C (2 * n) k * (u * p) ^ k * (v * q) ^ (2 * n - k)) (S (2 * n)))%R).
  { rewrite binomial. apply rsum_f. }
  rewrite B, Rmult_comm, <- rsum_scal. apply injective_projections.
  - rewrite csum_fst. cbn [fst RtoC]. apply rsum_ext. intros k Hk. unfold mono, Binomial.C. rewrite !Rpow_mult_distr. pose proof (nf_pos n k). pose proof (nf_sq n k) as Sq. pose proof (INR_fact_lt_0 k). pose proof (INR_fact_lt_0 (2 * n - k)). pose proof (INR_fact_lt_0 (2 * n)).
    unfold Cmult, RtoC. cbn [fst snd]. transitivity (u ^ k * v ^ (2 * n - k) * (p ^ k * q ^ (2 * n - k)) / (nf n k * nf n k))%R; [field; lra|]. rewrite Sq. field. lra.
  - rewrite csum_snd. cbn [snd RtoC]. transitivity (rsum (fun _ => 0%R) (S (2 * n))); [apply rsum_ext; intros; unfold Cmult, RtoC; cbn [fst snd]; ring|]. apply rsum_zero.
Qed.

(** the inverse of the rotation of monomials is its transpose *)
Lemma inverse n (D : nat -> nat -> C) :
  (forall j, (j <= 2 * n)%nat -> forall u v, csum (fun k => D j k * RtoC (mono n k u v)) (S (2 * n)) = RtoC (mono n j (c * u - s * v) (s * u + c * v))) ->
  forall k, (k <= 2 * n)%nat -> forall p q, RtoC (mono n k p q) = csum (fun j => D j k * RtoC (mono n j (c * p - s * q) (s * p + c * q))) (S (2 * n)).
Proof.
  intros HD k Hk p q. apply (mono_eq n (fun k => RtoC (mono n k p q)) (fun k => csum (fun j => D j k * RtoC (mono n j (c * p - s * q) (s * p + c * q))) (S (2 * n)))); [|exact Hk].
  intros u v. transitivity (csum (fun k => RtoC (mono n k u v) * RtoC (mono n k p q)) (S (2 * n))); [apply csum_ext; intros; ring|]. rewrite kernel.
  replace (u * p + v * q)%R with ((c * u - s * v) * (c * p - s * q) + (s * u + c * v) * (s * p + c * q))%R by (transitivity ((c * c + s * s) * (u * p + v * q))%R; [ring|rewrite cs1; ring]).
  rewrite <- kernel. transitivity (csum (fun j => csum (fun k => D j k * RtoC (mono n k u v)) (S (2 * n)) * RtoC (mono n j (c * p - s * q) (s * p + c * q))) (S (2 * n))).
  - apply csum_ext. intros j Hj. rewrite HD by lia. reflexivity.
  - transitivity (csum (fun j => csum (fun k => D j k * RtoC (mono n j (c * p - s * q) (s * p + c * q)) * RtoC (mono n k u v)) (S (2 * n))) (S (2 * n))).
    + apply csum_ext. intros j _. rewrite Cmult_comm, <- csum_scal. apply csum_ext. intros i _. ring.
    + rewrite csum_swap. apply csum_ext. intros i _. rewrite Cmult_comm, <- csum_scal. apply csum_ext. intros. ring.
Qed.

Theorem har_rot n j x (a : nat -> R) : (j <= 2 * n)%nat ->
  (forall u v, rsum (fun k => a k * mono n k u v)%R (S (2 * n)) = mono n j (c * u - s * v) (s * u + c * v)) ->
  har (rot_y x) n j = csum (fun k => RtoC (a k) * har x n k) (S (2 * n)).
Proof.
  intros Hj Ha. destruct (rows n) as [D HD].
  assert (E : forall k, (k <= 2 * n)%nat -> RtoC (a k) = D j k).
  { apply mono_eq. intros u v. rewrite HD by exact Hj. rewrite <- Ha. apply injective_projections.
    - rewrite csum_fst. cbn [fst RtoC]. apply rsum_ext. intros. unfold Cmult, RtoC. cbn [fst snd]. ring.
    - rewrite csum_snd. cbn [snd RtoC]. transitivity (rsum (fun _ => 0%R) (S (2 * n))); [apply rsum_ext; intros; unfold Cmult, RtoC; cbn [fst snd]; ring|]. apply rsum_zero. }
  transitivity (csum (fun k => D j k * har x n k) (S (2 * n))); [|apply csum_ext; intros k Hk; rewrite E by lia; reflexivity]. clear a Ha E.
  apply (mono_eq n (har (rot_y x) n) (fun j => csum (fun k => D j k * har x n k) (S (2 * n)))); [|exact Hj]. intros p q.
  set (u := (c * p + s * q)%R). set (v := (- s * p + c * q)%R).
  assert (Ep : (c * u - s * v = p)%R) by (unfold u, v; transitivity ((c * c + s * s) * p)%R; [ring|rewrite cs1; ring]).
  assert (Eq : (s * u + c * v = q)%R) by (unfold u, v; transitivity ((c * c + s * s) * q)%R; [ring|rewrite cs1; ring]).
  rewrite <- Ep, <- Eq. rewrite har_gen, form_rot, <- har_gen.
  transitivity (csum (fun k => csum (fun j => D j k * har x n k * RtoC (mono n j (c * u - s * v) (s * u + c * v))) (S (2 * n))) (S (2 * n))).
  - apply csum_ext. intros k Hk. rewrite (inverse n D HD k ltac:(lia) u v), <- csum_scal. apply csum_ext. intros. ring.
  - rewrite csum_swap. apply csum_ext. intros i _. rewrite Cmult_comm, <- csum_scal. apply csum_ext. intros. ring.
Qed.
End Rotation.
