(** Solid harmonics: polar coordinates, rotation about the z axis, translation. *)
From Coq Require Import Reals List Lia Lra Psatz.
From Coquelicot Require Import Coquelicot.
From Verif Require Import LegSpec LegProofs SolidProofs.
Open Scope C_scope.

(** ** polar coordinates *)
Section Polar.
Variables r ct st : R.
Variable e : C.
Hypothesis unit_t : (ct * ct + st * st = 1)%R.
Hypothesis unit_e : (fst e * fst e + snd e * snd e = 1)%R.
Definition polar : vec := mkVec (r * st * fst e) (- (r * st * snd e)) (r * ct).

Lemma xi_conj : Cconj (xi polar) = RtoC (r * st) * e.
Proof. unfold xi, polar. cbn [vx vy]. ceq. Qed.
Lemma xi_polar : xi polar = RtoC (r * st) * Cconj e.
Proof. unfold xi, polar. cbn [vx vy]. ceq. Qed.
Lemma ee : Cconj e * e = 1.
Proof. apply injective_projections; unfold Cconj, Cmult, RtoC; cbn [fst snd]; [rewrite <- unit_e|]; ring. Qed.

Definition kap (n m : nat) : R := (2 ^ n * INR (fact n) / INR (fact (n + m)))%R.
Lemma kap_m n m : (kap n m = (INR n + INR m + 1) * kap n (S m))%R.
Proof. unfold kap. rewrite Nat.add_succ_r, fact_S_INR, plus_INR. pose proof (INR_fact_lt_0 (n + m)). pose proof (pos_INR n). pose proof (pos_INR m). field. lra. Qed.
Lemma kap_n n m : (kap (S n) m * (INR n + INR m + 1) = 2 * (INR n + 1) * kap n m)%R.
Proof. unfold kap. cbn [Nat.add pow]. rewrite !fact_S_INR, plus_INR. pose proof (INR_fact_lt_0 (n + m)). pose proof (pos_INR n). pose proof (pos_INR m). field. lra. Qed.

Lemma gco_polar n : forall m, gco polar n (n + m) = RtoC (kap n m * r ^ n * D n m ct * (- st) ^ m) * cp e m.
Proof.
  induction n as [|n IH]; intros m.
  - cbn [Nat.add gco]. destruct m as [|m]; [rewrite D_0_0; unfold kap; cbn [Nat.add fact pow cp INR]; apply injective_projections; unfold Cmult, RtoC; cbn [fst snd]; simpl INR; field|]. rewrite (D_high 0 (S m)) by lia. ceq.
  - cbn [gco Nat.add sh]. destruct m as [|m].
    + rewrite Nat.add_0_r. assert (A : sh (gco polar n) n = - Cconj (gco polar n (n + 1))).
      { destruct n as [|n]; [cbn [sh]; rewrite gco_high by lia; ceq|]. cbn [sh]. rewrite (gco_sym polar (S n) n (S n + 1)) by lia. replace (S n + (S n + 1))%nat with (S (2 * S n)) by lia. cbn [pow]. rewrite pow_mult. replace ((-1) ^ 2)%R with 1%R by ring. rewrite pow1. ceq. }
      rewrite A. replace (gco polar n (S n)) with (gco polar n (n + 1)) by (f_equal; lia). rewrite !IH. replace (gco polar n n) with (gco polar n (n + 0)) by (f_equal; lia). rewrite IH.
      rewrite xi_conj, xi_polar. unfold polar. cbn [vz]. pose proof (D_up0 n ct) as U. pose proof (kap_m n 0) as K1. pose proof (kap_n n 0) as K2. simpl INR in K1, K2. rewrite Rplus_0_r in K1, K2. pose proof (pos_INR n).
      assert (K3 : kap (S n) 0 = (2 * kap n 0)%R) by (apply Rmult_eq_reg_r with (INR n + 1)%R; lra).
      assert (Q : (kap (S n) 0 * D (S n) 0 ct = 2 * ct * kap n 0 * D n 0 ct - 2 * (st * st) * kap n 1 * D n 1 ct)%R).
      { rewrite K3, K1. replace (st * st)%R with (1 - ct * ct)%R by lra. transitivity (2 * kap n 1 * ((INR n + 1) * D (S n) 0 ct))%R; [ring|]. rewrite U. ring. }
      replace (kap (S n) 0 * r ^ S n * D (S n) 0 ct * (- st) ^ 0)%R with (kap (S n) 0 * D (S n) 0 ct * r ^ S n)%R by (cbn [pow]; ring). rewrite Q. cbn [cp pow]. clear - unit_e. destruct e as [e1 e2]. cbn [fst snd] in unit_e. 
      apply injective_projections; unfold Cminus, Cconj, Cplus, Copp, Cmult, RtoC; cbn [fst snd]; [|ring].
      transitivity (2 * ct * kap n 0 * D n 0 ct * (r * r ^ n) - 2 * (st * st) * (e1 * e1 + e2 * e2) * kap n 1 * D n 1 ct * (r * r ^ n))%R; [ring|rewrite unit_e; ring].
    + replace (n + S m)%nat with (S (n + m)) by lia. cbn [sh]. replace (S (S (n + m)))%nat with (n + S (S m))%nat by lia. replace (S (n + m)) with (n + S m)%nat by lia. rewrite !IH, xi_conj, xi_polar. unfold polar. cbn [vz].
      pose proof (D_up n m ct) as U. pose proof (D_ode n m ct) as O. pose proof (kap_m n m) as K1. pose proof (kap_m n (S m)) as K2. pose proof (kap_n n (S m)) as K3. rewrite S_INR in *. pose proof (pos_INR n). pose proof (pos_INR m).
      assert (Q : (kap (S n) (S m) * D (S n) (S m) ct = 2 * ct * kap n (S m) * D n (S m) ct + kap n m * D n m ct - st * st * kap n (S (S m)) * D n (S (S m)) ct)%R).
      { apply Rmult_eq_reg_r with (INR n + (INR m + 1) + 1)%R; [|lra]. transitivity (kap (S n) (S m) * (INR n + (INR m + 1) + 1) * D (S n) (S m) ct)%R; [ring|]. rewrite K3, K1, K2, U. replace (st * st)%R with (- (ct * ct - 1))%R by lra.
        transitivity (kap n (S (S m)) * (INR n + (INR m + 1) + 1) * (2 * (INR n + 1) * (ct * D n (S m) ct + (INR n + INR m + 1) * D n m ct)))%R; [ring|].
        transitivity (kap n (S (S m)) * (INR n + (INR m + 1) + 1) * (2 * ct * (INR n + (INR m + 1) + 1) * D n (S m) ct + (INR n + INR m + 1) * (INR n + (INR m + 1) + 1) * D n m ct + (ct * ct - 1) * D n (S (S m)) ct))%R; [|ring]. rewrite O. ring. }
      replace (kap (S n) (S m) * r ^ S n * D (S n) (S m) ct * (- st) ^ S m)%R with (kap (S n) (S m) * D (S n) (S m) ct * r ^ S n * (- st) ^ S m)%R by ring. rewrite Q. cbn [cp pow].
      transitivity (RtoC ((2 * ct * kap n (S m) * D n (S m) ct + kap n m * D n m ct) * (r * r ^ n) * (- st * (- st) ^ m)) * (cp e m * e) - RtoC (st * st * kap n (S (S m)) * D n (S (S m)) ct * (r * r ^ n) * (- st * (- st) ^ m)) * (cp e m * e) * (Cconj e * e)).
      * rewrite !RtoC_mult, !RtoC_plus, !RtoC_mult, !RtoC_opp. ring.
      * rewrite ee. rewrite !RtoC_mult, !RtoC_minus, !RtoC_plus, !RtoC_mult, !RtoC_opp. ring.
Qed.

(** in the form the code uses *)
Lemma har_polar n m : (m <= n)%nat -> har polar n (n + m) = RtoC (r ^ n * ((-1) ^ m * st ^ m * D n m ct) * (sqrt (INR (fact (n - m))) / sqrt (INR (fact (n + m))))) * cp e m.
Proof.
  intros Hm. unfold har. rewrite gco_polar. transitivity (RtoC (kap n m * r ^ n * D n m ct * (- st) ^ m * (nf n (n + m) / cn n)) * cp e m); [rewrite !RtoC_mult; ring|]. do 2 f_equal.
  replace (- st)%R with (-1 * st)%R by ring. rewrite Rpow_mult_distr. unfold nf, kap, cn. replace (2 * n - (n + m))%nat with (n - m)%nat by lia. pose proof (INR_fact_lt_0 (n + m)). pose proof (INR_fact_lt_0 (n - m)). pose proof (norm_pos n).
  rewrite sqrt_mult by lra. pose proof (sqrt_lt_R0 _ H) as Hs. pose proof (sqrt_sqrt (INR (fact (n + m))) ltac:(lra)) as Sq. rewrite <- Sq at 1. pose proof (INR_fact_lt_0 n). pose proof (pow_lt 2 n ltac:(lra)). field. repeat split; lra.
Qed.
End Polar.

(** ** rotation about the z axis *)
Lemma gco_rot_z x x' ea n : vz x' = vz x -> Cconj (xi x') = Cconj (xi x) * ea -> xi x' * ea = xi x -> forall k, gco x' n k * cp ea n = gco x n k * cp ea k.
Proof.
  intros Hz Hc Hx. induction n as [|n IH]; intros k.
  - destruct k as [|k]; cbn [gco cp]; ring.
  - assert (A : sh (gco x' n) k * cp ea n * ea = sh (gco x n) k * cp ea k) by (destruct k as [|k]; cbn [sh cp]; [ring|]; rewrite IH; ring).
    assert (B : sh (sh (gco x' n)) k * cp ea n * ea * ea = sh (sh (gco x n)) k * cp ea k) by (destruct k as [|[|k]]; cbn [sh cp]; [ring|ring|]; rewrite IH; ring).
    cbn [gco]. rewrite Hz, Hc. cbn [cp]. transitivity (RtoC (2 * vz x) * (sh (gco x' n) k * cp ea n * ea) - Cconj (xi x) * (sh (sh (gco x' n)) k * cp ea n * ea * ea) + xi x' * ea * (gco x' n k * cp ea n)); [ring|]. rewrite A, B, IH, Hx. ring.
Qed.
Lemma cp_unit ea n : Cconj ea * ea = 1 -> cp (Cconj ea) n * cp ea n = 1.
Proof. intros U. rewrite <- cp_mul, U. apply (cp_R 1) || (induction n; cbn [cp]; rewrite ?IHn; ring). Qed.

Definition rot_z (ea : C) (x : vec) : vec := mkVec (vx x * fst ea + vy x * snd ea) (vy x * fst ea - vx x * snd ea) (vz x).
Lemma har_rot_z x ea n m : (fst ea * fst ea + snd ea * snd ea = 1)%R -> har (rot_z ea x) n (n + m) = har x n (n + m) * cp ea m.
Proof.
  intros U. assert (Ue : Cconj ea * ea = 1) by (apply injective_projections; unfold Cconj, Cmult, RtoC; cbn [fst snd]; [rewrite <- U|]; ring).
  assert (G : gco (rot_z ea x) n (n + m) = gco x n (n + m) * cp ea m).
  { pose proof (gco_rot_z x (rot_z ea x) ea n eq_refl) as E. specialize (E ltac:(unfold rot_z, xi; cbn [vx vy]; ceq)).
    assert (Ex : xi (rot_z ea x) * ea = xi x).
    { transitivity (xi x * (Cconj ea * ea)); [|rewrite Ue; ring]. unfold rot_z, xi. cbn [vx vy]. ceq. }
    specialize (E Ex (n + m)%nat). rewrite cp_add in E. pose proof (cp_unit ea n Ue) as Un.
    transitivity (gco (rot_z ea x) n (n + m) * cp ea n * cp (Cconj ea) n); [rewrite <- Cmult_assoc, (Cmult_comm (cp ea n)), Un; ring|]. rewrite E.
    transitivity (gco x n (n + m) * cp ea m * (cp (Cconj ea) n * cp ea n)); [ring|]. rewrite Un. ring. }
  unfold har. rewrite G. ring.
Qed.

(** ** products *)
Definition conv (f g : nat -> C) (k : nat) : C := csum (fun j => f j * g (k - j)%nat) (S k).
Lemma conv_S f g k : conv f g k = f 0%nat * g k + sh (conv (fun j => f (S j)) g) k.
Proof. unfold conv. rewrite csum_shift, Nat.sub_0_r. f_equal. destruct k as [|k]; [reflexivity|]. cbn [sh]. apply csum_ext. intros j _. reflexivity. Qed.
Lemma H_S K f u v : H (S K) f u v = f 0%nat * RtoC (v ^ S K) + RtoC u * H K (fun j => f (S j)) u v.
Proof.
  rewrite <- H_sh. unfold H. rewrite (csum_shift _ (S K)), (csum_shift (fun k => sh _ k * _) (S K)). cbn [sh Nat.sub]. rewrite Cmult_0_l, Cplus_0_l. f_equal. f_equal. cbn [pow]. rewrite Rmult_1_l. reflexivity.
Qed.
Lemma H_upn K2 K1 (g : nat -> C) u v : (forall k, (K2 < k)%nat -> g k = 0) -> H (K1 + K2) g u v = RtoC (v ^ K1) * H K2 g u v.
Proof.
  intros Z. induction K1 as [|K1 IH]; [cbn [Nat.add pow]; ring|]. cbn [Nat.add]. rewrite H_up by (apply Z; lia). rewrite IH. cbn [pow]. rewrite RtoC_mult. ring.
Qed.
Lemma H_mul K1 K2 g u v : (forall k, (K2 < k)%nat -> g k = RtoC 0) -> forall f, (forall k, (K1 < k)%nat -> f k = RtoC 0) -> H K1 f u v * H K2 g u v = H (K1 + K2) (conv f g) u v.
Proof.
  intros Zg. induction K1 as [|K1 IH]; intros f Zf.
  - cbn [Nat.add]. unfold H at 1. cbn [csum]. rewrite (H_ext K2 (conv f g) (fun k => f 0%nat * g k)).
    + rewrite H_scal. cbn [pow Nat.sub]. rewrite Rmult_1_l. ring.
    + intros k _. rewrite conv_S. assert (C0 : forall k, conv (fun j => f (S j)) g k = 0) by (intros j; apply csum_zero; intros i _; rewrite Zf by lia; ring). destruct k as [|k]; cbn [sh]; [|rewrite C0]; ring.
  - rewrite H_S. rewrite (H_ext (S K1 + K2) _ (fun k => f 0%nat * g k + sh (conv (fun j => f (S j)) g) k)) by (intros; apply conv_S). rewrite H_plus, H_scal, (H_upn K2 (S K1) g u v Zg).
    cbn [Nat.add]. rewrite H_sh, <- IH by (intros; apply Zf; lia). ring.
Qed.

(** ** powers of sums *)
Definition fc (n : nat) : C := RtoC (/ INR (fact n)).
Lemma fc_S n : fc (S n) * RtoC (INR n + 1) = fc n.
Proof. unfold fc. rewrite <- RtoC_mult. f_equal. rewrite fact_S_INR. pose proof (INR_fact_lt_0 n). pose proof (pos_INR n). field. lra. Qed.
Lemma RtoC_neq r : r <> 0%R -> RtoC r <> 0.
Proof. intros N E. apply N, RtoC_inj, E. Qed.

Lemma cp_plus a b n : cp (a + b) n * fc n = csum (fun i => cp a i * fc i * (cp b (n - i) * fc (n - i))) (S n).
Proof.
  induction n as [|n IH]; [cbn; unfold fc; cbn; rewrite Rinv_1; ring|].
  set (A := fun i => cp a i * fc i). set (B := fun i => cp b i * fc i). fold A B in IH |- *.
  assert (SA : forall i, A (S i) * RtoC (INR i + 1) = A i * a) by (intros i; unfold A; cbn [cp]; rewrite <- (fc_S i); ring).
  assert (SB : forall i, B (S i) * RtoC (INR i + 1) = B i * b) by (intros i; unfold B; cbn [cp]; rewrite <- (fc_S i); ring).
  assert (N : RtoC (INR n + 1) <> 0) by (apply RtoC_neq; pose proof (pos_INR n); lra).
  assert (M : forall X Y : C, X * RtoC (INR n + 1) = Y * RtoC (INR n + 1) -> X = Y).
  { intros X Y E. replace X with (X * RtoC (INR n + 1) * / RtoC (INR n + 1)) by (field; exact N). rewrite E. field. exact N. }
  apply M. transitivity ((a + b) * (cp (a + b) n * fc n)); [cbn [cp]; rewrite <- (fc_S n); ring|]. rewrite IH.
  transitivity (csum (fun i => A (S i) * RtoC (INR i + 1) * B (n - i)%nat) (S n) + csum (fun i => A i * (B (S (n - i))%nat * RtoC (INR (n - i) + 1))) (S n)).
  - rewrite <- csum_scal, <- csum_plus. apply csum_ext. intros i _. rewrite SA, SB. unfold A, B. ring.
  - transitivity (csum (fun i => A i * RtoC (INR i) * B (S n - i)%nat) (S (S n)) + csum (fun i => A i * B (S n - i)%nat * RtoC (INR (S n - i))) (S (S n))).
    + f_equal.
      * rewrite (csum_shift _ (S n)). simpl (INR 0). rewrite Cmult_0_r, Cmult_0_l, Cplus_0_l. apply csum_ext. intros i _. rewrite S_INR. reflexivity.
      * change (csum ?g (S (S n))) with (csum g (S n) + g (S n)). cbn beta. rewrite Nat.sub_diag. simpl (INR 0). rewrite Cmult_0_r, Cplus_0_r. apply csum_ext. intros i Hi. replace (S n - i)%nat with (S (n - i)) by lia. rewrite S_INR. ring.
    + rewrite <- csum_plus, Cmult_comm, <- csum_scal. apply csum_ext. intros i Hi. rewrite minus_INR by lia. rewrite S_INR, RtoC_minus, RtoC_plus. unfold A, B. ring.
Qed.

Definition vadd (x y : vec) : vec := mkVec (vx x + vx y) (vy x + vy y) (vz x + vz y).
Lemma form_add x y u v : form (vadd x y) u v = form x u v + form y u v.
Proof. unfold form, vadd, xi. cbn [vx vy vz]. ceq. Qed.

Lemma gco_add x y n k : (k <= 2 * n)%nat -> gco (vadd x y) n k * fc n = csum (fun i => fc i * fc (n - i) * conv (gco x i) (gco y (n - i)) k) (S n).
Proof.
  intros Hk. apply (H_eq (2 * n) (fun k => gco (vadd x y) n k * fc n) (fun k => csum (fun i => fc i * fc (n - i) * conv (gco x i) (gco y (n - i)) k) (S n))); [|exact Hk]. intros u v _ _.
  rewrite (H_ext _ _ (fun k => fc n * gco (vadd x y) n k)) by (intros; ring). rewrite H_scal, gco_gen, form_add, Cmult_comm, cp_plus.
  transitivity (csum (fun i => H (2 * n) (fun k => fc i * fc (n - i) * conv (gco x i) (gco y (n - i)) k) u v) (S n)).
  - apply csum_ext. intros i Hi. rewrite H_scal. replace (2 * n)%nat with (2 * i + 2 * (n - i))%nat by lia. rewrite <- H_mul by (intros; apply gco_high; assumption). rewrite !gco_gen. ring.
  - unfold H. rewrite csum_swap. apply csum_ext. intros j _. rewrite Cmult_comm, <- csum_scal. apply csum_ext. intros. ring.
Qed.

(** ** the harmonics of a sum *)
Definition hr (x : vec) (n k : nat) : C := gco x n k * RtoC (/ cn n).
Lemma har_hr x n k : har x n k = hr x n k * RtoC (nf n k).
Proof. unfold har, hr, Rdiv. rewrite RtoC_mult. ring. Qed.
Lemma hr_high x n k : (2 * n < k)%nat -> hr x n k = 0.
Proof. intros Hk. unfold hr. rewrite gco_high by exact Hk. ring. Qed.
Lemma fc_cn n : RtoC (/ cn n) = fc n * RtoC (/ 2 ^ n).
Proof. unfold fc, cn. rewrite <- RtoC_mult. f_equal. pose proof (INR_fact_lt_0 n). pose proof (pow_lt 2 n ltac:(lra)). field. lra. Qed.

Lemma hr_add x y n k : (k <= 2 * n)%nat -> hr (vadd x y) n k = csum (fun i => csum (fun j => hr x i j * hr y (n - i) (k - j)) (S k)) (S n).
Proof.
  intros Hk. unfold hr at 1. rewrite fc_cn, Cmult_assoc, gco_add by exact Hk. rewrite Cmult_comm, <- csum_scal. apply csum_ext. intros i Hi. unfold conv. rewrite <- !csum_scal. apply csum_ext. intros j Hj.
  unfold hr. rewrite !fc_cn. replace (/ 2 ^ n)%R with (/ 2 ^ i * / 2 ^ (n - i))%R.
  - rewrite RtoC_mult. ring.
  - replace (2 ^ n)%R with (2 ^ i * 2 ^ (n - i))%R by (rewrite <- pow_add; f_equal; lia). pose proof (pow_lt 2 i ltac:(lra)). pose proof (pow_lt 2 (n - i) ltac:(lra)). field. lra.
Qed.

Definition zvec (rho : R) : vec := mkVec 0 0 rho.
Lemma gco_z rho n : forall k, gco (zvec rho) n k = if Nat.eqb k n then RtoC ((2 * rho) ^ n) else 0.
Proof.
  assert (X : xi (zvec rho) = 0) by reflexivity. assert (Xc : Cconj (xi (zvec rho)) = 0) by (rewrite X; ceq).
  induction n as [|n IH]; intros k; cbn [gco]; [destruct k; reflexivity|]. rewrite Xc, X. cbn [zvec vz]. rewrite IH.
  destruct k as [|k]; cbn [sh]; [cbn [Nat.eqb]; ring|]. rewrite IH. cbn [Nat.eqb]. destruct (Nat.eqb k n); [|ring]. cbn [pow]. rewrite (RtoC_mult (2 * rho) (_ ^ n)). ring.
Qed.
Lemma hr_z rho n k : hr (zvec rho) n k = if Nat.eqb k n then RtoC (rho ^ n / INR (fact n)) else 0.
Proof.
  unfold hr. rewrite gco_z. destruct (Nat.eqb k n); [|ring]. rewrite <- RtoC_mult. f_equal. unfold cn. rewrite Rpow_mult_distr. pose proof (INR_fact_lt_0 n). pose proof (pow_lt 2 n ltac:(lra)). field. lra.
Qed.

(** the root of a binomial coefficient *)
Definition sb (n k : nat) : R := sqrt (INR (fact n) / (INR (fact k) * INR (fact (n - k)))).
Lemma sb_pos n k : (0 < sb n k)%R.
Proof. apply sqrt_lt_R0. pose proof (INR_fact_lt_0 n). pose proof (INR_fact_lt_0 k). pose proof (INR_fact_lt_0 (n - k)). apply Rdiv_lt_0_compat; nra. Qed.
Lemma sb_nf n m i : (m + i <= n)%nat -> (sb (n - m) i * sb (n + m) i = nf n (n + m) / (nf (n - i) (n - i + m) * INR (fact i)))%R.
Proof.
  intros Hm. unfold sb, nf. pose proof (INR_fact_lt_0 (n - m)). pose proof (INR_fact_lt_0 (n + m)). pose proof (INR_fact_lt_0 i). pose proof (INR_fact_lt_0 (n - m - i)). pose proof (INR_fact_lt_0 (n + m - i)).
  replace (2 * n - (n + m))%nat with (n - m)%nat by lia. replace (n - i + m)%nat with (n + m - i)%nat by lia. replace (2 * (n - i) - (n + m - i))%nat with (n - m - i)%nat by lia.
  assert (P1 : (0 < INR (fact i) * INR (fact (n - m - i)))%R) by nra. assert (P2 : (0 < INR (fact i) * INR (fact (n + m - i)))%R) by nra. assert (P3 : (0 < INR (fact (n + m - i)) * INR (fact (n - m - i)))%R) by nra.
  rewrite <- sqrt_mult by (left; apply Rdiv_lt_0_compat; assumption).
  replace (INR (fact (n - m)) / (INR (fact i) * INR (fact (n - m - i))) * (INR (fact (n + m)) / (INR (fact i) * INR (fact (n + m - i)))))%R
    with (INR (fact (n + m)) * INR (fact (n - m)) / (INR (fact (n + m - i)) * INR (fact (n - m - i)) * (INR (fact i) * INR (fact i))))%R by (field; lra).
  rewrite sqrt_div, (sqrt_mult (_ * _) (_ * _)), sqrt_square by nra. reflexivity.
Qed.

Lemma har_shift x rho n m : (m <= n)%nat ->
  har (vadd x (zvec rho)) n (n + m) = csum (fun i => har x (n - i) (n - i + m) * RtoC (rho ^ i * sb (n - m) i * sb (n + m) i)) (S (n - m)).
Proof.
  intros Hm. rewrite har_hr, hr_add by lia.
  transitivity (csum (fun i => hr x i (i + m) * RtoC (rho ^ (n - i) / INR (fact (n - i)))) (S n) * RtoC (nf n (n + m))).
  { f_equal. apply csum_ext. intros i Hi. rewrite (csum_one _ (S (n + m)) (i + m)); [|lia|].
    - f_equal. rewrite hr_z. replace (n + m - (i + m))%nat with (n - i)%nat by lia. rewrite Nat.eqb_refl. reflexivity.
    - intros j Hj N. rewrite hr_z. destruct (Nat.eqb_spec (n + m - j) (n - i)); [lia|ring]. }
  assert (Rv : forall (f : nat -> C) k, csum f (S k) = csum (fun i => f (k - i)%nat) (S k)).
  { intros f k. induction k as [|k IH]; [reflexivity|]. change (csum f (S (S k))) with (csum f (S k) + f (S k)). rewrite IH, (csum_shift (fun i => f (S k - i)%nat)). cbn [Nat.sub]. ring. }
  rewrite Rv. replace (S n) with (S (n - m) + m)%nat by lia. rewrite csum_split.
  rewrite (csum_zero (fun k => hr x (n - (S (n - m) + k)) _ * _)).
  2:{ intros k Hk. rewrite hr_high by lia. ring. }
  rewrite Cplus_0_r, Cmult_comm, <- csum_scal. apply csum_ext. intros i Hi. rewrite har_hr, Rmult_assoc, sb_nf by lia. replace (n - (n - i))%nat with i by lia. pose proof (nf_pos (n - i) (n - i + m)). pose proof (INR_fact_lt_0 i).
  transitivity (hr x (n - i) (n - i + m) * RtoC (nf (n - i) (n - i + m) * (rho ^ i * (nf n (n + m) / (nf (n - i) (n - i + m) * INR (fact i)))))); [|rewrite RtoC_mult; ring].
  replace (nf (n - i) (n - i + m) * (rho ^ i * (nf n (n + m) / (nf (n - i) (n - i + m) * INR (fact i)))))%R with (nf n (n + m) * (rho ^ i / INR (fact i)))%R by (field; lra). rewrite RtoC_mult. ring.
Qed.
