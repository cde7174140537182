(** Legendre functions: recurrences, the addition theorem, the bound by 1, the generating
    function. *)
From Coq Require Import Reals List Lia Lra Psatz.
From Coquelicot Require Import Coquelicot.
From Verif Require Import LegSpec.
Import ListNotations.
Open Scope R_scope.

(** [U n k] is the k-th derivative of (x^2 - 1)^n. *)
Fixpoint U (n k : nat) (x : R) : R :=
  match n with
  | O => match k with O => 1 | S _ => 0 end
  | S n' => match k with
            | O => (x * x - 1) * U n' 0 x
            | S k' => 2 * INR (S n') * (x * U n' k' x + INR k' * U n' (pred k') x)
            end
  end.

Lemma U_0 n x : U n 0 x = (x * x - 1) ^ n.
Proof. induction n as [|n IH]; [reflexivity|]. cbn [U pow]. rewrite IH. reflexivity. Qed.

Lemma U_derive n : forall k x, is_derive (U n k) x (U n (S k) x).
Proof.
  induction n as [|n IH]; intros k x.
  - destruct k; cbn [U]; apply (is_derive_const (K := R_AbsRing) (V := R_NormedModule)).
  - destruct k as [|k].
    + replace (U (S n) 1 x) with (2 * x * U n 0 x + (x * x - 1) * U n 1 x).
      * cbn [U]. apply (is_derive_mult (fun y => y * y - 1) (U n 0) x (2 * x) (U n 1 x)); [auto_derive; [exact I|ring]|apply IH|intros; apply Rmult_comm].
      * cbn [U Init.Nat.pred]. rewrite (Rmult_plus_distr_l (2 * INR (S n))). rewrite (S_INR n). simpl (INR 0).
        destruct n as [|n]; [cbn [U]; simpl; ring|]. cbn [U Init.Nat.pred]. rewrite !U_0. simpl (INR 0). simpl pow. ring.
    + replace (U (S n) (S (S k)) x) with (2 * INR (S n) * ((1 * U n k x + x * U n (S k) x) + INR k * U n k x)) by (cbn [U Init.Nat.pred]; rewrite (S_INR k); ring).
      cbn [U]. apply (is_derive_scal (fun y => y * U n k y + INR k * U n (Init.Nat.pred k) y) x (2 * INR (S n))).
      apply (is_derive_plus (fun y => y * U n k y)).
      * apply (is_derive_mult (fun y => y) (U n k) x 1 (U n (S k) x)); [apply (is_derive_id (K := R_AbsRing))|apply IH|intros; apply Rmult_comm].
      * destruct k as [|k]; [simpl INR|].
        -- eapply is_derive_ext; [intros t; symmetry; apply Rmult_0_l|]. rewrite Rmult_0_l. apply (is_derive_const (K := R_AbsRing) (V := R_NormedModule)).
        -- apply (is_derive_scal (U n k) x (INR (S k))). apply IH.
Qed.

Lemma U_derive_n n k x : Derive_n (fun y => (y * y - 1) ^ n) k x = U n k x.
Proof.
  revert x. induction k as [|k IH]; intros x; cbn [Derive_n]; [symmetry; apply U_0|].
  rewrite (Derive_ext _ (U n k) x IH). apply is_derive_unique, U_derive.
Qed.

(** [D n m] is the m-th derivative of the n-th Legendre polynomial. *)
Definition D (n m : nat) (x : R) : R := U n (n + m) x / (2 ^ n * INR (fact n)).

Lemma norm_pos n : 0 < 2 ^ n * INR (fact n).
Proof. apply Rmult_lt_0_compat; [apply pow_lt; lra|apply INR_fact_lt_0]. Qed.

Lemma D_derive n m x : is_derive (D n m) x (D n (S m) x).
Proof.
  unfold D. replace (n + S m)%nat with (S (n + m)) by lia.
  eapply is_derive_ext; [intros t; unfold Rdiv; apply Rmult_comm|]. unfold Rdiv. rewrite (Rmult_comm (U n (S (n + m)) x)).
  apply (is_derive_scal (U n (n + m)) x). apply U_derive.
Qed.

Lemma D_legendre n x : D n 0 x = legendre n x.
Proof. unfold D, legendre. rewrite U_derive_n, Nat.add_0_r. reflexivity. Qed.

Lemma D_derive_n n m x : Derive_n (legendre n) m x = D n m x.
Proof.
  revert x. induction m as [|m IH]; intros x; cbn [Derive_n]; [symmetry; apply D_legendre|].
  rewrite (Derive_ext _ (D n m) x IH). apply is_derive_unique, D_derive.
Qed.

Lemma U_high n : forall k x, (2 * n < k)%nat -> U n k x = 0.
Proof.
  induction n as [|n IH]; intros [|k] x H; try lia; [reflexivity|]. cbn [U]. rewrite (IH k) by lia.
  destruct k as [|k]; [lia|]. cbn [Init.Nat.pred]. rewrite (IH k) by lia. ring.
Qed.

Lemma D_high n m x : (n < m)%nat -> D n m x = 0.
Proof. intros H. unfold D. rewrite U_high by lia. unfold Rdiv. ring. Qed.

(** (x^2 - 1) u' = 2 n x u, differentiated k times *)
Lemma U_ode n k x : (x * x - 1) * U n (S k) x = 2 * (INR n - INR k) * x * U n k x + INR k * (2 * INR n - INR k + 1) * U n (pred k) x.
Proof.
  revert x. induction k as [|k IH]; intros x.
  - destruct n as [|n]; [cbn [U]; simpl; ring|]. rewrite (U_0 (S n)). cbn [U Init.Nat.pred]. rewrite !U_0. simpl (INR 0). simpl pow. ring.
  - assert (L : is_derive (fun y => (y * y - 1) * U n (S k) y) x (2 * x * U n (S k) x + (x * x - 1) * U n (S (S k)) x)).
    { apply (is_derive_mult (fun y => y * y - 1) (U n (S k)) x (2 * x) (U n (S (S k)) x)); [auto_derive; [exact I|ring]|apply U_derive|intros; apply Rmult_comm]. }
    assert (R : is_derive (fun y => 2 * (INR n - INR k) * y * U n k y + INR k * (2 * INR n - INR k + 1) * U n (Init.Nat.pred k) y) x
      (2 * (INR n - INR k) * U n k x + 2 * (INR n - INR k) * x * U n (S k) x + INR k * (2 * INR n - INR k + 1) * U n k x)).
    { apply (is_derive_plus (fun y => 2 * (INR n - INR k) * y * U n k y)).
      - apply (is_derive_mult (fun y => 2 * (INR n - INR k) * y) (U n k) x (2 * (INR n - INR k)) (U n (S k) x)); [auto_derive; [exact I|ring]|apply U_derive|intros; apply Rmult_comm].
      - destruct k as [|k]; [simpl (INR 0)|].
        + apply (is_derive_ext (fun _ => 0)); [intros t; rewrite !Rmult_0_l; reflexivity|]. rewrite !Rmult_0_l. apply (is_derive_const (K := R_AbsRing) (V := R_NormedModule)).
        + apply (is_derive_scal (U n k) x). apply U_derive. }
    pose proof (is_derive_ext _ _ _ _ IH L) as L'. pose proof (eq_trans (eq_sym (is_derive_unique _ _ _ L')) (is_derive_unique _ _ _ R)) as E2.
    cbn [Init.Nat.pred]. rewrite (S_INR k). lra.
Qed.

Lemma fact_S_INR n : INR (fact (S n)) = (INR n + 1) * INR (fact n).
Proof. change (fact (S n)) with (S n * fact n)%nat. rewrite mult_INR, S_INR. reflexivity. Qed.

Lemma norm_S n : 2 ^ S n * INR (fact (S n)) = 2 * (INR n + 1) * (2 ^ n * INR (fact n)).
Proof. rewrite fact_S_INR. simpl pow. ring. Qed.

(** derivative of P_(n+1) in terms of P_n *)
Lemma D_up n m x : D (S n) (S m) x = x * D n (S m) x + (INR n + INR m + 1) * D n m x.
Proof.
  unfold D. rewrite norm_S. replace (S n + S m)%nat with (S (n + S m)) by lia. cbn [U]. rewrite Nat.add_succ_r. cbn [Init.Nat.pred]. rewrite !S_INR, plus_INR.
  pose proof (norm_pos n). pose proof (pos_INR n). set (q := 2 ^ n * INR (fact n)) in *. field. split; lra.
Qed.

Lemma D_ode n m x : (x * x - 1) * D n (S (S m)) x = - 2 * (INR m + 1) * x * D n (S m) x + (INR n + INR m + 1) * (INR n - INR m) * D n m x.
Proof.
  unfold D. pose proof (U_ode n (n + S m) x) as H. rewrite !Nat.add_succ_r in *. cbn [Init.Nat.pred] in H. rewrite S_INR, plus_INR in H.
  pose proof (norm_pos n). set (q := 2 ^ n * INR (fact n)) in *.
  replace ((x * x - 1) * (U n (S (S (n + m))) x / q)) with ((x * x - 1) * U n (S (S (n + m))) x / q) by (field; lra). rewrite H. field. lra.
Qed.

Lemma D_up0 n x : (INR n + 1) * D (S n) 0 x = (INR n + 1) * x * D n 0 x + (x * x - 1) * D n 1 x.
Proof.
  unfold D. rewrite norm_S. rewrite !Nat.add_0_r. pose proof (U_ode n n x) as H. rewrite Nat.add_1_r. cbn [U].
  pose proof (norm_pos n). pose proof (pos_INR n). set (q := 2 ^ n * INR (fact n)) in *.
  replace ((x * x - 1) * (U n (S n) x / q)) with ((x * x - 1) * U n (S n) x / q) by (field; lra). rewrite H. rewrite S_INR. field. split; lra.
Qed.

Lemma D_down n m x : D n (S m) x = x * D (S n) (S m) x + (INR m - INR n - 1) * D (S n) m x.
Proof.
  destruct m as [|m].
  - rewrite D_up. pose proof (D_up0 n x) as B. simpl (INR 0). replace ((0 - INR n - 1) * D (S n) 0 x) with (- ((INR n + 1) * D (S n) 0 x)) by ring. rewrite B. ring.
  - rewrite (D_up n (S m)), (D_up n m), S_INR. pose proof (D_ode n m x) as O. lra.
Qed.

Lemma D_step n m x : D (S (S n)) (S m) x - D n (S m) x = (2 * INR n + 3) * D (S n) m x.
Proof. rewrite D_up, (D_down n m), S_INR. ring. Qed.

(** Bonnet's recurrence and its derivatives *)
Lemma D_rec n m x : (2 * INR n + 3) * x * D (S n) m x = (INR n + 2 - INR m) * D (S (S n)) m x + (INR n + 1 + INR m) * D n m x.
Proof.
  destruct m as [|m].
  - pose proof (D_up0 (S n) x) as B. rewrite S_INR in B. pose proof (D_up0 n x) as B'. pose proof (D_up n 0 x) as A. simpl (INR 0) in *.
    replace ((INR n + 2 - 0) * D (S (S n)) 0 x) with ((INR n + 1 + 1) * D (S (S n)) 0 x) by ring. rewrite B, A. pose proof (f_equal (Rmult x) B') as E. lra.
  - rewrite (D_up (S n) m), (D_down n m), !S_INR. ring.
Qed.

Lemma D_raise n m x : (2 * INR n + 3) * (1 - x * x) * D (S n) (S m) x =
  (INR n + 1 + INR m) * (INR n + 2 + INR m) * D n m x - (INR n + 1 - INR m) * (INR n + 2 - INR m) * D (S (S n)) m x.
Proof.
  destruct m as [|m].
  - pose proof (D_up0 (S n) x) as B. rewrite S_INR in B. pose proof (D_rec n 0 x) as R. simpl (INR 0) in *.
    assert (E : (1 - x * x) * D (S n) 1 x = (INR n + 2) * x * D (S n) 0 x - (INR n + 2) * D (S (S n)) 0 x) by lra.
    replace ((2 * INR n + 3) * (1 - x * x) * D (S n) 1 x) with ((2 * INR n + 3) * ((1 - x * x) * D (S n) 1 x)) by ring. rewrite E.
    replace ((2 * INR n + 3) * ((INR n + 2) * x * D (S n) 0 x - (INR n + 2) * D (S (S n)) 0 x)) with ((INR n + 2) * ((2 * INR n + 3) * x * D (S n) 0 x) - (2 * INR n + 3) * (INR n + 2) * D (S (S n)) 0 x) by ring.
    rewrite R. ring.
  - rewrite (D_up (S n) m), (D_down n m), !S_INR. pose proof (D_ode (S n) m x) as O. rewrite S_INR in O.
    replace ((2 * INR n + 3) * (1 - x * x) * D (S n) (S (S m)) x) with (- (2 * INR n + 3) * ((x * x - 1) * D (S n) (S (S m)) x)) by ring. rewrite O. ring.
Qed.

Lemma D_0_0 x : D 0 0 x = 1.
Proof. unfold D. simpl. field. Qed.
Lemma D_1_0 x : D 1 0 x = x.
Proof. unfold D. simpl. field. Qed.
Lemma D_1_1 x : D 1 1 x = 1.
Proof. unfold D. simpl. field. Qed.
Lemma D_diag n x : D (S n) (S n) x = (2 * INR n + 1) * D n n x.
Proof. rewrite D_up, (D_high n (S n)) by lia. ring. Qed.
Lemma D_sub n x : D (S n) n x = (2 * INR n + 1) * x * D n n x.
Proof. destruct n as [|n]; [rewrite D_1_0, D_0_0; simpl; ring|]. pose proof (D_rec n (S n) x) as R. rewrite (D_high n (S n)) in R by lia. rewrite S_INR in *. lra. Qed.

Lemma D_one n : D n 0 1 = 1 /\ D (S n) 0 1 = 1.
Proof.
  induction n as [|n [I1 I2]]; [rewrite D_0_0, D_1_0; lra|]. split; [exact I2|].
  pose proof (D_rec n 0 1) as R. rewrite I1, I2 in R. simpl (INR 0) in R. pose proof (pos_INR n). nra.
Qed.
