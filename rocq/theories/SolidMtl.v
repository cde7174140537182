(** The truncation error of the conversion of a multipole expansion into a local one. *)
From Coq Require Import Reals List Lia Lra Psatz.
From Coquelicot Require Import Coquelicot.
From Verif Require Import LegSpec LegProofs LegAdd LegGen SolidProofs SolidAdd SolidPair SolidTrans.
Open Scope R_scope.

Lemma tri_sum g K : rsum (fun N => rsum (fun n => g n (N - n)%nat) (S N)) K = rsum (fun n => rsum (g n) (K - n)) K.
Proof.
  induction K as [|K IH]; [reflexivity|]. cbn [rsum] in *. rewrite IH. rewrite (rsum_ext (fun n => rsum (g n) (S K - n)) (fun n => rsum (g n) (K - n) + g n (K - n)%nat)).
  - rewrite rsum_plus. replace (S K - K)%nat with 1%nat by lia. cbn [rsum]. rewrite Nat.sub_diag. ring.
  - intros n Hn. replace (S K - n)%nat with (S (K - n)) by lia. reflexivity.
Qed.
Lemma rsum_pad f a d : (forall i, (a <= i)%nat -> f i = 0) -> rsum f (a + d) = rsum f a.
Proof. intros Z. induction d as [|d IH]; [rewrite Nat.add_0_r; reflexivity|]. rewrite Nat.add_succ_r. cbn [rsum]. rewrite IH, Z by lia. ring. Qed.

Definition inbox (p n j : nat) : bool := andb (Nat.leb n p) (Nat.leb j p).
Lemma box_sum B p : rsum (fun N => rsum (fun n => if inbox p n (N - n) then B n (N - n)%nat else 0) (S N)) (S (2 * p)) = rsum (fun n => rsum (B n) (S p)) (S p).
Proof.
  rewrite (tri_sum (fun n j => if inbox p n j then B n j else 0)). set (G := fun n => rsum _ (S (2 * p) - n)). replace (S (2 * p)) with (S p + p)%nat by lia. rewrite rsum_pad; unfold G; clear G.
  - apply rsum_ext. intros n Hn. replace (S (2 * p) - n)%nat with (S p + (p - n))%nat by lia. rewrite rsum_pad.
    + apply rsum_ext. intros j Hj. unfold inbox. destruct (Nat.leb_spec n p), (Nat.leb_spec j p); try lia. reflexivity.
    + intros j Hj. unfold inbox. destruct (Nat.leb_spec n p), (Nat.leb_spec j p); try lia; reflexivity.
  - intros n Hn. rewrite (rsum_ext _ (fun _ => 0)); [apply rsum_zero|]. intros j _. unfold inbox. destruct (Nat.leb_spec n p); [lia|reflexivity].
Qed.

Lemma vnorm_triang u w : vnorm (vadd u w) <= vnorm u + vnorm w.
Proof.
  pose proof (vnorm_sq u) as U. pose proof (vnorm_sq w) as W. pose proof (vnorm_sq (vadd u w)) as A. pose proof (vnorm_pos u). pose proof (vnorm_pos w). pose proof (vnorm_pos (vadd u w)).
  destruct u as [a b c], w as [a' b' c']. unfold vadd in A |- *. cbn [vx vy vz] in *. set (r := vnorm (mkVec a b c)) in *. set (r' := vnorm (mkVec a' b' c')) in *. set (s := vnorm _) in A |- *.
  assert (CS : (a * a' + b * b' + c * c') * (a * a' + b * b' + c * c') <= (r * r) * (r' * r')).
  { rewrite U, W. assert (0 <= (a * b' - b * a') * (a * b' - b * a')) by apply Rle_0_sqr. assert (0 <= (a * c' - c * a') * (a * c' - c * a')) by apply Rle_0_sqr. assert (0 <= (b * c' - c * b') * (b * c' - c * b')) by apply Rle_0_sqr. nra. }
  assert (D : a * a' + b * b' + c * c' <= r * r').
  { apply Rsqr_incr_0_var; [|nra]. unfold Rsqr. nra. }
  apply Rsqr_incr_0_var; [|lra]. unfold Rsqr. nra.
Qed.

Lemma geo_part th rho p K : 0 <= th < 1 -> 0 < rho -> (p <= K)%nat -> rsum (fun N => if Nat.leb N p then 0 else th ^ N / rho) (S K) = (th ^ S p - th ^ S K) / (rho * (1 - th)).
Proof.
  intros Ht Hr Hp. induction K as [|K IH].
  - replace p with 0%nat by lia. cbn [rsum Nat.leb]. field. lra.
  - destruct (Nat.eq_dec p (S K)) as [->|N].
    + rewrite (rsum_ext _ (fun _ => 0)); [rewrite rsum_zero; field; lra|]. intros k Hk. destruct (Nat.leb_spec k (S K)); [reflexivity|lia].
    + change (rsum ?f (S (S K))) with (rsum f (S K) + f (S K)). cbn beta. rewrite IH by lia. destruct (Nat.leb_spec (S K) p); [lia|]. cbn [pow]. field. lra.
Qed.

Lemma tail_mono s s' rho K : 0 <= s <= s' -> s' < rho -> (s / rho) ^ K / (rho - s) <= (s' / rho) ^ K / (rho - s').
Proof.
  intros Hs Hr. assert (Hi : 0 < / rho) by (apply Rinv_0_lt_compat; lra). assert (A : 0 <= s / rho <= s' / rho) by (unfold Rdiv; nra).
  assert (0 <= (s / rho) ^ K <= (s' / rho) ^ K) by (split; [apply pow_le; lra|apply pow_incr; lra]). assert (0 < / (rho - s')) by (apply Rinv_0_lt_compat; lra). assert (/ (rho - s) <= / (rho - s')) by (apply Rinv_le_contravar; lra). assert (0 < / (rho - s)) by (apply Rinv_0_lt_compat; lra).
  apply Rmult_le_compat; lra.
Qed.

Lemma core_total p u w a b rho : vnorm u <= a -> vnorm w <= b -> 0 < a -> 0 < b -> a + b < rho ->
  Rabs (rsum (fun n => rsum (fun j => core n j u w / rho ^ (n + j + 1)) (S p)) (S p) - / vnorm (vsub (zvec rho) (vadd u w))) <= ((a + b) / rho) ^ S p / (rho - (a + b)).
Proof.
  intros Hu Hw Ha Hb Hr. set (B := fun n j => core n j u w / rho ^ (n + j + 1)). set (K := (2 * p)%nat).
  pose proof (vnorm_triang u w) as Tr. pose proof (vnorm_pos (vadd u w)). pose proof (vnorm_pos u). pose proof (vnorm_pos w).
  assert (Nz : vnorm (zvec rho) = rho) by (apply vnorm_unique; [lra|unfold zvec; cbn [vx vy vz]; ring]).
  pose proof (inverse_tail (zvec rho) (vadd u w) K ltac:(rewrite Nz; lra)) as T. rewrite Nz in T.
  assert (EA : rsum (fun n => prr (fun m => har (vadd u w) n (n + m)) (zvec rho) n / rho ^ (2 * n + 1)) (S K) = rsum (fun N => rsum (fun n => B n (N - n)%nat) (S N)) (S K)).
  { apply rsum_ext. intros N _. rewrite prr_zvec, Nat.add_0_r, <- core_sum by lra. unfold Rdiv. rewrite (Rmult_comm (rho ^ N)), Rmult_assoc, Rmult_comm, <- rsum_scal. apply rsum_ext. intros n Hn. unfold B. replace (n + (N - n) + 1)%nat with (N + 1)%nat by lia.
    replace (2 * N + 1)%nat with (N + (N + 1))%nat by lia. rewrite (pow_add rho N (N + 1)). assert (rho ^ N <> 0) by (apply pow_nonzero; lra). assert (rho ^ (N + 1) <> 0) by (apply pow_nonzero; lra). field. lra. }
  rewrite EA in T. clear EA. pose proof (box_sum B p) as Eb. fold K in Eb.
  set (I := rsum (fun N => rsum (fun n => B n (N - n)%nat) (S N)) (S K)) in *. set (V := rsum (fun n => rsum (B n) (S p)) (S p)) in *. change (rsum (fun n => rsum (fun j => core n j u w / rho ^ (n + j + 1)) (S p)) (S p)) with V.
  set (th := (a + b) / rho). assert (Hi : 0 < / rho) by (apply Rinv_0_lt_compat; lra).
  assert (Ht : 0 <= th < 1) by (unfold th; split; [unfold Rdiv; nra|]; apply Rmult_lt_reg_r with rho; [lra|]; unfold Rdiv; rewrite Rmult_assoc, Rinv_l by lra; lra).
  assert (Dv : Rabs (I - V) <= (th ^ S p - th ^ S K) / (rho * (1 - th))).
  { rewrite <- geo_part by (try assumption; try lra; unfold K; lia). unfold I. rewrite <- Eb.
    replace (rsum (fun N => rsum (fun n => B n (N - n)%nat) (S N)) (S K) - rsum (fun N => rsum (fun n => if inbox p n (N - n) then B n (N - n)%nat else 0) (S N)) (S K))
      with (rsum (fun N => rsum (fun n => if inbox p n (N - n) then 0 else B n (N - n)%nat) (S N)) (S K)).
    2:{ set (f1 := fun N => rsum (fun n => B n (N - n)%nat) (S N)). set (f2 := fun N => rsum (fun n => if inbox p n (N - n) then B n (N - n)%nat else 0) (S N)). replace (rsum f1 (S K) - rsum f2 (S K)) with (rsum f1 (S K) + -1 * rsum f2 (S K)) by ring. rewrite <- rsum_scal, <- rsum_plus. apply rsum_ext. intros N _.
        unfold f1, f2. rewrite <- rsum_scal, <- rsum_plus. apply rsum_ext. intros n _. destruct (inbox p n (N - n)); ring. }
    eapply Rle_trans; [apply rsum_abs|]. apply rsum_le. intros N HN. destruct (Nat.leb_spec N p) as [L|L].
    - rewrite (rsum_ext _ (fun _ => 0)); [rewrite rsum_zero, Rabs_R0; lra|]. intros n Hn. unfold inbox. destruct (Nat.leb_spec n p), (Nat.leb_spec (N - n) p); try lia. reflexivity.
    - eapply Rle_trans; [apply rsum_abs|]. unfold th, Rdiv. rewrite Rpow_mult_distr, binomial, rsum_f.
      apply Rle_trans with (rsum (fun n => Binomial.C N n * a ^ n * b ^ (N - n) * / rho ^ (N + 1)) (S N)).
      + apply rsum_le. intros n Hn. assert (P : 0 <= Binomial.C N n * a ^ n * b ^ (N - n) * / rho ^ (N + 1)).
        { assert (0 < Binomial.C N n) by (unfold Binomial.C; apply Rdiv_lt_0_compat; [apply INR_fact_lt_0|apply Rmult_lt_0_compat; apply INR_fact_lt_0]). pose proof (pow_lt a n Ha). pose proof (pow_lt b (N - n) Hb). pose proof (pow_lt rho (N + 1) ltac:(lra)). left. apply Rmult_lt_0_compat; [apply Rmult_lt_0_compat; [apply Rmult_lt_0_compat|]|apply Rinv_0_lt_compat]; assumption. }
        destruct (inbox p n (N - n)); [rewrite Rabs_R0; exact P|]. unfold B. replace (n + (N - n) + 1)%nat with (N + 1)%nat by lia. pose proof (pow_lt rho (N + 1) ltac:(lra)) as Pr. unfold Rdiv. rewrite Rabs_mult, (Rabs_pos_eq (/ _)) by (left; apply Rinv_0_lt_compat; exact Pr).
        apply Rmult_le_compat_r; [left; apply Rinv_0_lt_compat; exact Pr|]. pose proof (core_bound n (N - n) u w a b Hu Hw Ha Hb) as Cb. replace (n + (N - n))%nat with N in Cb by lia. lra.
      + right. rewrite (Rmult_comm (rsum _ _)), (Rmult_comm (_ * rsum _ _)), <- Rmult_assoc, <- rsum_scal. apply rsum_ext. intros n _. rewrite pow_inv, pow_add. assert (rho ^ N <> 0) by (apply pow_nonzero; lra). simpl (rho ^ 1). field. lra. }
  assert (T2 : Rabs (/ vnorm (vsub (zvec rho) (vadd u w)) - I) <= th ^ S K / (rho - (a + b))) by (eapply Rle_trans; [exact T|]; unfold th; apply tail_mono; lra).
  replace (V - / vnorm (vsub (zvec rho) (vadd u w))) with (- (I - V) - (/ vnorm (vsub (zvec rho) (vadd u w)) - I)) by ring. eapply Rle_trans; [apply Rabs_triang|]. rewrite !Rabs_Ropp.
  replace (th ^ S p / (rho - (a + b))) with ((th ^ S p - th ^ S K) / (rho * (1 - th)) + th ^ S K / (rho - (a + b))); [lra|].
  replace (rho * (1 - th)) with (rho - (a + b)) by (unfold th; field; lra). generalize (th ^ S p) (th ^ S K). intros. field. lra.
Qed.
