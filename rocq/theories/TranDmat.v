(** generate_dmatrix_of_beta fills its arrays with the rotation matrices. *)
From Coq Require Import Reals ZArith List Lia Lra Psatz.
From Coquelicot Require Import Coquelicot.
From Verif Require Import Base ListFacts LegSpec LegProofs LegAdd LapModel LapArrays LapProofs SolidProofs SolidAdd SolidPair TranModel TranArrays TranWigner.
Import ListNotations.
Open Scope R_scope.

(** ** indices *)
Fixpoint base (n : nat) : nat := match n with O => 0 | S k => base k + (k + 1) * (2 * k + 1) end.
Definition dn (n mp k : nat) : nat := (base n + mp * (2 * n + 1) + k)%nat.

Lemma base_six n : (6 * Z.of_nat (base n) = Z.of_nat n * (Z.of_nat n + 1) * (4 * Z.of_nat n - 1))%Z.
Proof.
  induction n as [|n IH]; [reflexivity|]. cbn [base]. rewrite Nat2Z.inj_add, Z.mul_add_distr_l, IH. replace (Z.of_nat ((n + 1) * (2 * n + 1))) with ((Z.of_nat n + 1) * (2 * Z.of_nat n + 1))%Z by lia.
  replace (Z.of_nat (S n)) with (Z.of_nat n + 1)%Z by lia. ring.
Qed.
Lemma didx_dn n mp k : (didx (Z.of_nat n) (Z.of_nat mp) 0 + (Z.of_nat k - Z.of_nat n) = Z.of_nat (dn n mp k))%Z.
Proof.
  unfold didx, dn. rewrite <- base_six, (Z.mul_comm 6), Z.div_mul by lia. lia.
Qed.
Lemma nd_base p : ((p + 1) * (4 * p * p + 11 * p + 6) / 6)%nat = base (S p).
Proof.
  pose proof (base_six (S p)) as B. assert (E : ((p + 1) * (4 * p * p + 11 * p + 6) = base (S p) * 6)%nat).
  { apply Nat2Z.inj. rewrite (Nat2Z.inj_mul (base (S p))), (Z.mul_comm _ (Z.of_nat 6)). change (Z.of_nat 6) with 6%Z. rewrite B. lia. }
  rewrite E. apply Nat.div_mul. lia.
Qed.
Lemma base_mono a b : (a <= b)%nat -> (base a <= base b)%nat.
Proof. induction 1 as [|b H IH]; [lia|]. cbn [base]. lia. Qed.
Definition valid (n mp k : nat) : Prop := (mp <= n)%nat /\ (k <= 2 * n)%nat.
Lemma dn_row n mp k : valid n mp k -> (dn n mp k < dn n (S mp) 0)%nat.
Proof. intros [_ H]. unfold dn. lia. Qed.
Lemma dn_next n : dn n (S n) 0 = base (S n).
Proof. unfold dn. cbn [base]. lia. Qed.
Lemma row_mono n a b : (a <= b)%nat -> (dn n a 0 <= dn n b 0)%nat.
Proof. intros H. unfold dn. pose proof (Nat.mul_le_mono_r a b (2 * n + 1) H). lia. Qed.
Lemma dn_lt n mp k p : valid n mp k -> (n <= p)%nat -> (dn n mp k < base (S p))%nat.
Proof.
  intros V H. pose proof (dn_row n mp k V). destruct V as [V1 _]. pose proof (row_mono n (S mp) (S n) ltac:(lia)). rewrite dn_next in H1. pose proof (base_mono (S n) (S p) ltac:(lia)). lia.
Qed.
Lemma dn_ge n mp k : (base n <= dn n mp k)%nat.
Proof. unfold dn. lia. Qed.
Lemma dn_inj n mp k n' mp' k' : valid n mp k -> valid n' mp' k' -> dn n mp k = dn n' mp' k' -> n = n' /\ mp = mp' /\ k = k'.
Proof.
  intros V V' E. assert (n = n').
  { destruct (Nat.lt_trichotomy n n') as [L|[L|L]]; [|exact L|].
    - pose proof (dn_lt n mp k n V (le_n n)). pose proof (base_mono (S n) n' L). pose proof (dn_ge n' mp' k'). lia.
    - pose proof (dn_lt n' mp' k' n' V' (le_n n')). pose proof (base_mono (S n') n L). pose proof (dn_ge n mp k). lia. }
  subst n'. assert (mp = mp').
  { destruct (Nat.lt_trichotomy mp mp') as [L|[L|L]]; [|exact L|].
    - pose proof (dn_row n mp k V). pose proof (row_mono n (S mp) mp' L). unfold dn in *. lia.
    - pose proof (dn_row n mp' k' V'). pose proof (row_mono n (S mp') mp L). unfold dn in *. lia. }
  subst mp'. unfold dn in E. lia.
Qed.

(** ** arrays filled up to an index *)
Definition dup (p : nat) (D : nat -> nat -> nat -> R) (i : nat) (d : list R) : Prop :=
  length d = base (S p) /\ forall n mp k, valid n mp k -> (n <= p)%nat -> (dn n mp k < i)%nat -> nth_error d (dn n mp k) = Some (D n mp k).
Lemma dup_set p D n mp k d v : dup p D (dn n mp k) d -> valid n mp k -> (n <= p)%nat -> v = D n mp k ->
  set_res d (dn n mp k) v = Ok (upd d (dn n mp k) v) /\ dup p D (S (dn n mp k)) (upd d (dn n mp k) v).
Proof.
  intros [L H] V Hn ->. pose proof (dn_lt n mp k p V Hn). split; [apply set_res_ok; lia|]. split; [rewrite upd_length; exact L|].
  intros n' mp' k' V' Hn' Lt. destruct (Nat.eq_dec (dn n mp k) (dn n' mp' k')) as [Eq|Ne].
  - destruct (dn_inj _ _ _ _ _ _ V V' Eq) as (<- & <- & <-). apply upd_same. lia.
  - rewrite upd_other by exact Ne. apply H; [exact V'|exact Hn'|lia].
Qed.
Lemma dup_get p D i d n mp k z : dup p D i d -> valid n mp k -> (n <= p)%nat -> (dn n mp k < i)%nat -> z = Z.of_nat (dn n mp k) -> nth_resZ d z = Ok (D n mp k).
Proof. intros [_ H] V Hn Hi ->. unfold nth_resZ. destruct (Z.ltb_spec (Z.of_nat (dn n mp k)) 0); [lia|]. rewrite Nat2Z.id. apply nth_ok, H; assumption. Qed.

Lemma zloop_ind T (f : T -> Z -> res T) (P : nat -> T -> Prop) a n s :
  P 0%nat s -> (forall k s, (k < n)%nat -> P k s -> exists s', f s (a + Z.of_nat k)%Z = Ok s' /\ P (S k) s') ->
  exists s', foldM f (zseq a n) s = Ok s' /\ P n s'.
Proof.
  intros H0 HS. destruct (foldM_ind Z T f P (zseq a n) s H0) as (s' & E & H).
  - intros j i s1 Hj Hp. apply zseq_inv in Hj. destruct Hj as [Lj ->]. apply HS; assumption.
  - rewrite zseq_len in H. eauto.
Qed.

Lemma rsqrt_prod a b z : z = (Z.of_nat a * Z.of_nat b)%Z -> rsqrt (IZR z) = Ok (sq a b).
Proof. intros ->. rewrite <- Nat2Z.inj_mul, <- INR_IZR_INZ. unfold rsqrt. pose proof (pos_INR (a * b)). destruct (Rlt_dec (INR (a * b)) 0); [lra|]. reflexivity. Qed.

Section Beta.
Variables cb sb_ : R.
Definition Dp : nat -> nat -> nat -> R := fun n mp k => dw cb sb_ n mp k.
Definition Dm : nat -> nat -> nat -> R := fun n mp k => dw cb sb_ n mp k * (-1) ^ (n + mp + k).

(** the three products the entries are made of *)
Lemma hi_ok p i d n mp k (m := (Z.of_nat k - Z.of_nat (S n))%Z) : dup p Dp i d -> (n <= p)%nat -> (mp <= n)%nat -> (base (S n) <= i)%nat -> (k <= 2 * n)%nat ->
  bind (rsqrt (IZR ((Z.of_nat (S n) - m) * (Z.of_nat (S n) - m - 1)))) (fun a => bind (nth_resZ d (didx (Z.of_nat (S n) - 1) (Z.of_nat mp) 0 + (m + 1))) (fun e => Ok (a * e))) =
  Ok (sq (2 * S n - k) (2 * S n - k - 1) * dw cb sb_ n mp k).
Proof.
  intros H Hn Hm Hi Hk. rewrite (rsqrt_prod (2 * S n - k) (2 * S n - k - 1)) by (unfold m; f_equal; lia). cbn [bind].
  assert (V : valid n mp k) by (split; lia). pose proof (dn_lt n mp k n V (le_n n)). rewrite (dup_get p Dp i d n mp k) by (try assumption; try lia; rewrite <- didx_dn; unfold m; replace (Z.of_nat (S n) - 1)%Z with (Z.of_nat n) by lia; lia). reflexivity.
Qed.
Lemma mid_ok p i d n mp k (m := (Z.of_nat k - Z.of_nat (S n))%Z) : dup p Dp i d -> (n <= p)%nat -> (mp <= n)%nat -> (base (S n) <= i)%nat -> (1 <= k)%nat -> (k <= 2 * n + 1)%nat ->
  bind (rsqrt (IZR ((Z.of_nat (S n) - m) * (Z.of_nat (S n) + m)))) (fun a => bind (nth_resZ d (didx (Z.of_nat (S n) - 1) (Z.of_nat mp) 0 + m)) (fun e => Ok (a * e))) =
  Ok (sq (2 * S n - k) k * dw cb sb_ n mp (k - 1)).
Proof.
  intros H Hn Hm Hi Hk1 Hk. rewrite (rsqrt_prod (2 * S n - k) k) by (unfold m; f_equal; lia). cbn [bind].
  assert (V : valid n mp (k - 1)) by (split; lia). pose proof (dn_lt n mp (k - 1) n V (le_n n)). rewrite (dup_get p Dp i d n mp (k - 1)) by (try assumption; try lia; rewrite <- didx_dn; unfold m; replace (Z.of_nat (S n) - 1)%Z with (Z.of_nat n) by lia; lia). reflexivity.
Qed.
Lemma lo_ok p i d n mp k (m := (Z.of_nat k - Z.of_nat (S n))%Z) : dup p Dp i d -> (n <= p)%nat -> (mp <= n)%nat -> (base (S n) <= i)%nat -> (2 <= k)%nat -> (k <= 2 * n + 2)%nat ->
  bind (rsqrt (IZR ((Z.of_nat (S n) + m) * (Z.of_nat (S n) + m - 1)))) (fun a => bind (nth_resZ d (didx (Z.of_nat (S n) - 1) (Z.of_nat mp) 0 + (m - 1))) (fun e => Ok (a * e))) =
  Ok (sq k (k - 1) * dw cb sb_ n mp (k - 2)).
Proof.
  intros H Hn Hm Hi Hk1 Hk. rewrite (rsqrt_prod k (k - 1)) by (unfold m; f_equal; lia). cbn [bind].
  assert (V : valid n mp (k - 2)) by (split; lia). pose proof (dn_lt n mp (k - 2) n V (le_n n)). rewrite (dup_get p Dp i d n mp (k - 2)) by (try assumption; try lia; rewrite <- didx_dn; unfold m; replace (Z.of_nat (S n) - 1)%Z with (Z.of_nat n) by lia; lia). reflexivity.
Qed.

Lemma entry0_ok p i d n k : dup p Dp i d -> (1 <= n)%nat -> (n <= p)%nat -> (base (S n) <= i)%nat -> (k <= 2 * S n)%nat ->
  dmat_entry0 cb sb_ (Z.of_nat (S n)) (Z.of_nat k - Z.of_nat (S n)) d = Ok (dw cb sb_ (S n) 0 k).
Proof.
  intros H Hn Hp Hi Hk. unfold dmat_entry0.
  pose proof (hi_ok p i d n 0 k) as HI. pose proof (mid_ok p i d n 0 k) as MI. pose proof (lo_ok p i d n 0 k) as LO. cbv zeta in HI, MI, LO. change (Z.of_nat 0) with 0%Z in HI, MI, LO.
  assert (Nz : IZR (Z.of_nat (S n)) <> 0) by (rewrite <- INR_IZR_INZ; pose proof (lt_0_INR (S n) ltac:(lia)); lra).
  cbn [dw]. unfold three. rewrite (INR_IZR_INZ (S n)).
  destruct (Z.eqb_spec (Z.of_nat k - Z.of_nat (S n)) (- Z.of_nat (S n))) as [C1|C1].
  { assert (k = 0)%nat by lia. rewrite HI by (try assumption; lia). subst k. cbn [bind]. rewrite rdiv_ok by exact Nz. rewrite sq_0_r, sq_0_l. f_equal. field. exact Nz. }
  destruct (Z.eqb_spec (Z.of_nat k - Z.of_nat (S n)) (- Z.of_nat (S n) + 1)) as [C2|C2].
  { assert (k = 1)%nat by lia. rewrite HI, MI by (try assumption; lia). subst k. cbn [bind]. rewrite rdiv_ok by exact Nz. change (1 - 1)%nat with 0%nat. rewrite sq_0_r. f_equal. field. exact Nz. }
 
  destruct (Z.leb_spec (Z.of_nat k - Z.of_nat (S n)) (Z.of_nat (S n) - 2)) as [C3|C3].
  { rewrite HI, MI, LO by (try assumption; lia). cbn [bind]. rewrite rdiv_ok by exact Nz. reflexivity. }
  destruct (Z.eqb_spec (Z.of_nat k - Z.of_nat (S n)) (Z.of_nat (S n) - 1)) as [C4|C4].
  { assert (k = 2 * n + 1)%nat by lia. rewrite MI, LO by (try assumption; lia). cbn [bind]. rewrite rdiv_ok by exact Nz. replace (2 * S n - k - 1)%nat with 0%nat by lia. rewrite sq_0_r. f_equal. field. exact Nz. }
  assert (k = 2 * n + 2)%nat by lia. rewrite LO by (try assumption; lia). cbn [bind]. rewrite rdiv_ok by exact Nz. replace (2 * S n - k)%nat with 0%nat by lia. rewrite !sq_0_l. f_equal. field. exact Nz.
Qed.

Lemma entry_ok p i d n mp k : dup p Dp i d -> (1 <= n)%nat -> (n <= p)%nat -> (mp <= n)%nat -> (base (S n) <= i)%nat -> (k <= 2 * S n)%nat ->
  dmat_entry ((1 - cb) / 2) ((1 + cb) / 2) sb_ (Z.of_nat (S n)) (Z.of_nat (S mp)) (Z.of_nat k - Z.of_nat (S n)) d = Ok (dw cb sb_ (S n) (S mp) k).
Proof.
  intros H Hn Hp Hm Hi Hk. unfold dmat_entry. rewrite (rsqrt_prod (S n + S mp) (S n + S mp - 1)) by lia. cbn [bind].
  assert (PF : 0 < sq (S n + S mp) (S n + S mp - 1)) by (unfold sq; apply sqrt_lt_R0, lt_0_INR, Nat.mul_pos_pos; lia). rewrite rdiv_ok by lra. cbn [bind dw]. set (F := 1 / sq (S n + S mp) (S n + S mp - 1)). unfold three.
  replace (Z.of_nat (S mp) - 1)%Z with (Z.of_nat mp) by lia. rewrite (Z.mul_comm (Z.of_nat (S n) + (Z.of_nat k - Z.of_nat (S n))) (Z.of_nat (S n) - (Z.of_nat k - Z.of_nat (S n)))).
  destruct (Z.eqb_spec (Z.of_nat k - Z.of_nat (S n)) (- Z.of_nat (S n))) as [C1|C1].
  { assert (k = 0)%nat by lia. rewrite (hi_ok p i d n mp k) by (try assumption; lia). subst k. cbn [bind]. rewrite sq_0_r, sq_0_l. f_equal. ring. }
  destruct (Z.eqb_spec (Z.of_nat k - Z.of_nat (S n)) (- Z.of_nat (S n) + 1)) as [C2|C2].
  { assert (k = 1)%nat by lia. rewrite (hi_ok p i d n mp k), (mid_ok p i d n mp k) by (try assumption; lia). subst k. cbn [bind]. change (1 - 1)%nat with 0%nat. rewrite sq_0_r. f_equal. ring. }
  destruct (Z.leb_spec (Z.of_nat k - Z.of_nat (S n)) (Z.of_nat (S n) - 2)) as [C3|C3].
  { rewrite (hi_ok p i d n mp k), (mid_ok p i d n mp k), (lo_ok p i d n mp k) by (try assumption; lia). cbn [bind]. f_equal. ring. }
  destruct (Z.eqb_spec (Z.of_nat k - Z.of_nat (S n)) (Z.of_nat (S n) - 1)) as [C4|C4].
  { assert (k = 2 * n + 1)%nat by lia. rewrite (mid_ok p i d n mp k), (lo_ok p i d n mp k) by (try assumption; lia). cbn [bind]. replace (2 * S n - k - 1)%nat with 0%nat by lia. rewrite sq_0_r. f_equal. ring. }
  assert (k = 2 * n + 2)%nat by lia. rewrite (lo_ok p i d n mp k) by (try assumption; lia). cbn [bind]. replace (2 * S n - k)%nat with 0%nat by lia. rewrite !sq_0_l. f_equal. ring.
Qed.

Definition dups (p i : nat) (d : list R * list R) : Prop := dup p Dp i (fst d) /\ dup p Dm i (snd d).

Lemma pow_m1_sgn z k : (z = Z.of_nat k \/ (exists j, z = Z.of_nat k - 2 * Z.of_nat j))%Z -> pow_m1 z = (-1) ^ k.
Proof.
  intros H. assert (E : exists j, z = (Z.of_nat k - 2 * j)%Z) by (destruct H as [->|[j ->]]; [exists 0%Z; lia|eauto]). clear H. destruct E as [j ->]. unfold pow_m1.
  destruct (Nat.Even_or_Odd k) as [[h ->]|[h ->]].
  - rewrite pow_mult. replace ((-1) ^ 2) with 1 by ring. rewrite pow1. replace (Z.of_nat (2 * h) - 2 * j)%Z with ((Z.of_nat h - j) * 2)%Z by lia. rewrite Z.rem_mul by lia. reflexivity.
  - rewrite pow_add, pow_mult. replace ((-1) ^ 2) with 1 by ring. rewrite pow1. destruct (Z.eqb_spec (Z.rem (Z.of_nat (2 * h + 1) - 2 * j) 2) 0) as [E|E]; [|simpl; ring].
    exfalso. apply Z.rem_divide in E; [|lia]. destruct E as [q E]. lia.
Qed.

Lemma put_ok p n mp k d z sgn : dups p (dn n mp k) d -> valid n mp k -> (n <= p)%nat -> z = Z.of_nat (dn n mp k) -> sgn = (-1) ^ (n + mp + k) ->
  exists d', dmat_put z (dw cb sb_ n mp k) sgn d = Ok d' /\ dups p (S (dn n mp k)) d'.
Proof.
  intros [H1 H2] V Hn -> ->. unfold dmat_put, set_resZ. destruct (Z.ltb_spec (Z.of_nat (dn n mp k)) 0); [lia|]. rewrite Nat2Z.id.
  destruct (dup_set p Dp n mp k (fst d) _ H1 V Hn eq_refl) as [E1 U1]. destruct (dup_set p Dm n mp k (snd d) _ H2 V Hn eq_refl) as [E2 U2].
  change (set_res (fst d) (dn n mp k) (dw cb sb_ n mp k)) with (set_res (fst d) (dn n mp k) (Dp n mp k)). rewrite E1. cbn [bind].
  change (dw cb sb_ n mp k * (-1) ^ (n + mp + k)) with (Dm n mp k). rewrite E2. cbn [bind]. eexists. split; [reflexivity|]. split; assumption.
Qed.

Lemma row0_ok p n d : (2 <= n <= p)%nat -> dups p (base n) d -> exists d', dmat_row0 cb sb_ n d = Ok d' /\ dups p (dn n 1 0) d'.
Proof.
  intros Hn H. unfold dmat_row0. destruct n as [|n]; [lia|].
  destruct (zloop_ind _ (fun d m => bind (dmat_entry0 cb sb_ (Z.of_nat (S n)) m (fst d)) (fun v => dmat_put (didx (Z.of_nat (S n)) 0 0 + m) v (pow_m1 m) d)) (fun k d => dups p (dn (S n) 0 k) d) (- Z.of_nat (S n)) (2 * S n + 1) d) as (d' & E & H').
  - unfold dn. rewrite Nat.mul_0_l, !Nat.add_0_r. exact H.
  - intros k d1 Hk H1. replace (- Z.of_nat (S n) + Z.of_nat k)%Z with (Z.of_nat k - Z.of_nat (S n))%Z by lia.
    rewrite (entry0_ok p (dn (S n) 0 k) (fst d1) n k) by (try apply H1; try lia; unfold dn; cbn [base]; lia). cbn [bind].
    destruct (put_ok p (S n) 0 k d1 (didx (Z.of_nat (S n)) 0 0 + (Z.of_nat k - Z.of_nat (S n))) (pow_m1 (Z.of_nat k - Z.of_nat (S n))) H1) as (d2 & E2 & H2).
    + split; lia.
    + lia.
    + apply (didx_dn (S n) 0 k).
    + apply pow_m1_sgn. right. exists (S n). lia.
    + exists d2. split; [exact E2|]. unfold dn in *. rewrite <- Nat.add_succ_r in H2. exact H2.
  - exists d'. split; [exact E|]. unfold dn in *. replace (base (S n) + 1 * (2 * S n + 1) + 0)%nat with (base (S n) + 0 * (2 * S n + 1) + (2 * S n + 1))%nat by lia. exact H'.
Qed.

Lemma row_ok p n mp d : (2 <= n <= p)%nat -> (1 <= mp <= n)%nat -> dups p (dn n mp 0) d -> exists d', dmat_row ((1 - cb) / 2) ((1 + cb) / 2) sb_ n mp d = Ok d' /\ dups p (dn n (S mp) 0) d'.
Proof.
  intros Hn Hmp H. unfold dmat_row. destruct n as [|n]; [lia|]. destruct mp as [|mp]; [lia|].
  match goal with |- context [foldM ?F _ d] => destruct (zloop_ind _ F (fun k d => dups p (dn (S n) (S mp) k) d) (- Z.of_nat (S n)) (2 * S n + 1) d) as (d' & E & H') end.
  - exact H.
  - intros k d1 Hk H1. replace (- Z.of_nat (S n) + Z.of_nat k)%Z with (Z.of_nat k - Z.of_nat (S n))%Z by lia.
    rewrite (entry_ok p (dn (S n) (S mp) k) (fst d1) n mp k) by (try apply H1; try lia; unfold dn; cbn [base]; lia). cbn [bind].
    destruct (put_ok p (S n) (S mp) k d1 (didx (Z.of_nat (S n)) (Z.of_nat (S mp)) 0 + (Z.of_nat k - Z.of_nat (S n))) (pow_m1 (Z.of_nat (S mp) - (Z.of_nat k - Z.of_nat (S n)))) H1) as (d2 & E2 & H2).
    + split; lia.
    + lia.
    + apply didx_dn.
    + apply pow_m1_sgn. right. exists k. lia.
    + exists d2. split; [exact E2|]. unfold dn in *. rewrite <- Nat.add_succ_r in H2. exact H2.
  - exists d'. split; [exact E|]. unfold dn in *. replace (base (S n) + S (S mp) * (2 * S n + 1) + 0)%nat with (base (S n) + S mp * (2 * S n + 1) + (2 * S n + 1))%nat by lia. exact H'.
Qed.

Lemma sqrt2_half : sqrt 2 / 2 = 1 / sqrt 2.
Proof. pose proof (sqrt_sqrt 2 ltac:(lra)) as S2. pose proof (sqrt_lt_R0 2 ltac:(lra)). apply Rmult_eq_reg_l with (sqrt 2); [|lra]. replace (sqrt 2 * (sqrt 2 / 2)) with (sqrt 2 * sqrt 2 / 2) by field. rewrite S2. field. lra. Qed.

Lemma base_ok p : (1 <= p)%nat -> exists d, dmat_base cb sb_ ((1 - cb) / 2) ((1 + cb) / 2) (base (S p)) = Ok d /\ dups p (base 2) d.
Proof.
  intros Hp. pose proof (sqrt_lt_R0 2 ltac:(lra)) as S2. assert (L : (7 <= base (S p))%nat) by (pose proof (base_mono 2 (S p) ltac:(lia)); cbn in *; lia).
  unfold dmat_base. rewrite !rdiv_ok by lra.
  repeat (rewrite set_res_ok by (rewrite ?upd_length, repeat_length; lia); cbn [bind]).
  eexists. split; [reflexivity|].
  assert (V : forall n mp k, valid n mp k -> (dn n mp k < base 2)%nat -> (n = 0 /\ mp = 0 /\ k = 0 \/ n = 1 /\ mp = 0 /\ (k = 0 \/ k = 1 \/ k = 2) \/ n = 1 /\ mp = 1 /\ (k = 0 \/ k = 1 \/ k = 2))%nat).
  { intros n mp k [V1 V2] Lt. destruct n as [|[|n]]; [lia|lia|]. pose proof (dn_ge (S (S n)) mp k). pose proof (base_mono 2 (S (S n)) ltac:(lia)). lia. }
  assert (E10 : sq 2 1 = sqrt 2) by (unfold sq; reflexivity). assert (E11 : sq 1 1 = 1) by (unfold sq; simpl; apply sqrt_1).
  assert (I1 : INR 1 = 1) by reflexivity.
  assert (D00 : dw cb sb_ 0 0 0 = 1) by reflexivity.
  assert (D100 : dw cb sb_ 1 0 0 = - sb_ / sqrt 2). { cbn [dw]. unfold three. cbn [Nat.mul Nat.add Nat.sub]. rewrite sq_0_r, sq_0_l, E10, I1. replace (- sb_ / sqrt 2) with (- sb_ * (1 / sqrt 2)) by (field; lra). rewrite <- sqrt2_half. field. }
  assert (D101 : dw cb sb_ 1 0 1 = cb). { cbn [dw]. unfold three. cbn [Nat.mul Nat.add Nat.sub]. rewrite sq_0_r, E11, I1. field. }
  assert (D102 : dw cb sb_ 1 0 2 = sb_ / sqrt 2). { cbn [dw]. unfold three. cbn [Nat.mul Nat.add Nat.sub]. rewrite !sq_0_l, E10, I1. replace (sb_ / sqrt 2) with (sb_ * (1 / sqrt 2)) by (field; lra). rewrite <- sqrt2_half. field. }
  assert (D110 : dw cb sb_ 1 1 0 = (1 - cb) / 2). { cbn [dw]. unfold three. cbn [Nat.mul Nat.add Nat.sub]. rewrite sq_0_r, sq_0_l, E10. field. lra. }
  assert (D111 : dw cb sb_ 1 1 1 = - sb_ / sqrt 2). { cbn [dw]. unfold three. cbn [Nat.mul Nat.add Nat.sub]. rewrite sq_0_r, E11, E10. field. lra. }
  assert (D112 : dw cb sb_ 1 1 2 = (1 + cb) / 2). { cbn [dw]. unfold three. cbn [Nat.mul Nat.add Nat.sub]. rewrite !sq_0_l, E10. field. lra. }
  assert (U : forall (l : list R) j v k w, (k < length l)%nat -> (if Nat.eqb j k then Some v else nth_error l k) = Some w -> nth_error (upd l j v) k = Some w).
  { intros l j v k w Hk E. destruct (Nat.eqb_spec j k) as [->|N]; [rewrite upd_same by exact Hk; exact E|rewrite upd_other by exact N; exact E]. }
  unfold dups, dup. set (BP := base (S p)) in *. clearbody BP. cbn [fst snd].
  split; (split; [rewrite !upd_length, repeat_length; reflexivity|]); intros n mp k Vk _ Lt; cbn [fst snd]; destruct (V n mp k Vk Lt) as [(-> & -> & ->)|[(-> & -> & [->|[->| ->]])|(-> & -> & [->|[->| ->]])]];
    cbv [dn base Nat.mul Nat.add]; unfold Dp, Dm; rewrite ?D00, ?D100, ?D101, ?D102, ?D110, ?D111, ?D112;
    repeat (apply U; [rewrite ?upd_length, repeat_length; lia|]; cbn [Nat.eqb]; try (f_equal; simpl; (ring || (field; lra)))).
Qed.

Lemma dmatrix_ok p : (1 <= p)%nat -> exists d, bind (dmat_base cb sb_ ((1 - cb) / 2) ((1 + cb) / 2) (base (S p))) (fun d =>
  foldM (fun d n => bind (dmat_row0 cb sb_ n d) (fun d => foldM (fun d mp => dmat_row ((1 - cb) / 2) ((1 + cb) / 2) sb_ n mp d) (seq 1 n) d)) (seq 2 (p - 1)) d) = Ok d /\ dups p (base (S p)) d.
Proof.
  intros Hp. destruct (base_ok p Hp) as (d0 & E0 & H0). rewrite E0. cbn [bind].
  match goal with |- context [foldM ?F (seq 2 (p - 1)) d0] => destruct (loop_ind _ F (fun k d => dups p (base (2 + k)) d) 2 (p - 1) d0) as (d & E & H) end.
  - exact H0.
  - intros k d Hk H. destruct (row0_ok p (2 + k) d ltac:(lia) H) as (d1 & E1 & H1). rewrite E1. cbn [bind].
    match goal with |- context [foldM ?F (seq 1 (2 + k)) d1] => destruct (loop_ind _ F (fun j d => dups p (dn (2 + k) (1 + j) 0) d) 1 (2 + k) d1) as (d2 & E2 & H2) end.
    + exact H1.
    + intros j d2 Hj H2. destruct (row_ok p (2 + k) (1 + j) d2 ltac:(lia) ltac:(lia) H2) as (d3 & E3 & H3). exists d3. split; [exact E3|exact H3].
    + exists d2. split; [exact E2|]. change (1 + (2 + k))%nat with (S (2 + k)) in H2. rewrite dn_next in H2. exact H2.
  - exists d. split; [exact E|]. replace (2 + (p - 1))%nat with (S p) in H by lia. exact H.
Qed.
End Beta.

(** what a table for the rotation by an angle holds; [s] is the sine of half of it *)
Definition holds (p : nat) (c s : R) (d : list R) : Prop :=
  exists a : nat -> nat -> nat -> R, length d = base (S p) /\ (forall n mp k, valid n mp k -> (n <= p)%nat -> nth_error d (dn n mp k) = Some (a n mp k)) /\ forall n, (n <= p)%nat -> wigner c s (a n) n.

Lemma generate_ok p beta : (1 <= p)%nat -> exists dp dm, generate_dmatrix_of_beta p beta = Ok (dp, dm) /\
  holds p (cos (beta / 2)) (sin (beta / 2)) dp /\ holds p (cos (beta / 2)) (- sin (beta / 2)) dm.
Proof.
  intros Hp. unfold generate_dmatrix_of_beta. rewrite nd_base. set (c := cos (beta / 2)). set (s := sin (beta / 2)).
  assert (cs1 : c * c + s * s = 1) by (pose proof (sin2_cos2 (beta / 2)) as E; unfold Rsqr in E; fold c s in E; lra).
  assert (Ec : cos beta = c * c - s * s) by (replace beta with (2 * (beta / 2)) by field; rewrite cos_2a; reflexivity).
  assert (Es : sin beta = 2 * c * s) by (replace beta with (2 * (beta / 2)) by field; rewrite sin_2a; unfold c, s; ring).
  rewrite Ec, Es. destruct (dmatrix_ok (c * c - s * s) (2 * c * s) p Hp) as ([dp dm] & E & [L1 H1] & [L2 H2]). cbn [fst snd] in *.
  exists dp, dm. split; [exact E|]. split.
  - exists (Dp (c * c - s * s) (2 * c * s)). split; [exact L1|]. split; [intros; apply H1; try assumption; apply dn_lt; assumption|]. intros n _. apply dw_wigner, cs1.
  - exists (Dm (c * c - s * s) (2 * c * s)). split; [exact L2|]. split; [intros; apply H2; try assumption; apply dn_lt; assumption|]. intros n _.
    apply wigner_ext with (2 := wigner_neg c s _ n (dw_wigner c s n cs1)). intros m k _ _. unfold Dm. ring.
Qed.
