(** The arrays of the translations: the double loop, the table of binomial coefficients and
    the tables of the rotations. *)
From Coq Require Import Reals ZArith List Lia Lra Psatz.
From Coquelicot Require Import Coquelicot.
From Verif Require Import Base ListFacts LegSpec LegProofs LegAdd LapModel LapArrays LapProofs SolidProofs SolidAdd SolidPair TranModel.
Import ListNotations.
Open Scope R_scope.

Lemma midx_S n m : midx n (S m) = S (midx n m).
Proof. rewrite !midx_tri. lia. Qed.
Lemma midx_last n : S (midx n n) = midx (S n) 0.
Proof. rewrite !midx_tri, tri_S. lia. Qed.

(** ** the double loop *)
Lemma each_term_ok p f (g : nat -> nat -> cplx) W0 : length W0 = tri (S p) ->
  (forall n m W, (m <= n <= p)%nat -> length W = tri (S p) -> nth_error W (midx n m) = nth_error W0 (midx n m) -> f n m (midx n m) W = Ok (g n m)) ->
  exists W, each_term p f W0 = Ok W /\ coefs p g W.
Proof.
  intros L0 Hf. unfold each_term.
  set (inv := fun (k : nat) (s : list cplx * nat) => snd s = k /\ length (fst s) = tri (S p) /\
    forall i j, (j <= i <= p)%nat -> nth_error (fst s) (midx i j) = if (midx i j <? k)%nat then Some (g i j) else nth_error W0 (midx i j)).
  match goal with |- context [foldM ?F (seq 0 (S p)) ?st] => destruct (loop_ind _ F (fun k s => inv (tri k) s) 0 (S p) st) as ([W off] & E & (I1 & I2 & I3)) end.
  - split; [reflexivity|]. split; [exact L0|]. intros i j _. reflexivity.
  - intros n [W off] Hn I. cbn [Nat.add].
    match goal with |- context [foldM ?F (seq 0 (S n)) ?st] => destruct (loop_ind _ F (fun k s => inv (tri n + k)%nat s) 0 (S n) st) as ([W1 off1] & E & I') end.
    + rewrite Nat.add_0_r. exact I.
    + intros m [W1 off1] Hm (I1 & I2 & I3). cbn [fst snd Nat.add] in *. subst off1. rewrite <- midx_tri. rewrite <- midx_tri in I3.
      rewrite (Hf n m W1) by (try lia; rewrite I3 by lia; rewrite Nat.ltb_irrefl; reflexivity). cbn [bind]. pose proof (midx_lt n m p ltac:(lia) ltac:(lia)). rewrite set_res_ok by lia. cbn [bind].
      eexists. split; [reflexivity|]. split; [cbn [snd]; rewrite midx_tri; lia|]. cbn [fst]. split; [rewrite upd_length; exact I2|]. intros i j B. destruct (Nat.eq_dec (midx n m) (midx i j)) as [Eq|Ne].
      * destruct (midx_inj n m i j ltac:(lia) ltac:(lia) Eq) as [<- <-]. rewrite upd_same by lia. rewrite midx_tri. destruct (Nat.ltb_spec (tri n + m) (tri n + S m)); [reflexivity|lia].
      * rewrite upd_other by exact Ne. rewrite I3 by exact B. destruct (Nat.ltb_spec (midx i j) (midx n m)), (Nat.ltb_spec (midx i j) (tri n + S m)); rewrite ?midx_tri in *; try reflexivity; lia.
    + exists (W1, off1). split; [exact E|]. rewrite tri_S. exact I'.
  - rewrite E. cbn [bind fst snd] in *. exists W. split; [reflexivity|]. split; [exact I2|]. intros n m B. rewrite I3 by exact B. pose proof (midx_lt n m p ltac:(lia) ltac:(lia)). destruct (Nat.ltb_spec (midx n m) (tri (S p))); [reflexivity|lia].
Qed.

(** ** binomial coefficients *)
Definition upto (N : nat) (g : nat -> nat -> R) (k : nat) (b : list R) : Prop :=
  length b = tri (S N) /\ forall i j, (j <= i <= N)%nat -> (midx i j < k)%nat -> nth_error b (midx i j) = Some (g i j).
Lemma upto_set N g n m b v : upto N g (midx n m) b -> (m <= n <= N)%nat -> v = g n m ->
  exists b', set_res b (midx n m) v = Ok b' /\ upto N g (S (midx n m)) b'.
Proof.
  intros [L H] B ->. pose proof (midx_lt n m N ltac:(lia) ltac:(lia)). rewrite set_res_ok by lia. eexists. split; [reflexivity|]. split; [rewrite upd_length; exact L|].
  intros i j Bij Lt. destruct (Nat.eq_dec (midx n m) (midx i j)) as [Eq|Ne].
  - destruct (midx_inj n m i j ltac:(lia) ltac:(lia) Eq) as [<- <-]. apply upd_same. lia.
  - rewrite upd_other by exact Ne. apply H; [exact Bij|lia].
Qed.

Lemma binom_0 n : Binomial.C n 0 = 1.
Proof. unfold Binomial.C. rewrite Nat.sub_0_r. simpl fact at 2. simpl INR. field. apply INR_fact_neq_0. Qed.
Lemma binom_n n : Binomial.C n n = 1.
Proof. unfold Binomial.C. rewrite Nat.sub_diag. simpl fact at 3. simpl INR. field. apply INR_fact_neq_0. Qed.
Lemma binom_nonneg n k : 0 <= Binomial.C n k.
Proof. unfold Binomial.C, Rdiv. apply Rmult_le_pos; [apply pos_INR|]. left. apply Rinv_0_lt_compat, Rmult_lt_0_compat; apply INR_fact_lt_0. Qed.
Lemma binom_sb n k : sqrt (Binomial.C n k) = sb n k.
Proof. reflexivity. Qed.

Lemma binom_row_ok N n b : (2 <= n <= N)%nat -> upto N Binomial.C (midx n 0) b -> exists b', binom_row n b = Ok b' /\ upto N Binomial.C (midx (S n) 0) b'.
Proof.
  intros Hn H. unfold binom_row. destruct (upto_set N _ n 0 b 1 H ltac:(lia) ltac:(symmetry; apply binom_0)) as (b0 & E0 & H0). rewrite E0. cbn [bind].
  match goal with |- context [foldM ?F _ b0] => destruct (loop_ind _ F (fun k b => upto N Binomial.C (midx n (S k)) b) 1 (n - 1) b0) as (b1 & E1 & H1) end.
  - rewrite midx_S. exact H0.
  - intros k b1 Hk H1. change (1 + k)%nat with (S k). replace (S k - 1)%nat with k by lia.
    assert (G : forall j, (j < n)%nat -> nth_res b1 (midx (n - 1) 0 + j) = Ok (Binomial.C (n - 1) j)).
    { intros j Hj. replace (midx (n - 1) 0 + j)%nat with (midx (n - 1) j) by (rewrite !midx_tri; lia). apply nth_ok, (proj2 H1); [lia|]. rewrite !midx_tri. pose proof (tri_S (n - 1)) as T. replace (S (n - 1)) with n in T by lia. lia. }
    rewrite !G by lia. cbn [bind]. replace (midx n 0 + S k)%nat with (midx n (S k)) by (rewrite !midx_tri; lia).
    destruct (upto_set N _ n (S k) b1 (Binomial.C (n - 1) (S k) + Binomial.C (n - 1) k) H1 ltac:(lia)) as (b2 & E2 & H2).
    + rewrite Rplus_comm, pascal by lia. f_equal. lia.
    + exists b2. split; [exact E2|]. rewrite midx_S. exact H2.
  - rewrite E1. cbn [bind]. replace (midx n 0 + n)%nat with (midx n n) by (rewrite !midx_tri; lia). replace (S (n - 1)) with n in H1 by lia.
    destruct (upto_set N _ n n b1 1 H1 ltac:(lia) ltac:(symmetry; apply binom_n)) as (b2 & E2 & H2). exists b2. split; [exact E2|]. rewrite <- midx_last. exact H2.
Qed.

Lemma sqbinom_ok p : (1 <= p)%nat -> exists b, generate_sqbinom p = Ok b /\ forall n m, (m <= n <= 2 * p)%nat -> nth_error b (midx n m) = Some (sb n m).
Proof.
  intros Hp. unfold generate_sqbinom. set (N := (2 * p)%nat). replace ((N + 1) * (N + 2) / 2)%nat with (tri (S N)) by (symmetry; apply size_tri).
  assert (U0 : upto N Binomial.C (midx 0 0) (repeat 0 (tri (S N)))) by (split; [apply repeat_length|intros i j _ B; rewrite !midx_tri in B; change (tri 0) with 0%nat in B; lia]).
  destruct (upto_set N _ 0 0 _ 1 U0 ltac:(unfold N; lia) ltac:(symmetry; apply binom_0)) as (b0 & E0 & U1). change (midx 0 0) with 0%nat in E0. rewrite E0. cbn [bind]. change (S (midx 0 0)) with (midx 1 0) in U1.
  destruct (upto_set N _ 1 0 _ 1 U1 ltac:(unfold N; lia) ltac:(symmetry; apply binom_0)) as (b1 & E1 & U2). change (midx 1 0) with 1%nat in E1. rewrite E1. cbn [bind]. change (S (midx 1 0)) with (midx 1 1) in U2.
  destruct (upto_set N _ 1 1 _ 1 U2 ltac:(unfold N; lia) ltac:(symmetry; apply binom_n)) as (b2 & E2 & U3). change (midx 1 1) with 2%nat in E2. rewrite E2. cbn [bind]. change (S (midx 1 1)) with (midx 2 0) in U3.
  match goal with |- context [foldM ?F (seq 2 (N - 1)) b2] => destruct (loop_ind _ F (fun k b => upto N Binomial.C (midx (2 + k) 0) b) 2 (N - 1) b2) as (b3 & E3 & U4) end.
  - exact U3.
  - intros k b Hk Hb. destruct (binom_row_ok N (2 + k) b ltac:(lia) Hb) as (b' & E & H). exists b'. split; [exact E|]. exact H.
  - rewrite E3. cbn [bind]. replace (2 + (N - 1))%nat with (S N) in U4 by (unfold N; lia). destruct U4 as [L3 U4].
    assert (V : forall i, (i < tri (S N))%nat -> exists v, nth_error b3 i = Some v /\ 0 <= v).
    { intros i Hi. destruct (midx_onto N i Hi) as (n & m & B & ->). exists (Binomial.C n m). split; [apply U4; [lia|rewrite (midx_tri (S N)), Nat.add_0_r; exact Hi]|apply binom_nonneg]. }
    match goal with |- context [foldM ?F (seq 0 (tri (S N))) b3] => destruct (loop_ind _ F (fun k b => length b = tri (S N) /\ forall i, (i < tri (S N))%nat -> nth_error b i = if (i <? k)%nat then option_map sqrt (nth_error b3 i) else nth_error b3 i) 0 (tri (S N)) b3) as (b4 & E4 & L4 & U5) end.
    + split; [exact L3|]. intros i _. reflexivity.
    + intros k b Hk [L H]. cbn [Nat.add]. destruct (V k Hk) as (v & Ev & Pv). rewrite (nth_ok _ b k v) by (rewrite H by lia; rewrite Nat.ltb_irrefl; exact Ev). cbn [bind]. unfold rsqrt. destruct (Rlt_dec v 0); [lra|]. cbn [bind].
      rewrite set_res_ok by lia. eexists. split; [reflexivity|]. split; [rewrite upd_length; exact L|]. intros i Hi. destruct (Nat.eq_dec k i) as [<-|Ne].
      * rewrite upd_same by lia. destruct (Nat.ltb_spec k (S k)); [|lia]. rewrite Ev. reflexivity.
      * rewrite upd_other by exact Ne. rewrite H by exact Hi. destruct (Nat.ltb_spec i k), (Nat.ltb_spec i (S k)); try reflexivity; lia.
    + exists b4. split; [exact E4|]. intros n m B. pose proof (midx_lt n m N ltac:(lia) ltac:(unfold N; lia)) as Lt. rewrite U5 by exact Lt. destruct (Nat.ltb_spec (midx n m) (tri (S N))); [|lia]. rewrite U4; [reflexivity|unfold N; lia|rewrite (midx_tri (S N)), Nat.add_0_r; exact Lt].
Qed.
