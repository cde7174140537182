(** The backward recursion of bessel_In: the values it stores and the sum it forms. *)
From Coq Require Import Reals List Arith Lia Lra Psatz ZArith.
From Verif Require Import Base ListFacts LapModel LapArrays BesselSpec BesselProofs BesInModel BesInMath.
Import ListNotations.
Open Scope R_scope.

Section Recur.
Variables (x : R) (N : nat) (p : R).
Hypothesis Hx : 0 < x.
Hypothesis Hp : 0 < p.
Local Notation y := (yy x N p).

Definition good (j : nat) (s : back) : Prop :=
  b_n s = S j /\ b_en s = 2 * INR j + 3 /\ b_em s = INR j /\ b_empal s = INR j + / 2 /\ b_emp2al s = INR j /\ 2 * b_sum s = x * (y (j - 1) + y j - y N).

Lemma down j : (2 * INR (S j) + 3 - 2) * y (S j) / x + y (S (S j)) = y j.
Proof. rewrite (yy_rec x Hx N p j). unfold cj. rewrite S_INR. field. lra. Qed.

Lemma count_step j s : (1 <= j)%nat -> good (S j) s -> exists s', count (S j) (mkBack (S j) (b_en s - 2) (b_em s) (b_empal s) (b_emp2al s) (b_sum s)) (y j) = Ok s' /\ good j s'.
Proof.
  intros Hj (E1 & E2 & E3 & E4 & E5 & E6). unfold count. cbn [b_n b_en b_em b_empal b_emp2al b_sum]. rewrite S_INR in E2, E3, E4, E5.
  assert (Pj : 1 <= INR j) by (change 1 with (INR 1); apply le_INR, Hj). assert (Ee : b_em s - 1 = INR j) by lra. rewrite Ee. rewrite rdiv_ok by lra. cbn [bind].
  eexists. split; [reflexivity|]. unfold good. cbn [b_n b_en b_em b_empal b_emp2al b_sum].
  assert (E7 : (if (S j =? 2)%nat then 1 else b_emp2al s - 1) = INR j). { destruct (Nat.eqb_spec (S j) 2) as [E|E]; [replace j with 1%nat by lia; reflexivity|lra]. }
  rewrite E7. split; [reflexivity|]. split; [lra|]. split; [reflexivity|]. split; [lra|]. split; [reflexivity|].
  replace ((b_sum s + y j * (b_empal s - 1)) * INR j / INR j) with (b_sum s + y j * (b_empal s - 1)) by (field; lra). rewrite Nat.sub_succ, Nat.sub_0_r in E6.
  replace (2 * (b_sum s + y j * (b_empal s - 1))) with (2 * b_sum s + (2 * INR j + 1) * y j) by (rewrite E4; field). rewrite E6.
  pose proof (yy_tele x Hx N p (j - 1)) as T. replace (S (j - 1)) with j in T by lia. rewrite T. ring.
Qed.

Lemma fall_ok r : forall j s, (r < j)%nat -> good j s -> exists s', fall x r s (y j) (y (S j)) = Ok (s', y (j - r), y (S (j - r))) /\ good (j - r) s'.
Proof.
  induction r as [|r IH]; intros j s Hr G; [exists s; rewrite Nat.sub_0_r; split; [reflexivity|exact G]|].
  destruct j as [|j]; [lia|]. cbn [fall]. pose proof G as (E1 & E2 & _). rewrite E1. replace (S (S j) - 1)%nat with (S j) by lia.
  rewrite E2, (down j). destruct (Nat.eqb_spec (S j) 1) as [C|_]; [lia|]. destruct (count_step j s ltac:(lia) G) as (s1 & Ec & G1). rewrite E2 in Ec. rewrite Ec. cbn [bind].
  destruct (IH j s1 ltac:(lia) G1) as (s' & Ef & G'). exists s'. replace (S j - S r)%nat with (j - r)%nat by lia. split; [exact Ef|exact G'].
Qed.
Lemma fall_all j : (1 <= j)%nat -> forall s, good j s -> exists s', fall x j s (y j) (y (S j)) = Ok (s', y 0, y 1) /\ b_n s' = 1%nat /\ 2 * b_sum s' = x * (y 0 + y 1 - y N).
Proof.
  induction 1 as [|j Hj IH]; intros s G.
  - cbn [fall]. destruct G as (E1 & E2 & E3 & E4 & E5 & E6). rewrite E1, E2. replace (S 1 - 1)%nat with 1%nat by lia. rewrite (down 0), Nat.eqb_refl. eexists. split; [reflexivity|]. cbn [b_n b_sum]. split; [reflexivity|exact E6].
  - cbn [fall]. pose proof G as (E1 & E2 & _). rewrite E1. replace (S (S j) - 1)%nat with (S j) by lia.
    rewrite E2, (down j). destruct (Nat.eqb_spec (S j) 1) as [C|_]; [lia|]. destruct (count_step j s Hj G) as (s1 & Ec & G1). rewrite E2 in Ec. rewrite Ec. cbn [bind]. apply IH, G1.
Qed.

Variable nb : nat.
Definition filled (j : nat) (B : list R) : Prop := length B = nb /\ forall n, (j <= n < nb)%nat -> nth_error B n = Some (y n).
Lemma filled_set j B : filled (S j) B -> (j < nb)%nat -> filled j (upd B j (y j)).
Proof. intros [L H] Hj. split; [rewrite upd_length; exact L|]. intros n Hn. destruct (Nat.eq_dec n j) as [->|Ne]; [apply upd_same; lia|rewrite upd_other by lia; apply H; lia]. Qed.
Definition total : R := x * (y 0 + y 1 - y N) + y 0.

Lemma descend_ok j s B : (1 <= j)%nat -> (j + 1 < nb)%nat -> good j s -> filled j B -> exists B', filled 0 B' /\ descend nb x s B = normalize nb x B' total.
Proof.
  intros Hj Hnb G F. unfold descend. replace (b_n s - 2)%nat with (j - 1)%nat by (destruct G as [-> _]; lia).
  match goal with |- context [foldM ?f (seq 0 (j - 1)) ?i] => destruct (loop_ind _ f (fun k st => good (j - k) (fst st) /\ filled (j - k) (snd st)) 0 (j - 1) i) as ([s' B'] & El & G' & F') end.
  - cbn [fst snd]. rewrite Nat.sub_0_r. split; assumption.
  - intros k [s1 B1] Hk [G1 F1]. cbn [fst snd] in G1, F1. destruct (j - k)%nat as [|i] eqn:Ei; [lia|]. pose proof G1 as (E1 & E2 & _). rewrite E1. replace (S (S i) - 1)%nat with (S i) by lia. replace (S i + 1)%nat with (S (S i)) by lia. replace (S i - 1)%nat with i by lia.
    destruct F1 as [L1 H1]. rewrite (nth_ok _ _ _ _ (H1 (S i) ltac:(lia))), (nth_ok _ _ _ _ (H1 (S (S i)) ltac:(lia))). cbn [bind]. rewrite E2, (down i). rewrite set_res_ok by lia. cbn [bind].
    destruct (count_step i s1 ltac:(lia) G1) as (s2 & Ec & G2). rewrite E2 in Ec. rewrite Ec. cbn [bind]. eexists. split; [reflexivity|]. cbn [fst snd]. replace (j - S k)%nat with i by lia. split; [exact G2|apply filled_set; [split; assumption|lia]].
  - cbn [fst snd] in *. rewrite El. cbn [bind]. replace (j - (j - 1))%nat with 1%nat in * by lia. destruct F' as [L' H']. rewrite (nth_ok _ _ _ _ (H' 1%nat ltac:(lia))), (nth_ok _ _ _ _ (H' 2%nat ltac:(lia))). cbn [bind].
    destruct G' as (E1 & E2 & E3 & E4 & E5 & E6). rewrite E4. replace (2 * (INR 1 + / 2) * y 1 / x + y 2) with (y 0) by (rewrite <- (down 0); simpl INR; field; lra).
    rewrite set_res_ok by lia. cbn [bind]. exists (upd B' 0 (y 0)). split; [apply filled_set; [split; assumption|lia]|]. f_equal. unfold total. change (1 - 1)%nat with 0%nat in E6. lra.
Qed.

Lemma recur_ok : (1 <= nb)%nat -> (nb <= N)%nat -> exists B, filled 0 B /\ recur nb x N (2 * INR N + 1) p (repeat 0 nb) = normalize nb x B total.
Proof.
  intros H1 HN. assert (L0 : length (repeat 0 nb) = nb) by apply repeat_length. set (B0 := repeat 0 nb) in *. clearbody B0. unfold recur. rewrite rdiv_ok by lra. cbn [bind]. assert (PN : 1 <= INR N) by (change 1 with (INR 1); apply le_INR; lia).
  assert (Em : INR (N + 1) - 1 = INR N) by (rewrite plus_INR; simpl; ring). rewrite Em. rewrite rdiv_ok by lra. cbn [bind]. destruct (Nat.ltb_spec (N + 1) nb) as [C|_]; [lia|].
  replace (1 / p) with (y N) by (rewrite (yy_N x Hx N p Hp); field; lra). rewrite <- (yy_top x N p). replace (N + 1)%nat with (S N) by lia.
  match goal with |- context [fall x _ ?s _ _] => assert (G : good N s) end.
  { unfold good. cbn [b_n b_en b_em b_empal b_emp2al b_sum]. unfold alpha. split; [reflexivity|]. split; [ring|]. split; [reflexivity|]. split; [lra|]. split; [lra|].
    pose proof (yy_tele x Hx N p (N - 1)) as T. replace (S (N - 1)) with N in T by lia. rewrite (yy_top x N p) in T.
    replace (2 * (y N * (INR N + 5 / 10) * (INR N - 1 + (5 / 10 + 5 / 10)) / INR N)) with ((2 * INR N + 1) * y N) by (field; lra). rewrite T. ring. }
  set (s0 := mkBack _ _ _ _ _ _) in *. clearbody s0.
  destruct (Nat.leb_spec nb 1) as [C1|C1].
  - replace (S N - nb)%nat with N by lia. destruct (fall_all N ltac:(lia) s0 G) as (s' & Ef & En & Es). rewrite Ef. cbn [bind]. rewrite En. change (1 - 1)%nat with 0%nat. rewrite set_res_ok by lia. cbn [bind].
    exists (upd B0 0 (y 0)). split; [apply filled_set; [split; [exact L0|intros n Hn; lia]|lia]|]. f_equal. unfold total. lra.
  - destruct (fall_ok (S N - nb) N s0 ltac:(lia) G) as (s' & Ef & G'). rewrite Ef. cbn [bind]. replace (N - (S N - nb))%nat with (nb - 1)%nat in * by lia. pose proof G' as (E1 & E2 & _). rewrite E1.
    replace (S (nb - 1) - 1)%nat with (nb - 1)%nat by lia. rewrite set_res_ok by lia. cbn [bind]. set (j := (nb - 2)%nat). replace (nb - 1)%nat with (S j) in * by (unfold j; lia).
    assert (F1 : filled (S j) (upd B0 (S j) (y (S j)))) by (apply filled_set; [split; [exact L0|intros n Hn; unfold j in Hn; lia]|unfold j; lia]).
    rewrite E2, (down j). replace (S j - 1)%nat with j by lia. pose proof F1 as [L1 _]. rewrite set_res_ok by (unfold j in *; lia). cbn [bind]. assert (F2 := filled_set j _ F1 ltac:(unfold j; lia)).
    destruct (Nat.eqb_spec (S j) 1) as [C2|C2].
    + replace j with 0%nat in * by lia. eexists. split; [exact F2|]. f_equal. destruct G' as (_ & _ & _ & _ & _ & E6). unfold total. change (1 - 1)%nat with 0%nat in E6. lra.
    + destruct (count_step j s' ltac:(lia) G') as (s1 & Ec & G1). rewrite E2 in Ec. rewrite Ec. cbn [bind]. apply (descend_ok j); [lia|unfold j; lia|exact G1|exact F2].
Qed.

(** ** the normalization *)
Lemma normalize_ok g B : Gamma (alpha + 1) = Ok g -> filled 0 B -> let sum := total * g * (1 / sqrt (x * (5 / 10))) * exp (- x) in
  0 < sum -> (forall n, (n < nb)%nat -> bI_enmten <= y n /\ bI_enmten * sum <= y n) ->
  exists B', normalize nb x B total = Ok B' /\ forall n, (n < nb)%nat -> nth_error B' n = Some (y n / sum).
Proof.
  intros Eg [L H] sum Ps Hy. unfold normalize. rewrite Eg. cbn [bind]. assert (Px : 0 < x * (5 / 10)) by lra. unfold rsqrt. destruct (Rlt_dec (x * (5 / 10)) 0) as [C|_]; [lra|]. cbn [bind].
  pose proof (sqrt_lt_R0 _ Px) as Pq. rewrite rdiv_ok by lra. cbn [bind]. fold sum. set (ta := if Rlt_dec 1 sum then bI_enmten * sum else bI_enmten).
  match goal with |- context [foldM ?f (seq 0 nb) ?i] => destruct (loop_ind _ f (fun k b => length b = nb /\ (forall n, (n < k)%nat -> nth_error b n = Some (y n / sum)) /\ forall n, (k <= n < nb)%nat -> nth_error b n = Some (y n)) 0 nb i) as (B' & E & _ & H' & _) end.
  - split; [exact L|]. split; [intros n Hn; lia|exact H].
  - intros k b Hk (L1 & H1 & H2). change (0 + k)%nat with k. rewrite (nth_ok _ _ _ _ (H2 k ltac:(lia))). cbn [bind]. destruct (Rlt_dec (y k) ta) as [C|_]; [exfalso; destruct (Hy k Hk); unfold ta in C; destruct (Rlt_dec 1 sum); lra|].
    rewrite rdiv_ok by lra. cbn [bind]. rewrite set_res_ok by lia. eexists. split; [reflexivity|]. split; [rewrite upd_length; exact L1|]. split; intros n Hn.
    + destruct (Nat.eq_dec n k) as [->|Ne]; [apply upd_same; lia|rewrite upd_other by lia; apply H1; lia].
    + rewrite upd_other by lia. apply H2. lia.
  - exists B'. split; [exact E|exact H'].
Qed.
End Recur.
