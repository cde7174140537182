From Coq Require Import NArith List Lia Bool.
From Verif Require Import MortonModel.
Import ListNotations.
Local Open Scope N_scope.

(** Every line of [split] distributes over bitwise or. *)
Lemma shl64_lor : forall a b n, shl64 (N.lor a b) n = N.lor (shl64 a n) (shl64 b n).
Proof.
  intros a b n. unfold shl64. rewrite <- !N.land_ones. rewrite N.shiftl_lor.
  apply N.bits_inj; intros j. rewrite !N.land_spec, !N.lor_spec, !N.land_spec.
  destruct (N.testbit (N.shiftl a n) j), (N.testbit (N.shiftl b n) j), (N.testbit (N.ones 64) j); reflexivity.
Qed.

Lemma spread_lor : forall n m a b, spread n m (N.lor a b) = N.lor (spread n m a) (spread n m b).
Proof.
  intros. unfold spread. rewrite shl64_lor. apply N.bits_inj; intros j.
  rewrite !N.land_spec, !N.lor_spec, !N.land_spec, !N.lor_spec.
  destruct (N.testbit a j), (N.testbit b j), (N.testbit (shl64 a n) j), (N.testbit (shl64 b n) j), (N.testbit m j); reflexivity.
Qed.

Lemma split_lor : forall a b, split (N.lor a b) = N.lor (split a) (split b).
Proof.
  intros. unfold split. cbv zeta.
  rewrite (N.land_lor_distr_l a b). rewrite !spread_lor. reflexivity.
Qed.

(** Bit list of a number. *)
Fixpoint bits_or (n : nat) (x : N) : N :=
  match n with
  | O => 0
  | S n' => N.lor (if N.testbit x (N.of_nat n') then 2 ^ N.of_nat n' else 0) (bits_or n' x)
  end.

Lemma bits_or_spec : forall n x j, N.testbit (bits_or n x) j = N.testbit x j && (j <? N.of_nat n).
Proof.
  induction n as [|n IH]; intros x j.
  - cbn [bits_or]. rewrite N.bits_0. destruct (j <? N.of_nat 0) eqn:E; [apply N.ltb_lt in E; lia|].
    rewrite andb_false_r. reflexivity.
  - cbn [bits_or]. rewrite N.lor_spec, IH.
    destruct (N.eq_dec j (N.of_nat n)) as [->|Hj].
    + replace (N.of_nat n <? N.of_nat (S n)) with true by (symmetry; apply N.ltb_lt; lia).
      rewrite N.ltb_irrefl, andb_false_r, andb_true_r, orb_false_r.
      destruct (N.testbit x (N.of_nat n)) eqn:E.
      * apply N.pow2_bits_true.
      * apply N.bits_0.
    + assert (E0 : N.testbit (if N.testbit x (N.of_nat n) then 2 ^ N.of_nat n else 0) j = false).
      { destruct (N.testbit x (N.of_nat n)); [apply N.pow2_bits_false; auto|apply N.bits_0]. }
      rewrite E0. cbn [orb]. f_equal.
      apply eq_true_iff_eq. rewrite !N.ltb_lt. lia.
Qed.

Lemma bits_above : forall x n j, x < 2 ^ n -> n <= j -> N.testbit x j = false.
Proof.
  intros x n j Hx Hj. destruct (N.eq_dec x 0) as [->|Hx0]; [apply N.bits_0|].
  apply N.bits_above_log2. apply N.log2_lt_pow2; [lia|].
  apply N.lt_le_trans with (2 ^ n); [assumption|apply N.pow_le_mono_r; lia].
Qed.

Lemma bits_or_id : forall x, x < 2 ^ 21 -> bits_or 21 x = x.
Proof.
  intros x Hx. apply N.bits_inj; intros j. rewrite bits_or_spec.
  destruct (j <? N.of_nat 21) eqn:E; [apply andb_true_r|].
  apply N.ltb_ge in E. rewrite (bits_above x 21 j) by (auto; lia). reflexivity.
Qed.

(** [split] moves bit i to bit 3i: checked on each single bit. *)
Definition moved (n : nat) (x : N) : N :=
  (fix go n := match n with
   | O => 0
   | S n' => N.lor (if N.testbit x (N.of_nat n') then 2 ^ (3 * N.of_nat n') else 0) (go n')
   end) n.

Lemma split_single : forall n, (n < 21)%nat -> split (2 ^ N.of_nat n) = 2 ^ (3 * N.of_nat n).
Proof.
  assert (H : forallb (fun n => split (2 ^ N.of_nat n) =? 2 ^ (3 * N.of_nat n)) (seq 0 21) = true)
    by (vm_compute; reflexivity).
  intros n Hn. rewrite forallb_forall in H. apply N.eqb_eq. apply H. apply in_seq. lia.
Qed.

Lemma split_moved : forall n x, (n <= 21)%nat -> split (bits_or n x) = moved n x.
Proof.
  induction n as [|n IH]; intros x Hn; [reflexivity|].
  cbn [bits_or moved]. rewrite split_lor, IH by lia. f_equal.
  destruct (N.testbit x (N.of_nat n)); [apply split_single; lia|reflexivity].
Qed.

Lemma moved_bits : forall n x j c, c < 3 ->
  N.testbit (moved n x) (3 * j + c) = (c =? 0) && N.testbit x j && (j <? N.of_nat n).
Proof.
  induction n as [|n IH]; intros x j c Hc.
  - cbn [moved]. rewrite N.bits_0. destruct (j <? N.of_nat 0) eqn:E; [apply N.ltb_lt in E; lia|].
    rewrite andb_false_r. reflexivity.
  - cbn [moved]. change (N.lor ?a ((fix go n := match n with | O => 0 | S n' => _ end) n)) with (N.lor a (moved n x)).
    rewrite N.lor_spec, IH by assumption.
    destruct (N.eq_dec (3 * j + c) (3 * N.of_nat n)) as [E|E].
    + assert (c = 0 /\ j = N.of_nat n) by lia. destruct H as [-> ->].
      replace (N.of_nat n <? N.of_nat (S n)) with true by (symmetry; apply N.ltb_lt; lia).
      rewrite N.ltb_irrefl, andb_false_r, orb_false_r, andb_true_r. cbn [N.eqb andb].
      rewrite N.add_0_r. destruct (N.testbit x (N.of_nat n)); [apply N.pow2_bits_true|apply N.bits_0].
    + assert (E0 : N.testbit (if N.testbit x (N.of_nat n) then 2 ^ (3 * N.of_nat n) else 0) (3 * j + c) = false).
      { destruct (N.testbit x (N.of_nat n)); [apply N.pow2_bits_false; auto|apply N.bits_0]. }
      rewrite E0. cbn [orb]. destruct (c =? 0) eqn:C; [|reflexivity]. apply N.eqb_eq in C.
      cbn [andb]. f_equal. apply eq_true_iff_eq. rewrite !N.ltb_lt. lia.
Qed.

Lemma split_bits : forall x j c, x < 2 ^ 21 -> c < 3 ->
  N.testbit (split x) (3 * j + c) = (c =? 0) && N.testbit x j.
Proof.
  intros x j c Hx Hc. rewrite <- (bits_or_id x Hx) at 1. rewrite split_moved by lia.
  rewrite moved_bits by assumption.
  destruct (j <? N.of_nat 21) eqn:E; [apply andb_true_r|].
  apply N.ltb_ge in E. rewrite (bits_above x 21 j) by (auto; lia). rewrite !andb_false_r. reflexivity.
Qed.

Lemma shl64_bits : forall a n j, j < 64 -> N.testbit (shl64 a n) j = (n <=? j) && N.testbit a (j - n).
Proof.
  intros a n j Hj. unfold shl64. rewrite N.mod_pow2_bits_low by assumption.
  destruct (n <=? j) eqn:E.
  - apply N.leb_le in E. rewrite N.shiftl_spec_high' by assumption. reflexivity.
  - apply N.leb_gt in E. rewrite N.shiftl_spec_low by assumption. reflexivity.
Qed.
Lemma shl64_high : forall a n j, 64 <= j -> N.testbit (shl64 a n) j = false.
Proof. intros. unfold shl64. apply N.mod_pow2_bits_high. assumption. Qed.

Lemma morton_bits : forall x y z, x < 2 ^ 21 -> y < 2 ^ 21 -> z < 2 ^ 21 -> forall j,
  N.testbit (morton_key x y z) (3 * j) = N.testbit x j /\
  N.testbit (morton_key x y z) (3 * j + 1) = N.testbit y j /\
  N.testbit (morton_key x y z) (3 * j + 2) = N.testbit z j.
Proof.
  intros x y z Hx Hy Hz j.
  assert (G : forall c, c < 3 -> N.testbit (morton_key x y z) (3 * j + c) =
     if c =? 0 then N.testbit x j else if c =? 1 then N.testbit y j else N.testbit z j).
  { intros c Hc. unfold morton_key. rewrite !N.lor_spec.
    rewrite (split_bits x j c Hx Hc).
    destruct (N.ltb_spec (3 * j + c) 64) as [Hlt|Hge].
    - rewrite !shl64_bits by assumption.
      assert (Hc3 : c = 0 \/ c = 1 \/ c = 2) by lia.
      destruct Hc3 as [->|[->| ->]].
      + assert (Y : (1 <=? 3 * j + 0) && N.testbit (split y) (3 * j + 0 - 1) = false).
        { destruct (N.leb_spec 1 (3 * j + 0)) as [A|A]; [|reflexivity].
          replace (3 * j + 0 - 1) with (3 * (j - 1) + 2) by lia.
          rewrite split_bits by (auto; lia). reflexivity. }
        assert (Z : (2 <=? 3 * j + 0) && N.testbit (split z) (3 * j + 0 - 2) = false).
        { destruct (N.leb_spec 2 (3 * j + 0)) as [A|A]; [|reflexivity].
          replace (3 * j + 0 - 2) with (3 * (j - 1) + 1) by lia.
          rewrite split_bits by (auto; lia). reflexivity. }
        rewrite Y, Z, !orb_false_r. reflexivity.
      + assert (Z : (2 <=? 3 * j + 1) && N.testbit (split z) (3 * j + 1 - 2) = false).
        { destruct (N.leb_spec 2 (3 * j + 1)) as [A|A]; [|reflexivity].
          replace (3 * j + 1 - 2) with (3 * (j - 1) + 2) by lia.
          rewrite split_bits by (auto; lia). reflexivity. }
        rewrite Z. replace (1 <=? 3 * j + 1) with true by (symmetry; apply N.leb_le; lia).
        replace (3 * j + 1 - 1) with (3 * j + 0) by lia. rewrite split_bits by (auto; lia).
        cbn. apply orb_false_r.
      + replace (1 <=? 3 * j + 2) with true by (symmetry; apply N.leb_le; lia).
        replace (2 <=? 3 * j + 2) with true by (symmetry; apply N.leb_le; lia).
        replace (3 * j + 2 - 1) with (3 * j + 1) by lia. replace (3 * j + 2 - 2) with (3 * j + 0) by lia.
        rewrite !split_bits by (auto; lia). reflexivity.
    - rewrite !shl64_high by assumption. rewrite !orb_false_r.
      assert (21 <= j) by lia.
      rewrite !(fun a Ha => bits_above a 21 j Ha H) by assumption.
      rewrite andb_false_r. destruct (c =? 0); [reflexivity|destruct (c =? 1); reflexivity]. }
  repeat split.
  - rewrite <- (N.add_0_r (3 * j)). rewrite G by lia. reflexivity.
  - rewrite G by lia. reflexivity.
  - rewrite G by lia. reflexivity.
Qed.

Lemma div3 : forall k, exists q, k = 3 * q \/ k = 3 * q + 1 \/ k = 3 * q + 2.
Proof.
  intros k. pose proof (N.div_mod k 3) as E. pose proof (N.mod_lt k 3) as M.
  specialize (E ltac:(discriminate)). specialize (M ltac:(discriminate)).
  exists (k / 3). revert E M. generalize (k / 3) (k mod 3). intros; lia.
Qed.

(** A number is determined by its bits 3j, 3j+1, 3j+2. *)
Lemma bits3_inj : forall a b, (forall j, N.testbit a (3 * j) = N.testbit b (3 * j) /\
  N.testbit a (3 * j + 1) = N.testbit b (3 * j + 1) /\ N.testbit a (3 * j + 2) = N.testbit b (3 * j + 2)) -> a = b.
Proof.
  intros a b H. apply N.bits_inj; intros k.
  destruct (div3 k) as (q & [E|[E|E]]); destruct (H q) as (A & B & C); subst k; assumption.
Qed.

Lemma morton_inj : forall x y z x' y' z',
  x < 2 ^ 21 -> y < 2 ^ 21 -> z < 2 ^ 21 -> x' < 2 ^ 21 -> y' < 2 ^ 21 -> z' < 2 ^ 21 ->
  morton_key x y z = morton_key x' y' z' -> x = x' /\ y = y' /\ z = z'.
Proof.
  intros x y z x' y' z' Hx Hy Hz Hx' Hy' Hz' E.
  repeat split; apply N.bits_inj; intros j;
  pose proof (morton_bits x y z Hx Hy Hz j) as (A & B & C);
  pose proof (morton_bits x' y' z' Hx' Hy' Hz' j) as (A' & B' & C'); congruence.
Qed.

Lemma lt_pow2_bits : forall a n, (forall j, n <= j -> N.testbit a j = false) -> a < 2 ^ n.
Proof.
  intros a n H. destruct (N.eq_dec a 0) as [->|Ha]; [apply N.neq_0_lt_0, N.pow_nonzero; lia|].
  apply N.log2_lt_pow2; [lia|].
  destruct (N.ltb_spec (N.log2 a) n) as [C|C]; [assumption|].
  specialize (H _ C). rewrite N.bit_log2 in H by assumption. discriminate.
Qed.

Lemma morton_lt : forall l x y z, l <= 21 -> x < 2 ^ l -> y < 2 ^ l -> z < 2 ^ l ->
  morton_key x y z < 2 ^ (3 * l).
Proof.
  intros l x y z Hl Hx Hy Hz.
  assert (M : 2 ^ l <= 2 ^ 21) by (apply N.pow_le_mono_r; lia).
  apply lt_pow2_bits. intros k Hk.
  destruct (div3 k) as (q & D).
  assert (Hq : l <= q) by lia.
  destruct (morton_bits x y z ltac:(lia) ltac:(lia) ltac:(lia) q) as (A & B & C).
  destruct D as [D|[D|D]]; subst k; rewrite ?A, ?B, ?C; eapply bits_above; eauto.
Qed.

Lemma testbit_double : forall x b j, b < 2 ->
  N.testbit (2 * x + b) j = if j =? 0 then b =? 1 else N.testbit x (j - 1).
Proof.
  intros x b j Hb. assert (Hb2 : b = 0 \/ b = 1) by lia.
  destruct (N.eqb_spec j 0) as [->|Hj].
  - destruct Hb2 as [->| ->]; [rewrite N.add_0_r; apply N.testbit_even_0|apply N.testbit_odd_0].
  - replace j with (N.succ (j - 1)) at 1 by lia.
    destruct Hb2 as [->| ->].
    + rewrite N.add_0_r. apply N.testbit_even_succ. lia.
    + apply N.testbit_odd_succ. lia.
Qed.

Lemma morton_child : forall x y z w, x < 2 ^ 20 -> y < 2 ^ 20 -> z < 2 ^ 20 -> w < 8 ->
  morton_key (2 * x + w mod 2) (2 * y + (w / 2) mod 2) (2 * z + (w / 4) mod 2)
  = 8 * morton_key x y z + w.
Proof.
  intros x y z w Hx Hy Hz Hw.
  assert (P : 2 ^ 21 = 2 * 2 ^ 20) by reflexivity.
  pose proof (N.mod_lt w 2 ltac:(lia)) as M1. pose proof (N.mod_lt (w / 2) 2 ltac:(lia)) as M2.
  pose proof (N.mod_lt (w / 4) 2 ltac:(lia)) as M3.
  apply bits3_inj. intros j.
  destruct (morton_bits (2 * x + w mod 2) (2 * y + (w / 2) mod 2) (2 * z + (w / 4) mod 2)
     ltac:(lia) ltac:(lia) ltac:(lia) j) as (-> & -> & ->).
  rewrite !testbit_double by assumption.
  assert (B : forall k, N.testbit (8 * morton_key x y z + w) k =
     if k <? 3 then N.testbit w k else N.testbit (morton_key x y z) (k - 3)).
  { intros k. replace (8 * morton_key x y z + w) with (N.lor (N.shiftl (morton_key x y z) 3) w).
    - rewrite N.lor_spec. destruct (N.ltb_spec k 3) as [C|C].
      + rewrite N.shiftl_spec_low by assumption. reflexivity.
      + rewrite N.shiftl_spec_high' by assumption.
        rewrite (bits_above w 3 k) by (auto; change (2^3) with 8; lia). apply orb_false_r.
    - assert (L : N.land (N.shiftl (morton_key x y z) 3) w = 0).
      { apply N.bits_inj; intros i. rewrite N.land_spec, N.bits_0.
        destruct (N.ltb_spec i 3) as [C|C].
        - rewrite N.shiftl_spec_low by assumption. reflexivity.
        - rewrite (bits_above w 3 i) by (auto; change (2^3) with 8; lia). apply andb_false_r. }
      rewrite <- N.lxor_lor by exact L. rewrite <- N.add_nocarry_lxor by exact L.
      rewrite N.shiftl_mul_pow2. change (2 ^ 3) with 8. lia. }
  rewrite !B.
  destruct (N.eqb_spec j 0) as [->|Hj].
  - assert (W : w = 0 \/ w = 1 \/ w = 2 \/ w = 3 \/ w = 4 \/ w = 5 \/ w = 6 \/ w = 7) by lia.
    destruct W as [->|[->|[->|[->|[->|[->|[->| ->]]]]]]]; vm_compute; auto.
  - destruct (morton_bits x y z ltac:(lia) ltac:(lia) ltac:(lia) (j - 1)) as (A1 & A2 & A3).
    replace (3 * j <? 3) with false by (symmetry; apply N.ltb_ge; lia).
    replace (3 * j + 1 <? 3) with false by (symmetry; apply N.ltb_ge; lia).
    replace (3 * j + 2 <? 3) with false by (symmetry; apply N.ltb_ge; lia).
    replace (3 * j - 3) with (3 * (j - 1)) by lia.
    replace (3 * j + 1 - 3) with (3 * (j - 1) + 1) by lia.
    replace (3 * j + 2 - 3) with (3 * (j - 1) + 2) by lia. auto.
Qed.
