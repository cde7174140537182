From Coq Require Import ZArith Lia Bool.
From Verif Require Import IndexModel IndexSpec.
Local Open Scope Z_scope.
Ltac Zify.zify_post_hook ::= Z.div_mod_to_equations.

Lemma index_ext : forall a b, ix a = ix b -> iy a = iy b -> iz a = iz b ->
  ilevel a = ilevel b -> a = b.
Proof. intros [a b c d] [a' b' c' d']; simpl; intros; subst; reflexivity. Qed.

Lemma index_eqb_eq : forall a b, index_eqb a b = true <-> a = b.
Proof.
  intros a b; unfold index_eqb. rewrite !andb_true_iff, !Z.eqb_eq. split.
  - intros [[[H1 H2] H3] H4]. apply index_ext; assumption.
  - intros ->. tauto.
Qed.

Lemma case8 : forall w (P : Z -> Prop), 0 <= w < 8 ->
  P 0 -> P 1 -> P 2 -> P 3 -> P 4 -> P 5 -> P 6 -> P 7 -> P w.
Proof.
  intros w P H; intros.
  assert (E : w = 0 \/ w = 1 \/ w = 2 \/ w = 3 \/ w = 4 \/ w = 5 \/ w = 6 \/ w = 7)
    by lia.
  destruct E as [->|[->|[->|[->|[->|[->|[->| ->]]]]]]]; assumption.
Qed.

Lemma which_bits : forall w, 0 <= w < 8 ->
  (if Z.land w 1 =? 0 then 0 else 1) = w mod 2 /\
  (if Z.land w 2 =? 0 then 0 else 1) = (w / 2) mod 2 /\
  (if Z.land w 4 =? 0 then 0 else 1) = (w / 4) mod 2.
Proof.
  intros w Hw.
  apply (case8 w (fun w => (if Z.land w 1 =? 0 then 0 else 1) = w mod 2 /\
  (if Z.land w 2 =? 0 then 0 else 1) = (w / 2) mod 2 /\
  (if Z.land w 4 =? 0 then 0 else 1) = (w / 4) mod 2) Hw); vm_compute; auto.
Qed.

Lemma child_octant : forall w i, 0 <= w < 8 -> octant_of w i (child w i).
Proof.
  intros w i Hw. unfold octant_of, child; cbn [ix iy iz ilevel].
  rewrite !Z.shiftl_mul_pow2 by lia. change (2 ^ 1) with 2.
  destruct (which_bits w Hw) as (-> & -> & ->). lia.
Qed.

Lemma octant_unique : forall w p c c', octant_of w p c -> octant_of w p c' -> c = c'.
Proof. unfold octant_of; intros; apply index_ext; lia. Qed.

Lemma parent1_coords : forall i, ix (parent 1 i) = ix i / 2 /\
  iy (parent 1 i) = iy i / 2 /\ iz (parent 1 i) = iz i / 2.
Proof.
  intros i; unfold parent; cbn [ix iy iz]. rewrite !Z.shiftr_div_pow2 by lia.
  change (2^1) with 2. auto.
Qed.

Lemma parent_of_octant : forall w p c, 0 <= w < 8 -> 0 <= ilevel p ->
  octant_of w p c -> parent 1 c = p.
Proof.
  intros w p c Hw Hl (Hlv & Hx & Hy & Hz).
  destruct (parent1_coords c) as (Px & Py & Pz).
  apply index_ext; rewrite ?Px, ?Py, ?Pz; try lia.
  unfold parent; cbn [ilevel]. destruct (ilevel c >? 1) eqn:E; lia.
Qed.

Lemma which_child_nonneg : forall i, 0 <= ix i -> 0 <= iy i -> 0 <= iz i ->
  which_child i = ix i mod 2 + 2 * (iy i mod 2) + 4 * (iz i mod 2).
Proof.
  intros. unfold which_child. rewrite !Z.shiftl_mul_pow2 by lia.
  rewrite !Z.rem_mod_nonneg by lia. change (2^1) with 2; change (2^2) with 4. lia.
Qed.

Lemma which_of_octant : forall w p c, 0 <= w < 8 ->
  0 <= ix p -> 0 <= iy p -> 0 <= iz p ->
  octant_of w p c -> which_child c = w.
Proof.
  intros w p c Hw Hx Hy Hz (Hlv & Ex & Ey & Ez).
  rewrite which_child_nonneg by lia. lia.
Qed.

Lemma octant_of_parent : forall c, in_grid c -> 1 <= ilevel c ->
  octant_of (which_child c) (parent 1 c) c /\ 0 <= which_child c < 8.
Proof.
  intros c (Hl & Hx & Hy & Hz) Hl1.
  rewrite which_child_nonneg by lia.
  destruct (parent1_coords c) as (Px & Py & Pz).
  unfold octant_of. rewrite Px, Py, Pz.
  unfold parent; cbn [ilevel].
  repeat split; try lia.
  destruct (ilevel c >? 1) eqn:E; lia.
Qed.

Lemma pow2_step : forall n, 0 <= n -> 2 ^ (n + 1) = 2 * 2 ^ n.
Proof. intros. rewrite Z.pow_add_r by lia. change (2^1) with 2. lia. Qed.

Lemma octant_in_grid : forall w p c, 0 <= w < 8 -> 0 <= ilevel p ->
  octant_of w p c -> (in_grid p <-> in_grid c).
Proof.
  intros w p c Hw Hl (Hlv & Hx & Hy & Hz). unfold in_grid. rewrite Hlv.
  rewrite pow2_step by lia. nia.
Qed.

Lemma parent_parent : forall a b i, 0 <= a -> 0 <= b -> 0 <= ilevel i ->
  parent a (parent b i) = parent (a + b) i.
Proof.
  intros a b i Ha Hb Hl. apply index_ext; unfold parent; cbn [ix iy iz ilevel].
  1-3: rewrite Z.shiftr_shiftr by lia; f_equal; lia.
  destruct (ilevel i >? b) eqn:E1; destruct (ilevel i >? a + b) eqn:E2;
   try (destruct (ilevel i - b >? a) eqn:E3); try (destruct (0 >? a) eqn:E4); lia.
Qed.

Lemma parent_0 : forall i, 0 <= ilevel i -> parent 0 i = i.
Proof.
  intros i Hl. apply index_ext; unfold parent; cbn [ix iy iz ilevel];
    rewrite ?Z.shiftr_0_r; auto. destruct (ilevel i >? 0) eqn:E; lia.
Qed.

Lemma parent_level_nonneg : forall n i, 0 <= n -> 0 <= ilevel i -> 0 <= ilevel (parent n i).
Proof. intros; unfold parent; cbn [ilevel]. destruct (ilevel i >? n) eqn:E; lia. Qed.

Lemma parent_iter : forall n i, 0 <= ilevel i ->
  parent (Z.of_nat n) i = Nat.iter n (parent 1) i.
Proof.
  induction n as [|n IH]; intros i Hl.
  - apply parent_0; assumption.
  - rewrite Nat2Z.inj_succ. cbn [Nat.iter nat_rect]. change (nat_rect _ i (fun _ => parent 1) n) with (Nat.iter n (parent 1) i).
    rewrite <- IH by assumption. rewrite parent_parent by lia. f_equal. lia.
Qed.

Lemma parent_in_grid : forall n i, 0 <= n -> in_grid i -> in_grid (parent n i).
Proof.
  intros n i Hn. replace n with (Z.of_nat (Z.to_nat n)) by lia.
  generalize (Z.to_nat n) as k; clear n Hn. intros k H.
  rewrite parent_iter by (destruct H; assumption).
  induction k as [|k IH]; simpl; [assumption|].
  set (j := Nat.iter k (parent 1) i) in *.
  destruct (Z.eq_dec (ilevel j) 0) as [E|E].
  - destruct IH as (Hl & Hx & Hy & Hz). rewrite E in *. change (2^0) with 1 in *.
    destruct (parent1_coords j) as (Px & Py & Pz).
    unfold in_grid. rewrite Px, Py, Pz. unfold parent; cbn [ilevel]. rewrite E. simpl.
    lia.
  - assert (Hj : 1 <= ilevel j) by (destruct IH; lia).
    destruct (octant_of_parent j IH Hj) as [Ho Hw].
    eapply (octant_in_grid (which_child j) (parent 1 j) j) in Ho; auto.
    + tauto.
    + apply parent_level_nonneg; lia.
Qed.

Lemma level_of_parent : forall n i, 0 <= n <= ilevel i -> ilevel (parent n i) = ilevel i - n.
Proof. intros; unfold parent; cbn [ilevel]. destruct (ilevel i >? n) eqn:E; lia. Qed.

Lemma child_fits : forall w i, 0 <= w < 8 -> in_grid i -> ilevel i <= 30 -> fits_int32 (child w i).
Proof.
  intros w i Hw Hg Hl.
  pose proof (child_octant w i Hw) as (Hlv & Hx & Hy & Hz).
  destruct Hg as (Hl0 & Gx & Gy & Gz).
  assert (2 ^ ilevel i <= 2 ^ 30) by (apply Z.pow_le_mono_r; lia).
  change (2^30) with 1073741824 in *.
  unfold fits_int32, int32. change (2^31) with 2147483648. lia.
Qed.
