(** Proofs about the geometry. *)
From Coq Require Import ZArith QArith Qround Lqa List Bool Lia Permutation.
From Verif Require Import Base ListFacts IndexModel IndexSpec IndexProofs GridModel GridSpec GridProofs ArrayModel ArraySpec RefineModel RefineSpec TreeModel TreeFacts RefineProps GeomModel GeomSpec.
Import ListNotations.
Open Scope Q_scope.

Lemma inj_lt : forall a b, inject_Z a < inject_Z b <-> (a < b)%Z. Proof. intros. rewrite <- Zlt_Qlt. reflexivity. Qed.
Lemma inj_le : forall a b, inject_Z a <= inject_Z b <-> (a <= b)%Z. Proof. intros. rewrite <- Zle_Qle. reflexivity. Qed.
Lemma inj_plus : forall a b, inject_Z (a + b) == inject_Z a + inject_Z b. Proof. intros. rewrite inject_Z_plus. reflexivity. Qed.
Lemma inj_mult : forall a b, inject_Z (a * b) == inject_Z a * inject_Z b. Proof. intros. rewrite inject_Z_mult. reflexivity. Qed.
Lemma pow_pos : forall L, (0 <= L)%Z -> 0 < inject_Z (2 ^ L). Proof. intros L H. change 0 with (inject_Z 0). apply inj_lt. apply Z.pow_pos_nonneg; lia. Qed.

Lemma Qltb_lt : forall a b, Qltb a b = true <-> a < b.
Proof. intros a b. unfold Qltb. rewrite negb_true_iff. split; intros H; [apply Qnot_le_lt; intros X; apply Qle_bool_iff in X; congruence|]. destruct (Qle_bool b a) eqn:E; [|reflexivity]. apply Qle_bool_iff in E. lra. Qed.
Lemma Qltb_ge : forall a b, Qltb a b = false <-> b <= a.
Proof. intros a b. unfold Qltb. rewrite negb_false_iff. apply Qle_bool_iff. Qed.

(** ** One axis *)
Section Part.
Variables low size : Q.
Hypothesis Hs : 0 < size.
Definition scaled (L : Z) (x : Q) : Q := inject_Z (2 ^ L) * (x - low) * (1 / size).

Lemma scaled_pos : forall L x, (0 <= L)%Z -> let h := size / inject_Z (2 ^ L) in 0 < h /\ scaled L x * h == x - low.
Proof.
  intros L x HL h. pose proof (pow_pos L HL) as P. split.
  - apply Qlt_shift_div_l; [assumption|]. lra.
  - unfold scaled, h. field. split; lra.
Qed.

Lemma le_scaled : forall L x k, (0 <= L)%Z -> low + inject_Z k * (size / inject_Z (2 ^ L)) <= x <-> inject_Z k <= scaled L x.
Proof.
  intros L x k HL. destruct (scaled_pos L x HL) as [P E]. set (h := size / inject_Z (2 ^ L)) in *. set (t := scaled L x) in *. rewrite <- (Qmult_le_r (inject_Z k) t h P). rewrite E. split; intros; lra.
Qed.
Lemma lt_scaled : forall L x k, (0 <= L)%Z -> x < low + inject_Z k * (size / inject_Z (2 ^ L)) <-> scaled L x < inject_Z k.
Proof.
  intros L x k HL. pose proof (le_scaled L x k HL) as H. split; intros X; apply Qnot_le_lt; intros Y; apply H in Y; lra.
Qed.
Lemma ge_scaled : forall L x k, (0 <= L)%Z -> x <= low + inject_Z k * (size / inject_Z (2 ^ L)) <-> scaled L x <= inject_Z k.
Proof.
  intros L x k HL. destruct (scaled_pos L x HL) as [P E]. set (h := size / inject_Z (2 ^ L)) in *. set (t := scaled L x) in *. rewrite <- (Qmult_le_r t (inject_Z k) h P). rewrite E. split; intros; lra.
Qed.

Lemma part_scaled : forall L k x, (0 <= L)%Z -> in_part low size L k x <->
  inject_Z k <= scaled L x /\ (scaled L x < inject_Z (k + 1) \/ ((k + 1 = 2 ^ L)%Z /\ scaled L x <= inject_Z (k + 1))).
Proof. intros L k x HL. unfold in_part. cbv zeta. rewrite le_scaled, lt_scaled, ge_scaled by assumption. reflexivity. Qed.

Lemma domain_scaled : forall L x, (0 <= L)%Z -> (low <= x <= low + size) <-> 0 <= scaled L x <= inject_Z (2 ^ L).
Proof.
  intros L x HL. pose proof (le_scaled L x 0 HL) as A. pose proof (ge_scaled L x (2 ^ L) HL) as B. change (inject_Z 0) with 0 in A. pose proof (pow_pos L HL) as P.
  assert (E : inject_Z (2 ^ L) * (size / inject_Z (2 ^ L)) == size) by (field; lra). rewrite E in B. assert (E0 : low + 0 * (size / inject_Z (2 ^ L)) == low) by ring. rewrite E0 in A. tauto.
Qed.

(** The part of a point. *)
Definition part_of (L : Z) (x : Q) : Z := Z.min (2 ^ L - 1) (Qfloor (scaled L x)).

Lemma part_exists : forall L x, (0 <= L)%Z -> low <= x <= low + size -> (0 <= part_of L x < 2 ^ L)%Z /\ in_part low size L (part_of L x) x.
Proof.
  intros L x HL Hx. apply (domain_scaled L x HL) in Hx. set (t := scaled L x) in *. pose proof (Qfloor_le t) as F1. pose proof (Qlt_floor t) as F2.
  assert (P : (0 < 2 ^ L)%Z) by (apply Z.pow_pos_nonneg; lia).
  assert (F0 : (0 <= Qfloor t)%Z). { change 0%Z with (Qfloor 0). apply Qfloor_resp_le. lra. }
  unfold part_of. fold t. split; [lia|]. apply part_scaled; [assumption|]. fold t. destruct (Z.min_spec (2 ^ L - 1) (Qfloor t)) as [[A ->]|[A ->]].
  - split. { apply Qle_trans with (inject_Z (Qfloor t)); [apply inj_le; lia|assumption]. } right. replace (2 ^ L - 1 + 1)%Z with (2 ^ L)%Z by lia. split; [reflexivity|]. lra.
  - split; [assumption|]. left. assumption.
Qed.

Lemma part_unique : forall L x k k', (0 <= L)%Z -> in_part low size L k x -> in_part low size L k' x -> (0 <= k < 2 ^ L)%Z -> (0 <= k' < 2 ^ L)%Z -> k = k'.
Proof.
  intros L x k k' HL H H' Hk Hk'. apply part_scaled in H; [|assumption]. apply part_scaled in H'; [|assumption]. set (t := scaled L x) in *.
  assert (D : forall a b, (0 <= a < 2 ^ L)%Z -> (0 <= b < 2 ^ L)%Z -> inject_Z a <= t -> (t < inject_Z (b + 1) \/ ((b + 1 = 2 ^ L)%Z /\ t <= inject_Z (b + 1))) -> (a <= b)%Z).
  { intros a b Ha Hb X [Y|[Y Z]]; [|lia]. assert (W : inject_Z a < inject_Z (b + 1)) by (eapply Qle_lt_trans; eassumption). apply (proj1 (inj_lt _ _)) in W. lia. }
  destruct H as [A B], H' as [A' B']. apply Z.le_antisymm; [apply (D k k')|apply (D k' k)]; assumption.
Qed.

Lemma scaled_S : forall L x, (0 <= L)%Z -> scaled (L + 1) x == 2 * scaled L x.
Proof. intros L x HL. unfold scaled. rewrite Z.pow_add_r by lia. rewrite inj_mult. change (inject_Z (2 ^ 1)) with 2. ring. Qed.

(** Halving. *)
Lemma part_children : forall L k x, (0 <= L)%Z -> (in_part low size L k x <-> in_part low size (L + 1) (2 * k) x \/ in_part low size (L + 1) (2 * k + 1) x) /\
  ~ (in_part low size (L + 1) (2 * k) x /\ in_part low size (L + 1) (2 * k + 1) x).
Proof.
  intros L k x HL. rewrite !part_scaled by lia. set (t := scaled L x). set (t2 := scaled (L + 1) x). assert (Et : t2 == 2 * t) by (apply scaled_S; assumption).
  rewrite Z.pow_add_r by lia. change (2 ^ 1)%Z with 2%Z.
  assert (E1 : inject_Z (2 * k) == 2 * inject_Z k) by (rewrite inj_mult; reflexivity).
  assert (E2 : inject_Z (2 * k + 1) == 2 * inject_Z k + 1) by (rewrite inj_plus, E1; reflexivity).
  assert (E3 : inject_Z (2 * k + 1 + 1) == 2 * inject_Z k + 2) by (rewrite inj_plus, E2; change (inject_Z 1) with 1; ring).
  assert (E4 : inject_Z (k + 1) == inject_Z k + 1) by (rewrite inj_plus; reflexivity).
  split.
  - split.
    + intros [A [B|[B C]]].
      * destruct (Qlt_le_dec t2 (inject_Z (2 * k + 1))) as [D|D]; [left|right]; (split; [lra|left; lra]).
      * destruct (Qlt_le_dec t2 (inject_Z (2 * k + 1))) as [D|D]; [left; split; [lra|left; lra]|right; split; [lra|right; split; [lia|lra]]].
    + intros [[A [B|[B C]]]|[A [B|[B C]]]].
      * split; [lra|left; lra].
      * lia.
      * split; [lra|left; lra].
      * split; [lra|right; split; [lia|lra]].
  - intros [[A [B|[B C]]] [A' _]]; [lra|]. lia.
Qed.

Lemma half_scaled : forall L k x, (0 <= L)%Z -> x < low + (inject_Z k + (1 # 2)) * (size / inject_Z (2 ^ L)) <-> scaled (L + 1) x < inject_Z (2 * k + 1).
Proof.
  intros L k x HL. rewrite <- lt_scaled by lia. assert (E : low + (inject_Z k + (1 # 2)) * (size / inject_Z (2 ^ L)) == low + inject_Z (2 * k + 1) * (size / inject_Z (2 ^ (L + 1)))).
  { rewrite Z.pow_add_r by lia. rewrite inj_plus, !inj_mult. change (inject_Z (2 ^ 1)) with 2. change (inject_Z 2) with 2. change (inject_Z 1) with 1. field. pose proof (pow_pos L HL). lra. }
  rewrite E. reflexivity.
Qed.

(** The refinement test picks the half. *)
Lemma part_test : forall L k x, (0 <= L)%Z -> in_part low size L k x ->
  in_part low size (L + 1) (2 * k + (if Qltb x (low + (inject_Z k + (1 # 2)) * (size / inject_Z (2 ^ L))) then 0 else 1)) x.
Proof.
  intros L k x HL H. destruct (part_children L k x HL) as [C _]. apply C in H.
  destruct (Qltb x (low + (inject_Z k + (1 # 2)) * (size / inject_Z (2 ^ L)))) eqn:T.
  - apply Qltb_lt in T. apply half_scaled in T; [|assumption]. rewrite Z.add_0_r. destruct H as [H|H]; [assumption|]. apply part_scaled in H; [|lia]. lra.
  - apply Qltb_ge in T. assert (T' : inject_Z (2 * k + 1) <= scaled (L + 1) x). { apply Qnot_lt_le. intros X. apply half_scaled in X; [lra|assumption]. }
    destruct H as [H|H]; [|assumption]. apply part_scaled in H; [|lia]. destruct H as [A [B|[B D]]]; [lra|]. rewrite Z.pow_add_r in B by lia. change (2 ^ 1)%Z with 2%Z in B. lia.
Qed.
End Part.

(** ** Boxes *)
Lemma icoord_child : forall a w i, (0 <= w < 8)%Z -> icoord a (child w i) = (2 * icoord a i + match a with AX => w mod 2 | AY => (w / 2) mod 2 | AZ => (w / 4) mod 2 end)%Z.
Proof.
  intros a w i Hw. destruct (child_octant w i Hw) as (_ & A & B & C). destruct a; assumption.
Qed.

Lemma ilevel_child : forall w i, ilevel (child w i) = (ilevel i + 1)%Z. Proof. reflexivity. Qed.

Definition whichof (bx by_ bz : Z) : Z := (bx + 2 * by_ + 4 * bz)%Z.
Lemma which_bits : forall bx by_ bz, (0 <= bx < 2)%Z -> (0 <= by_ < 2)%Z -> (0 <= bz < 2)%Z -> let w := whichof bx by_ bz in
  (0 <= w < 8 /\ w mod 2 = bx /\ (w / 2) mod 2 = by_ /\ (w / 4) mod 2 = bz)%Z.
Proof.
  intros bx by_ bz Hx Hy Hz. assert (Cx : (bx = 0 \/ bx = 1)%Z) by lia. assert (Cy : (by_ = 0 \/ by_ = 1)%Z) by lia. assert (Cz : (bz = 0 \/ bz = 1)%Z) by lia.
  destruct Cx as [->| ->], Cy as [->| ->], Cz as [->| ->]; vm_compute; repeat split; congruence.
Qed.

Lemma which_inj : forall w w', (0 <= w < 8)%Z -> (0 <= w' < 8)%Z -> (w mod 2 = w' mod 2 -> (w / 2) mod 2 = (w' / 2) mod 2 -> (w / 4) mod 2 = (w' / 4) mod 2 -> w = w')%Z.
Proof. intros w w' H H' A B C. Z.div_mod_to_equations. lia. Qed.

Lemma index_coords : forall i j, ilevel i = ilevel j -> (forall a, icoord a i = icoord a j) -> i = j.
Proof. intros [x y z l] [x' y' z' l'] H C. pose proof (C AX). pose proof (C AY). pose proof (C AZ). cbn in *. congruence. Qed.
Lemma in_grid_coords : forall i, in_grid i <-> (0 <= ilevel i)%Z /\ forall a, (0 <= icoord a i < 2 ^ ilevel i)%Z.
Proof.
  intros i. unfold in_grid. split.
  - intros (H & A & B & C). split; [assumption|]. intros []; assumption.
  - intros (H & A). split; [assumption|]. split; [apply (A AX)|split; [apply (A AY)|apply (A AZ)]].
Qed.

Section Boxes.
Variable d : domain.
Hypothesis Hs : 0 < dsize d.
Notation lo a := (coord a (dlow d)).

Definition index_of (L : Z) (p : point) : index :=
  mkIndex (part_of (lo AX) (dsize d) L (px p)) (part_of (lo AY) (dsize d) L (py p)) (part_of (lo AZ) (dsize d) L (pz p)) L.
Lemma icoord_index_of : forall a L p, icoord a (index_of L p) = part_of (lo a) (dsize d) L (coord a p). Proof. intros [] L p; reflexivity. Qed.

Lemma box_exists : forall L p, (0 <= L)%Z -> in_domain d p -> in_grid (index_of L p) /\ in_box d (index_of L p) p.
Proof.
  intros L p HL Hp. split.
  - apply in_grid_coords. split; [assumption|]. intros a. rewrite icoord_index_of. apply part_exists; [assumption|assumption|apply Hp].
  - intros a. rewrite icoord_index_of. apply part_exists; [assumption|assumption|apply Hp].
Qed.
Lemma box_unique : forall i j p, in_grid i -> in_grid j -> ilevel i = ilevel j -> in_box d i p -> in_box d j p -> i = j.
Proof.
  intros i j p Gi Gj El Bi Bj. apply in_grid_coords in Gi, Gj. destruct Gi as [L Gi], Gj as [_ Gj]. apply index_coords; [assumption|]. intros a.
  specialize (Bi a). specialize (Bj a). rewrite <- El in Bj, Gj. eapply part_unique; try eassumption; [apply Gi|apply Gj].
Qed.

Lemma box_children : forall i p, (0 <= ilevel i)%Z -> in_box d i p <-> exists w, (0 <= w < 8)%Z /\ in_box d (child w i) p.
Proof.
  intros i p HL. split.
  - intros H. assert (C : forall a, exists b, (0 <= b < 2)%Z /\ in_part (lo a) (dsize d) (ilevel i + 1) (2 * icoord a i + b) (coord a p)).
    { intros a. specialize (H a). apply (proj1 (part_children _ _ Hs _ _ _ HL)) in H. destruct H as [H|H]; [exists 0%Z; rewrite Z.add_0_r|exists 1%Z]; (split; [lia|assumption]). }
    destruct (C AX) as (bx & Rx & Cx), (C AY) as (by_ & Ry & Cy), (C AZ) as (bz & Rz & Cz). destruct (which_bits bx by_ bz Rx Ry Rz) as (W & Wx & Wy & Wz).
    exists (whichof bx by_ bz). split; [assumption|]. intros a. rewrite icoord_child, ilevel_child by assumption. destruct a; rewrite ?Wx, ?Wy, ?Wz; assumption.
  - intros (w & Hw & H) a. specialize (H a). rewrite icoord_child, ilevel_child in H by assumption. apply (proj1 (part_children _ _ Hs _ _ _ HL)).
    assert (B : forall z, (0 <= z mod 2 < 2)%Z) by (intros; apply Z.mod_pos_bound; lia).
    assert (E : exists b, (0 <= b < 2)%Z /\ in_part (lo a) (dsize d) (ilevel i + 1) (2 * icoord a i + b) (coord a p)) by (destruct a; eexists; (split; [|exact H]); apply B).
    destruct E as (b & Rb & E). assert (Cb : (b = 0 \/ b = 1)%Z) by lia. destruct Cb as [-> | ->]; [left; rewrite Z.add_0_r in E|right]; assumption.
Qed.
Lemma box_child_unique : forall i p w w', (0 <= ilevel i)%Z -> (0 <= w < 8)%Z -> (0 <= w' < 8)%Z -> in_box d (child w i) p -> in_box d (child w' i) p -> w = w'.
Proof.
  intros i p w w' HL Hw Hw' H H'.
  assert (K : forall a, icoord a (child w i) = icoord a (child w' i)).
  { intros a. specialize (H a). specialize (H' a). rewrite !icoord_child by assumption. rewrite icoord_child, ilevel_child in H, H' by assumption.
    assert (B : forall z, (z mod 2 = 0 \/ z mod 2 = 1)%Z) by (intros z; pose proof (Z.mod_pos_bound z 2 ltac:(lia)); lia).
    pose proof (proj2 (part_children (lo a) _ Hs _ (icoord a i) (coord a p) HL)) as N.
    assert (C : forall b b', (b = 0 \/ b = 1)%Z -> (b' = 0 \/ b' = 1)%Z -> in_part (lo a) (dsize d) (ilevel i + 1) (2 * icoord a i + b) (coord a p) -> in_part (lo a) (dsize d) (ilevel i + 1) (2 * icoord a i + b') (coord a p) -> b = b').
    { intros b b' [-> | ->] [-> | ->] X Y; try reflexivity; exfalso; apply N; rewrite Z.add_0_r in *; split; assumption. }
    f_equal. apply C; try assumption; destruct a; apply B. }
  pose proof (K AX) as X. pose proof (K AY) as Y. pose proof (K AZ) as Z_. rewrite !icoord_child in X, Y, Z_ by assumption. apply which_inj; try assumption; lia.
Qed.

(** The refinement tests follow the boxes. *)
Lemma box_octant : forall i p, (0 <= ilevel i)%Z -> in_box d i p -> in_box d (child (Z.of_nat (octant (below_centre d) i p)) i) p.
Proof.
  intros i p HL H.
  assert (T : forall a, in_part (lo a) (dsize d) (ilevel i + 1) (2 * icoord a i + (if below_centre d a i p then 0 else 1)) (coord a p)) by (intros a; apply part_test; [assumption|assumption|apply H]).
  unfold octant. set (bx := below_centre d AX i p) in *. set (by_ := below_centre d AY i p) in *. set (bz := below_centre d AZ i p) in *.
  assert (E : Z.of_nat ((if bx then 0 else 1) + (if by_ then 0 else 2) + (if bz then 0 else 4)) = whichof (if bx then 0 else 1) (if by_ then 0 else 1) (if bz then 0 else 1)) by (destruct bx, by_, bz; reflexivity).
  destruct (which_bits (if bx then 0 else 1) (if by_ then 0 else 1) (if bz then 0 else 1)) as (W & Wx & Wy & Wz); try (destruct bx, by_, bz; lia).
  rewrite E. intros a. rewrite icoord_child, ilevel_child by assumption. specialize (T a). destruct a; rewrite ?Wx, ?Wy, ?Wz; assumption.
Qed.
Lemma box_cell : forall path i p, (0 <= ilevel i)%Z -> in_box d i p -> in_cell (below_centre d) i path p = true -> in_box d (follow i path) p.
Proof.
  induction path as [|w path IH]; intros i p HL H C; [assumption|]. cbn [in_cell] in C. apply andb_true_iff in C. destruct C as [C1 C2]. apply Nat.eqb_eq in C1.
  change (follow i (w :: path)) with (follow (child (Z.of_nat w) i) path). apply IH; [rewrite ilevel_child; lia| |assumption]. rewrite <- C1. apply box_octant; assumption.
Qed.

(** Corners. *)
Lemma corner_ok : forall off i, (0 <= ilevel i <= 30)%Z -> exists q, corner off d i = Ok q /\ forall a, coord a q == lo a + (inject_Z (icoord a i) + off) * (dsize d / inject_Z (2 ^ ilevel i)).
Proof.
  intros off i H. unfold corner, size_from_level. destruct (Z.ltb_spec (ilevel i) 0); [lia|]. destruct (Z.ltb_spec 30 (ilevel i)); [lia|]. cbn [orb bind]. eexists. split; [reflexivity|].
  rewrite Z.shiftl_mul_pow2, Z.mul_1_l by lia. intros []; cbn [coord px py pz icoord]; ring.
Qed.

Lemma closed_interior : forall i j p, (0 <= ilevel i)%Z -> ilevel i = ilevel j -> in_closed d j p ->
  (forall a, let h := dsize d / inject_Z (2 ^ ilevel i) in lo a + inject_Z (icoord a i) * h < coord a p /\ coord a p < lo a + inject_Z (icoord a i + 1) * h) -> i = j.
Proof.
  intros i j p HL El Hj Hi. apply index_coords; [assumption|]. intros a. specialize (Hj a). specialize (Hi a). cbv zeta in *. rewrite <- El in Hj.
  destruct Hj as [J1 J2], Hi as [I1 I2]. apply (le_scaled _ _ Hs) in J1; [|assumption]. apply (ge_scaled _ _ Hs) in J2; [|assumption]. apply (lt_scaled _ _ Hs) in I2; [|assumption].
  assert (I1' : inject_Z (icoord a i) < scaled (lo a) (dsize d) (ilevel i) (coord a p)).
  { apply Qnot_le_lt. intros X. apply (ge_scaled _ _ Hs) in X; [|assumption]. lra. }
  set (t := scaled (lo a) (dsize d) (ilevel i) (coord a p)) in *.
  assert (A : inject_Z (icoord a j) < inject_Z (icoord a i + 1)) by lra. assert (B : inject_Z (icoord a i) < inject_Z (icoord a j + 1)) by lra.
  apply (proj1 (inj_lt _ _)) in A. apply (proj1 (inj_lt _ _)) in B. lia.
Qed.
Lemma box_closed : forall i p, in_box d i p -> in_closed d i p.
Proof. intros i p H a. specialize (H a). unfold in_part in H. cbv zeta in *. destruct H as [A [B|[_ B]]]; split; lra. Qed.
End Boxes.

(** ** Assignment to the uniform cells *)
Lemma int_of_floor : forall q, 0 <= q -> q < inject_Z (2 ^ 31) -> int_of q = Ok (Qfloor q).
Proof.
  intros [n m] H0 H1. unfold int_of. cbn [Qnum Qden]. assert (Hn : (0 <= n)%Z) by (unfold Qle in H0; cbn in H0; lia).
  assert (E : Z.quot n (Zpos m) = Qfloor (n # m)) by (cbn [Qfloor]; apply Z.quot_div_nonneg; lia). change (QDen (n # m)) with (Zpos m). rewrite E.
  assert (F0 : (0 <= Qfloor (n # m))%Z) by (change 0%Z with (Qfloor 0); apply Qfloor_resp_le; assumption).
  assert (F1 : (Qfloor (n # m) < 2 ^ 31)%Z). { apply inj_lt. apply Qle_lt_trans with (n # m); [apply Qfloor_le|assumption]. }
  destruct (Z.leb_spec (- 2 ^ 31) (Qfloor (n # m))); [|lia]. destruct (Z.ltb_spec (Qfloor (n # m)) (2 ^ 31)); [|lia]. reflexivity.
Qed.

Section Assign.
Variable d : domain.
Hypothesis Hs : 0 < dsize d.
Variable L : Z.
Hypothesis HL : (0 <= L <= 10)%Z.

Lemma cell_coord_ok : forall a p, in_domain d p -> cell_coord a d (2 ^ L) p = Ok (icoord a (index_of d L p)).
Proof.
  intros a p Hp. unfold cell_coord. destruct (Qeq_bool (dsize d) 0) eqn:E; [apply Qeq_bool_iff in E; lra|].
  change (inject_Z (2 ^ L) * (coord a p - coord a (dlow d)) * (1 / dsize d)) with (scaled (coord a (dlow d)) (dsize d) L (coord a p)).
  pose proof (proj1 (domain_scaled _ _ Hs L (coord a p) (proj1 HL)) (Hp a)) as [A B].
  rewrite int_of_floor; [cbn [bind]; rewrite icoord_index_of; reflexivity|assumption|].
  apply Qle_lt_trans with (inject_Z (2 ^ L)); [assumption|]. apply inj_lt. apply Z.pow_lt_mono_r; lia.
Qed.

Lemma cell_of_ok : forall p, in_domain d p -> cell_of d (2 ^ L) p = Ok (slot_of (index_of d L p) L).
Proof.
  intros p Hp. unfold cell_of. rewrite !cell_coord_ok by assumption. cbn [bind icoord]. f_equal.
  destruct (box_exists d Hs L p (proj1 HL) Hp) as [G _]. assert (El : ilevel (index_of d L p) = L) by reflexivity.
  destruct (simple_key_slot (index_of d L p) L HL El G) as [K1 K2]. rewrite Z.shiftl_mul_pow2, Z.mul_1_l in K1 by lia. rewrite K1.
  pose proof (slot_bounds (index_of d L p) L (proj1 HL) El G) as [S0 _]. apply to_int_small. change (2 ^ 31)%Z with 2147483648%Z. change (2 ^ 30)%Z with 1073741824%Z in K2. lia.
Qed.

Definition tally (count : list Z) (gs : list Z) : list Z := map (fun k => (nth k count 0 + Z.of_nat (count_occ Z.eq_dec gs (Z.of_nat k)))%Z) (seq 0 (length count)).

Lemma assign_ok : forall P count, (forall p, In p P -> in_domain d p) -> Z.of_nat (length count) = (8 ^ L)%Z ->
  let gs := map (fun p => slot_of (index_of d L p) L) P in assign_points d L P count = Ok (gs, tally count gs).
Proof.
  intros P count HP Hc. cbv zeta. unfold assign_points.
  assert (G : forall P pre cnt, (forall p, In p P -> in_domain d p) -> cnt = tally count pre ->
    foldM (fun '(gid, count) p => do g <- cell_of d (2 ^ L) p; do c <- nth_resZ count g; do count' <- set_resZ count g (c + 1)%Z; Ok (gid ++ [g], count')) P (pre, cnt)
    = Ok (pre ++ map (fun p => slot_of (index_of d L p) L) P, tally count (pre ++ map (fun p => slot_of (index_of d L p) L) P))).
  { clear P HP. induction P as [|p P IH]; intros pre cnt HP ->; cbn [foldM map]; [rewrite app_nil_r; reflexivity|].
    rewrite cell_of_ok by (apply HP; left; reflexivity). cbn [bind]. set (g := slot_of (index_of d L p) L).
    destruct (box_exists d Hs L p (proj1 HL) (HP p (or_introl eq_refl))) as [Gr _]. pose proof (slot_bounds (index_of d L p) L (proj1 HL) eq_refl Gr) as Sb. fold g in Sb. rewrite <- (pow8 L (proj1 HL)) in Sb.
    assert (Lt : length (tally count pre) = length count) by (unfold tally; rewrite map_length, seq_length; reflexivity).
    assert (Gn : (Z.to_nat g < length count)%nat) by lia.
    assert (N : nth_error (tally count pre) (Z.to_nat g) = Some (nth (Z.to_nat g) count 0 + Z.of_nat (count_occ Z.eq_dec pre g))%Z).
    { unfold tally. rewrite nth_error_map_seq by assumption. rewrite Z2Nat.id by lia. reflexivity. }
    unfold nth_resZ, set_resZ. destruct (Z.ltb_spec g 0); [lia|]. unfold nth_res. rewrite N. cbn [bind]. rewrite set_res_ok by lia. cbn [bind].
    rewrite IH; [rewrite <- app_assoc; reflexivity|intros q Hq; apply HP; right; assumption|].
    apply nth_error_ext. intros k. destruct (Nat.lt_ge_cases k (length count)) as [Hk|Hk].
    - destruct (Nat.eq_dec k (Z.to_nat g)) as [->|Nk].
      + rewrite upd_same by lia. unfold tally. rewrite nth_error_map_seq by assumption. rewrite Z2Nat.id by lia. rewrite count_occ_app. cbn [count_occ]. destruct (Z.eq_dec g g); [|congruence]. f_equal. lia.
      + rewrite upd_other by congruence. unfold tally. rewrite !nth_error_map_seq by assumption. rewrite count_occ_app. cbn [count_occ]. destruct (Z.eq_dec g (Z.of_nat k)); [lia|]. f_equal. lia.
    - rewrite !(proj2 (nth_error_None _ _)); [reflexivity| |]; unfold tally; rewrite ?upd_length, ?map_length, ?seq_length; rewrite ?map_length, ?seq_length; lia. }
  rewrite (G P [] count HP); [reflexivity|]. unfold tally. cbn [count_occ]. symmetry. apply nth_error_ext. intros k. destruct (Nat.lt_ge_cases k (length count)) as [Hk|Hk].
  - rewrite nth_error_map_seq by assumption. rewrite Z.add_0_r. symmetry. apply nth_error_nth'. assumption.
  - rewrite !(proj2 (nth_error_None _ _)); rewrite ?map_length, ?seq_length; [reflexivity|assumption|assumption].
Qed.
End Assign.

(** ** Bounding box *)
Lemma fmin_spec : forall a b, fmin a b <= a /\ fmin a b <= b /\ (fmin a b = a \/ fmin a b = b).
Proof. intros a b. unfold fmin. destruct (Qle_bool a b) eqn:E; [apply Qle_bool_iff in E|assert (b < a) by (apply Qnot_le_lt; intros X; apply Qle_bool_iff in X; congruence)]; repeat split; auto; lra. Qed.
Lemma fmax_spec : forall a b, a <= fmax a b /\ b <= fmax a b /\ (fmax a b = a \/ fmax a b = b).
Proof. intros a b. unfold fmax. destruct (Qle_bool a b) eqn:E; [apply Qle_bool_iff in E|assert (b < a) by (apply Qnot_le_lt; intros X; apply Qle_bool_iff in X; congruence)]; repeat split; auto; lra. Qed.

Definition tight (v : bounds) (ps : list point) : Prop := forall a,
  (forall p, In p ps -> coord a (bmin v) <= coord a p <= coord a (bmax v)) /\
  (coord a (bmin v) = big \/ exists p, In p ps /\ coord a p = coord a (bmin v)) /\
  (coord a (bmax v) = - big \/ exists p, In p ps /\ coord a p = coord a (bmax v)) /\
  coord a (bmin v) <= big /\ - big <= coord a (bmax v).

Lemma tight_none : tight no_bounds [].
Proof. intros a. split; [intros p []|]. destruct a; cbn; repeat split; auto; apply Qle_refl. Qed.
Lemma tight_join : forall v w ps qs, tight v ps -> tight w qs -> tight (join v w) (ps ++ qs).
Proof.
  intros v w ps qs Hv Hw a. destruct (Hv a) as (V1 & V2 & V3 & V4 & V5), (Hw a) as (W1 & W2 & W3 & W4 & W5).
  assert (E1 : coord a (bmin (join v w)) = fmin (coord a (bmin v)) (coord a (bmin w))) by (destruct a; reflexivity).
  assert (E2 : coord a (bmax (join v w)) = fmax (coord a (bmax v)) (coord a (bmax w))) by (destruct a; reflexivity). rewrite E1, E2.
  destruct (fmin_spec (coord a (bmin v)) (coord a (bmin w))) as (A1 & A2 & A3). destruct (fmax_spec (coord a (bmax v)) (coord a (bmax w))) as (B1 & B2 & B3).
  set (mn := fmin _ _) in *. set (mx := fmax _ _) in *. split; [|split; [|split; [|split]]].
  - intros p Hp. apply in_app_iff in Hp. destruct Hp as [Hp|Hp]; [apply V1 in Hp|apply W1 in Hp]; destruct Hp; split; lra.
  - destruct A3 as [-> | ->]; [destruct V2 as [V2|(p & Hp & E)]|destruct W2 as [W2|(p & Hp & E)]]; auto; right; exists p; (split; [apply in_app_iff; auto|assumption]).
  - destruct B3 as [-> | ->]; [destruct V3 as [V3|(p & Hp & E)]|destruct W3 as [W3|(p & Hp & E)]]; auto; right; exists p; (split; [apply in_app_iff; auto|assumption]).
  - lra.
  - lra.
Qed.
Definition single (p : point) : bounds := mkB p p.
Lemma tight_extend : forall v ps p, tight v ps -> tight (extend v p) (ps ++ [p]).
Proof.
  intros v ps p Hv a. destruct (Hv a) as (V1 & V2 & V3 & V4 & V5).
  assert (E1 : coord a (bmin (extend v p)) = fmin (coord a (bmin v)) (coord a p)) by (destruct a; reflexivity).
  assert (E2 : coord a (bmax (extend v p)) = fmax (coord a (bmax v)) (coord a p)) by (destruct a; reflexivity). rewrite E1, E2.
  destruct (fmin_spec (coord a (bmin v)) (coord a p)) as (A1 & A2 & A3). destruct (fmax_spec (coord a (bmax v)) (coord a p)) as (B1 & B2 & B3).
  set (mn := fmin _ _) in *. set (mx := fmax _ _) in *. split; [|split; [|split; [|split]]].
  - intros q Hq. apply in_app_iff in Hq. destruct Hq as [Hq|[<-|[]]]; [apply V1 in Hq; destruct Hq|]; split; lra.
  - destruct A3 as [-> | ->]; [destruct V2 as [V2|(q & Hq & E)]; auto; right; exists q; (split; [apply in_app_iff; auto|assumption])|]. right. exists p. split; [apply in_app_iff; right; left; reflexivity|reflexivity].
  - destruct B3 as [-> | ->]; [destruct V3 as [V3|(q & Hq & E)]; auto; right; exists q; (split; [apply in_app_iff; auto|assumption])|]. right. exists p. split; [apply in_app_iff; right; left; reflexivity|reflexivity].
  - lra.
  - lra.
Qed.
Lemma tight_perm : forall v ps qs, Permutation ps qs -> tight v ps -> tight v qs.
Proof.
  intros v ps qs P H a. destruct (H a) as (V1 & V2 & V3 & V4 & V5). split; [|split; [|split; [|split]]]; try assumption.
  - intros p Hp. apply V1. eapply Permutation_in; [symmetry; exact P|assumption].
  - destruct V2 as [V2|(p & Hp & E)]; [auto|]. right. exists p. split; [eapply Permutation_in; eassumption|assumption].
  - destruct V3 as [V3|(p & Hp & E)]; [auto|]. right. exists p. split; [eapply Permutation_in; eassumption|assumption].
Qed.
Lemma tight_fold : forall ps v qs, tight v qs -> tight (fold_left extend ps v) (qs ++ ps).
Proof.
  induction ps as [|p ps IH]; intros v qs H; cbn [fold_left]; [rewrite app_nil_r; assumption|].
  replace (qs ++ p :: ps) with ((qs ++ [p]) ++ ps) by (rewrite <- app_assoc; reflexivity). apply IH. apply tight_extend. assumption.
Qed.

Definition rank_points (same : bool) (st : list point * list point) : list point := fst st ++ (if same then [] else snd st).
Lemma tight_rank : forall same st, tight (rank_bounds same (fst st) (snd st)) (rank_points same st).
Proof.
  intros same [s t]. unfold rank_bounds, rank_points. cbn [fst snd]. pose proof (tight_fold s no_bounds [] tight_none) as X. destruct same; [rewrite app_nil_r; exact X|]. apply tight_fold. exact X.
Qed.
Lemma tight_reduce : forall same sts t, tight (reduce_bounds t (map (fun st => rank_bounds same (fst st) (snd st)) sts)) (concat (map (fun r => rank_points same (nth r sts ([], []))) (oleaves t))).
Proof.
  intros same sts t. induction t as [r| |a IHa b IHb]; cbn [reduce_bounds oleaves map concat].
  - rewrite app_nil_r. destruct (nth_error sts r) as [st|] eqn:E.
    + rewrite (nth_error_nth _ _ _ E). rewrite (nth_error_nth _ r no_bounds (x := rank_bounds same (fst st) (snd st))) by (rewrite nth_error_map, E; reflexivity). apply tight_rank.
    + apply nth_error_None in E. rewrite !nth_overflow by (rewrite ?map_length; assumption). unfold rank_points. destruct same; exact tight_none.
  - exact tight_none.
  - rewrite map_app, concat_app. apply tight_join; assumption.
Qed.

Lemma perm_concat : forall A (l m : list (list A)), Permutation l m -> Permutation (concat l) (concat m).
Proof.
  intros A l m P. induction P; cbn; [constructor|apply Permutation_app_head; assumption|rewrite !app_assoc; apply Permutation_app_tail; apply Permutation_app_comm|etransitivity; eassumption].
Qed.

Lemma map_nth_seq' : forall A B (f : A -> B) d l, map (fun r => f (nth r l d)) (seq 0 (length l)) = map f l.
Proof.
  intros A B f d l. apply nth_error_ext. intros k. destruct (Nat.lt_ge_cases k (length l)) as [Hk|Hk].
  - rewrite nth_error_map_seq by assumption. rewrite nth_error_map, (nth_error_nth' l d Hk). reflexivity.
  - rewrite !(proj2 (nth_error_None _ _)); rewrite ?map_length, ?seq_length; [reflexivity|assumption|assumption].
Qed.

Lemma tight_all : forall same sts t, all_ranks (length sts) t ->
  tight (reduce_bounds t (map (fun st => rank_bounds same (fst st) (snd st)) sts)) (concat (map (rank_points same) sts)).
Proof.
  intros same sts t H. eapply tight_perm; [|apply tight_reduce]. apply perm_concat. rewrite <- (map_nth_seq' _ _ (rank_points same) ([], []) sts). apply Permutation_map. assumption.
Qed.

Lemma tight_hull : forall v ps, ps <> [] -> (forall p a, In p ps -> - big <= coord a p <= big) -> tight v ps -> hull v ps.
Proof.
  intros v ps N B T a. destruct (T a) as (V1 & V2 & V3 & V4 & V5). split; [assumption|]. destruct ps as [|p0 ps]; [congruence|].
  pose proof (V1 p0 (or_introl eq_refl)) as [X Y]. pose proof (B p0 a (or_introl eq_refl)) as [X' Y']. split.
  - destruct V2 as [V2|(p & Hp & E)]; [|exists p; split; [assumption|rewrite E; reflexivity]]. exists p0. split; [left; reflexivity|]. rewrite V2 in *. lra.
  - destruct V3 as [V3|(p & Hp & E)]; [|exists p; split; [assumption|rewrite E; reflexivity]]. exists p0. split; [left; reflexivity|]. rewrite V3 in *. lra.
Qed.

Lemma hull_unique : forall v w ps, hull v ps -> hull w ps -> forall a, coord a (bmin v) == coord a (bmin w) /\ coord a (bmax v) == coord a (bmax w).
Proof.
  intros v w ps Hv Hw a. destruct (Hv a) as (V1 & (p1 & P1 & E1) & (p2 & P2 & E2)), (Hw a) as (W1 & (q1 & Q1 & F1) & (q2 & Q2 & F2)).
  pose proof (W1 _ P1). pose proof (W1 _ P2). pose proof (V1 _ Q1). pose proof (V1 _ Q2). split; lra.
Qed.

Lemma domain_of_ok : forall v ps, hull v ps -> let d := domain_of v in
  (forall p, In p ps -> in_domain d p) /\
  (forall a, coord a (dlow d) + dsize d / 2 == (coord a (bmin v) + coord a (bmax v)) / 2) /\
  (forall a, coord a (bmax v) - coord a (bmin v) <= dsize d) /\ (exists a, dsize d == coord a (bmax v) - coord a (bmin v)).
Proof.
  intros v ps H d. assert (E : forall a, coord a (dlow d) = (coord a (bmax v) + coord a (bmin v) - dsize d) / 2) by (intros []; reflexivity).
  assert (S1 : forall a, coord a (bmax v) - coord a (bmin v) <= dsize d).
  { intros a. unfold d, domain_of. cbn [dsize]. destruct (fmax_spec (px (bmax v) - px (bmin v)) (fmax (py (bmax v) - py (bmin v)) (pz (bmax v) - pz (bmin v)))) as (A1 & A2 & _).
    destruct (fmax_spec (py (bmax v) - py (bmin v)) (pz (bmax v) - pz (bmin v))) as (B1 & B2 & _). destruct a; cbn [coord]; lra. }
  split; [|split; [|split]].
  - intros p Hp a. destruct (H a) as (V & _). specialize (V p Hp). rewrite E. specialize (S1 a). set (s := dsize d) in *. set (x := coord a (bmax v)) in *. set (y := coord a (bmin v)) in *.
    assert (F : (x + y - s) / 2 == (1 # 2) * (x + y - s)) by field. rewrite F. split; lra.
  - intros a. rewrite E. field.
  - assumption.
  - unfold d, domain_of. cbn [dsize]. destruct (fmax_spec (px (bmax v) - px (bmin v)) (fmax (py (bmax v) - py (bmin v)) (pz (bmax v) - pz (bmin v)))) as (_ & _ & [A|A]); rewrite A; [exists AX; reflexivity|].
    destruct (fmax_spec (py (bmax v) - py (bmin v)) (pz (bmax v) - pz (bmin v))) as (_ & _ & [B|B]); rewrite B; [exists AY|exists AZ]; reflexivity.
Qed.

Lemma cubify_ok : forall lo hi factor, (forall a, coord a lo <= coord a hi) -> 1 <= factor -> let d := cubify lo hi factor in
  (forall p, (forall a, coord a lo <= coord a p <= coord a hi) -> in_domain d p) /\
  (forall a, coord a (dlow d) + dsize d / 2 == (coord a lo + coord a hi) / 2) /\
  exists m, dsize d == m * factor /\ (forall a, coord a hi - coord a lo <= m) /\ exists a, m == coord a hi - coord a lo.
Proof.
  intros lo hi factor Hlh Hf d.
  set (s a := coord a hi - coord a lo). set (m1 := if Qltb (s AY) (s AX) then s AX else s AY). set (m := if Qltb (s AZ) m1 then m1 else s AZ).
  assert (E : forall a, coord a (dlow d) = coord a lo * (1 # 2) + coord a hi * (1 # 2) - m * factor * (1 # 2)) by (intros []; reflexivity).
  assert (Es : dsize d = m * factor) by reflexivity.
  assert (M1 : s AX <= m1 /\ s AY <= m1 /\ (m1 = s AX \/ m1 = s AY)).
  { unfold m1. destruct (Qltb (s AY) (s AX)) eqn:T; [apply Qltb_lt in T|apply Qltb_ge in T]; repeat split; auto; lra. }
  assert (M2 : m1 <= m /\ s AZ <= m /\ (m = m1 \/ m = s AZ)).
  { unfold m. destruct (Qltb (s AZ) m1) eqn:T; [apply Qltb_lt in T|apply Qltb_ge in T]; repeat split; auto; lra. }
  assert (Mx : forall a, s a <= m) by (intros []; lra). assert (Mp : 0 <= m) by (specialize (Mx AX); specialize (Hlh AX); unfold s in Mx; lra).
  assert (Mf : m <= m * factor) by nra. split; [|split].
  - intros p Hp a. specialize (Hp a). specialize (Mx a). unfold s in Mx. rewrite E, Es. split; lra.
  - intros a. rewrite E, Es. field.
  - exists m. split; [rewrite Es; reflexivity|]. split; [assumption|]. destruct M2 as (_ & _ & [-> | ->]); [|exists AZ; reflexivity]. destruct M1 as (_ & _ & [-> | ->]); [exists AX|exists AY]; reflexivity.
Qed.

Lemma nth_tally : forall count gs k, (k < length count)%nat -> nth_error (tally count gs) k = Some (nth k count 0 + Z.of_nat (count_occ Z.eq_dec gs (Z.of_nat k)))%Z.
Proof. intros. unfold tally. apply nth_error_map_seq. assumption. Qed.

Lemma tally_sum : forall n gs, (forall g, In g gs -> (0 <= g < Z.of_nat n)%Z) -> fold_right Z.add 0%Z (tally (repeat 0%Z n) gs) = Z.of_nat (length gs).
Proof.
  intros n gs H. unfold tally. rewrite repeat_length.
  assert (E : forall k, (k < n)%nat -> nth k (repeat 0%Z n) 0%Z = 0%Z) by (intros; apply nth_repeat).
  assert (Add : forall (f g : nat -> Z) l, fold_right Z.add 0%Z (map (fun k => f k + g k)%Z l) = (fold_right Z.add 0 (map f l) + fold_right Z.add 0 (map g l))%Z) by (induction l; cbn; lia).
  assert (One : forall g l, NoDup l -> fold_right Z.add 0%Z (map (fun k => if Z.eq_dec g (Z.of_nat k) then 1 else 0)%Z l) = (if in_dec Nat.eq_dec (Z.to_nat g) l then if Z.ltb g 0 then 0 else 1 else 0)%Z).
  { intros g l Nd. induction l as [|k l IH]; [reflexivity|]. inversion Nd; subst. cbn [map fold_right]. rewrite IH by assumption. destruct (Z.eq_dec g (Z.of_nat k)) as [->|Ng].
    - rewrite Nat2Z.id. destruct (in_dec Nat.eq_dec k l); [contradiction|]. destruct (in_dec Nat.eq_dec k (k :: l)) as [|X]; [|exfalso; apply X; left; reflexivity]. destruct (Z.ltb_spec (Z.of_nat k) 0); lia.
    - destruct (in_dec Nat.eq_dec (Z.to_nat g) l) as [Y|Y]; destruct (in_dec Nat.eq_dec (Z.to_nat g) (k :: l)) as [X|X]; try lia.
      + exfalso. apply X. right. assumption.
      + destruct X as [X|X]; [|contradiction]. destruct (Z.ltb_spec g 0); lia. }
  induction gs as [|g gs IH].
  - cbn [count_occ length]. erewrite map_ext_in; [|intros k Hk; apply in_seq in Hk; rewrite E by lia; cbn [Z.of_nat Z.add]; reflexivity]. clear. generalize (seq 0 n). intros l. induction l as [|k l IH]; [reflexivity|]. exact IH.
  - erewrite map_ext_in with (g := fun k => ((if Z.eq_dec g (Z.of_nat k) then 1 else 0) + (nth k (repeat 0 n) 0 + Z.of_nat (count_occ Z.eq_dec gs (Z.of_nat k))))%Z).
    + rewrite Add, One by apply seq_NoDup. rewrite IH by (intros; apply H; right; assumption). specialize (H g (or_introl eq_refl)).
      destruct (in_dec Nat.eq_dec (Z.to_nat g) (seq 0 n)) as [X|X]; [|exfalso; apply X; apply in_seq; lia]. destruct (Z.ltb_spec g 0); [lia|]. cbn [length]. lia.
    + intros k Hk. cbn [count_occ]. destruct (Z.eq_dec g (Z.of_nat k)); lia.
Qed.
