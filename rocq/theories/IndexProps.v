(** C01: octree index arithmetic is a coherent tree. *)
From Coq Require Import ZArith Lia Bool.
From Verif Require Import IndexModel IndexSpec IndexProofs.
Local Open Scope Z_scope.

(** [child w] is the octant of [i] selected by the bits of [w], its parent is
    [i] and its [which_child] is [w]. *)
Theorem C01_child : forall w i, 0 <= w < 8 -> in_grid i ->
  octant_of w i (child w i) /\ parent 1 (child w i) = i /\ which_child (child w i) = w.
Proof.
  intros w i Hw Hg. pose proof (child_octant w i Hw) as Ho.
  destruct Hg as (Hl & Hx & Hy & Hz).
  repeat split; try apply Ho.
  - exact (parent_of_octant w i _ Hw Hl Ho).
  - exact (which_of_octant w i _ Hw (proj1 Hx) (proj1 Hy) (proj1 Hz) Ho).
Qed.
Print Assumptions C01_child.

(** Every index below the root is the [which_child]-th child of its parent. *)
Theorem C01_child_of_parent : forall c, in_grid c -> 1 <= ilevel c ->
  0 <= which_child c < 8 /\ child (which_child c) (parent 1 c) = c.
Proof.
  intros c Hg Hl. destruct (octant_of_parent c Hg Hl) as [Ho Hw]. split; [exact Hw|].
  exact (octant_unique _ _ _ _ (child_octant _ _ Hw) Ho).
Qed.
Print Assumptions C01_child_of_parent.

(** [parent n] is n single steps. *)
Theorem C01_parent_iterates : forall n i, in_grid i ->
  parent (Z.of_nat n) i = Nat.iter n (parent 1) i.
Proof. intros n i [Hl _]. exact (parent_iter n i Hl). Qed.
Print Assumptions C01_parent_iterates.

(** Distinct (index, child number) pairs have distinct children. *)
Theorem C01_child_injective : forall w w' i i', 0 <= w < 8 -> 0 <= w' < 8 ->
  in_grid i -> in_grid i' -> child w i = child w' i' -> w = w' /\ i = i'.
Proof.
  intros w w' i i' Hw Hw' Hg Hg' E.
  destruct (C01_child w i Hw Hg) as (_ & P & W).
  destruct (C01_child w' i' Hw' Hg') as (_ & P' & W').
  split; congruence.
Qed.
Print Assumptions C01_child_injective.

(** A cell is in its grid iff any (equivalently each) child is in the next. *)
Theorem C01_grid_closed : forall w i, 0 <= w < 8 -> 0 <= ilevel i ->
  (in_grid i <-> in_grid (child w i)).
Proof. intros w i Hw Hl. exact (octant_in_grid w i _ Hw Hl (child_octant w i Hw)). Qed.
Print Assumptions C01_grid_closed.

(** Ancestors stay in the grid; their level is as expected. *)
Theorem C01_ancestor_in_grid : forall n i, in_grid i -> 0 <= n <= ilevel i ->
  in_grid (parent n i) /\ ilevel (parent n i) = ilevel i - n.
Proof.
  intros n i Hg Hn. split; [exact (parent_in_grid n i (proj1 Hn) Hg) | exact (level_of_parent n i Hn)].
Qed.
Print Assumptions C01_ancestor_in_grid.

(** Going up further than there are levels ends at the root. *)
Theorem C01_root : forall n i, in_grid i -> ilevel i <= n -> parent n i = mkIndex 0 0 0 0.
Proof.
  intros n i (Hl & Hx & Hy & Hz) Hn. assert (S : forall x, 0 <= x < 2 ^ ilevel i -> Z.shiftr x n = 0).
  { intros x Hx'. rewrite Z.shiftr_div_pow2 by lia. apply Z.div_small. pose proof (Z.pow_le_mono_r 2 (ilevel i) n). lia. }
  unfold parent. rewrite !S by assumption. f_equal. destruct (Z.gtb_spec (ilevel i) n); [lia|reflexivity].
Qed.
Print Assumptions C01_root.

(** [operator==] decides equality. *)
Theorem C01_equality : forall a b, index_eqb a b = true <-> a = b.
Proof. exact index_eqb_eq. Qed.
Print Assumptions C01_equality.

(** No [int] overflows while the level stays at most 30. *)
Theorem C01_no_overflow : forall w i, 0 <= w < 8 -> in_grid i -> ilevel i <= 30 ->
  fits_int32 (child w i).
Proof. exact child_fits. Qed.
Print Assumptions C01_no_overflow.

(** The hypotheses are met by an index deep in the tree. *)
Example C01_nonvacuous : in_grid (mkIndex 5 1023 768 10) /\
  child 6 (mkIndex 5 1023 768 10) = mkIndex 10 2047 1537 11 /\
  parent 10 (mkIndex 5 1023 768 10) = mkIndex 0 0 0 0 /\
  which_child (mkIndex 5 1023 768 10) = 3.
Proof. repeat split; vm_compute; congruence. Qed.
