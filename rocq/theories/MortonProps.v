(** C07: the Morton key interleaves coordinate bits exactly. *)
From Coq Require Import NArith Lia.
From Verif Require Import MortonModel MortonProofs.
Local Open Scope N_scope.

(** Bits 3j, 3j+1, 3j+2 of the key are bits j of x, y and z; this determines
    the key completely. *)
Theorem C07_morton_interleaves : forall x y z, x < 2 ^ 21 -> y < 2 ^ 21 -> z < 2 ^ 21 -> forall j,
  N.testbit (morton_key x y z) (3 * j) = N.testbit x j /\
  N.testbit (morton_key x y z) (3 * j + 1) = N.testbit y j /\
  N.testbit (morton_key x y z) (3 * j + 2) = N.testbit z j.
Proof. exact morton_bits. Qed.
Print Assumptions C07_morton_interleaves.

Theorem C07_morton_injective : forall x y z x' y' z',
  x < 2 ^ 21 -> y < 2 ^ 21 -> z < 2 ^ 21 -> x' < 2 ^ 21 -> y' < 2 ^ 21 -> z' < 2 ^ 21 ->
  morton_key x y z = morton_key x' y' z' -> x = x' /\ y = y' /\ z = z'.
Proof. exact morton_inj. Qed.
Print Assumptions C07_morton_injective.

(** Keys of the cells of level l are below 8^l (in particular below 2^63). *)
Theorem C07_morton_range : forall l x y z, l <= 21 -> x < 2 ^ l -> y < 2 ^ l -> z < 2 ^ l ->
  morton_key x y z < 2 ^ (3 * l).
Proof. exact morton_lt. Qed.
Print Assumptions C07_morton_range.

(** The key of child w is eight times the key of the cell plus w. *)
Theorem C07_morton_child : forall x y z w, x < 2 ^ 20 -> y < 2 ^ 20 -> z < 2 ^ 20 -> w < 8 ->
  morton_key (2 * x + w mod 2) (2 * y + (w / 2) mod 2) (2 * z + (w / 4) mod 2)
  = 8 * morton_key x y z + w.
Proof. exact morton_child. Qed.
Print Assumptions C07_morton_child.

Example C07_nonvacuous : morton_key 0x1fffff 0 0x100001 = 0x524924924924924d.
Proof. vm_compute. reflexivity. Qed.
