(** Records touched by calls given as (offset, count). *)
From Coq Require Import List Arith Permutation.
Import ListNotations.

Definition records (c : nat * nat) : list nat := seq (fst c) (snd c).

(** Every record below [n] is in exactly one call, and no other record is. *)
Definition each_once (cs : list (nat * nat)) (n : nat) : Prop :=
  Permutation (concat (map records cs)) (seq 0 n).
