(** Intervals of positions. *)
From Coq Require Import List Arith.
Import ListNotations.

(** Positions of the interval [a, b). *)
Definition positions (ab : nat * nat) : list nat := seq (fst ab) (snd ab - fst ab).

(** The intervals, in order, list every position below [n] exactly once. *)
Definition tiles (chunks : list (nat * nat)) (n : nat) : Prop :=
  concat (map positions chunks) = seq 0 n /\
  Forall (fun ab => fst ab < snd ab <= n) chunks.
