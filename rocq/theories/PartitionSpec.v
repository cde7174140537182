(** What a rank assignment along a curve should satisfy. *)
From Coq Require Import ZArith List.
Import ListNotations.
Local Open Scope Z_scope.

Definition total (l : list Z) : Z := fold_right Z.add 0 l.

(** Ranks in range and never decreasing along the curve. *)
Definition contiguous_ranks (np : Z) (ranks : list Z) : Prop :=
  (forall j r, nth_error ranks j = Some r -> 0 <= r < np) /\
  (forall i j r s, (i <= j)%nat -> nth_error ranks i = Some r -> nth_error ranks j = Some s -> r <= s).

(** Points held by the ranks selected by [f]. *)
Fixpoint load (f : Z -> bool) (ranks counts : list Z) : Z :=
  match ranks, counts with
  | r :: ranks', c :: counts' => (if f r then c else 0) + load f ranks' counts'
  | _, _ => 0
  end.
