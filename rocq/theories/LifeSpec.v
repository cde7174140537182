(** Who has points for whom. *)
From Coq Require Import List Arith.
From Verif Require Import LifeModel.
Import ListNotations.
Open Scope nat_scope.

(** The rank map sends the cells to ranks; with S == T both trees have the same counts. *)
Definition proper (c : config) : Prop :=
  0 < ranks c /\ (forall i, i < dim3 c -> rank_map c i < ranks c) /\
  (same c = true -> forall r i, i < dim3 c -> cnt c r (dim3 c + i) = cnt c r i).

(** Rank [r] holds a source or a target of a cell that rank [r'] owns. *)
Definition has_points_for (c : config) (r r' : nat) : Prop :=
  exists i, i < dim3 c /\ rank_map c i = r' /\ (0 < cnt c r i \/ 0 < cnt c r (dim3 c + i)).

(** The owner of cell [k] of the [2 * dim3] cells, and whether no rank has a point in it. *)
Definition owner (c : config) (k : nat) : nat := rank_map c (if k <? dim3 c then k else k - dim3 c).
Definition empty_cell (c : config) (k : nat) : Prop := forall r, r < ranks c -> cnt c r k = 0.

Definition reachable (c : config) (s : state) : Prop := exists n, runs c n (start c) s.
