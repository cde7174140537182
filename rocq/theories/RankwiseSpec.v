(** Who holds what. *)
From Coq Require Import ZArith List Bool Arith.
From Verif Require Import Base RankwiseModel.
Import ListNotations.
Open Scope Z_scope.

Definition how_many {A} (p : A -> bool) (l : list A) : nat := length (filter p l).
(** Live objects that point to a cell, to a copy *)
Definition on_cell (a : gaddr) (x : option rank_local) : bool :=
  match x with Some o => match local_ o with Some (Cell b) => gaddr_eqb b a | _ => false end | None => false end.
Definition on_copy (c : nat) (x : option rank_local) : bool :=
  match x with Some o => match local_ o with Some (Copy d) => Nat.eqb d c | _ => false end | None => false end.
(** What threads can get to from nothing *)
Definition reached {T} (zero : T) (num_ranks : Z) (w : world T) : Prop := exists l, rsteps zero num_ranks empty_world l = Ok w.
(** A block that has been allocated and not freed *)
Definition live {T} (w : world T) (b : nat) : Prop := exists l, nth_error (blocks w) b = Some (Some l).
(** The operation does not use object number [i]. *)
Definition leaves_alone {T} (i : nat) (o : rop T) : Prop :=
  match o with LocalMove j | LocalEnd j | LocalWrite j _ => j <> i | LocalAssign j k => j <> i /\ k <> i | _ => True end.
