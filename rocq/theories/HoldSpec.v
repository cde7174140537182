(** What a tree may leave behind. *)
From Coq Require Import ZArith List Bool Arith.
From Verif Require Import Base TreeModel HoldModel.
Import ListNotations.
Open Scope nat_scope.

Definition gets (l : list event) : list resource := flat_map (fun e => match e with Get r => [r] | Drop _ => [] end) l.
Definition drops (l : list event) : list resource := flat_map (fun e => match e with Get _ => [] | Drop r => [r] end) l.
(** Nothing is acquired or released twice, and only what was acquired is released. *)
Definition sound (l : list event) : Prop := NoDup (gets l) /\ NoDup (drops l) /\ incl (drops l) (gets l).
(** What is left at the end. *)
Definition left_over (l : list event) (r : resource) : Prop := In r (gets l) /\ ~ In r (drops l).
(** A branch that is a single node. *)
Definition single {A} (t : tree A) : Prop := forall w, kid t w = None.
