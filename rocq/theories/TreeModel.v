(** Trees of nodes with eight child slots (include/dashmm/node.h). *)
From Coq Require Import ZArith List Bool.
From Verif Require Import Base IndexModel.
Import ListNotations.

(** node.h:418-427: a node's own data and its [child] array.  [None] is the null
    pointer.  [parent] links are implied by the position in the tree. *)
Inductive tree (A : Type) : Type := T (a : A) (cs : list (option (tree A))).
Arguments T {A} a cs.

Definition info {A} (t : tree A) : A := let 'T a _ := t in a.
Definition kids {A} (t : tree A) : list (option (tree A)) := let 'T _ cs := t in cs.

(** [child[w]] *)
Definition kid {A} (t : tree A) (w : nat) : option (tree A) :=
  match nth_error (kids t) w with Some (Some c) => Some c | _ => None end.

(** The node reached by following child slots. *)
Fixpoint sub {A} (t : tree A) (path : list nat) : option (tree A) :=
  match path with
  | [] => Some t
  | w :: ws => match kid t w with Some c => sub c ws | None => None end
  end.

Definition no_kids {A} : list (option (tree A)) := repeat None 8.

(** node.h:257-270 [n_children], [is_leaf]. *)
Definition n_children {A} (t : tree A) : nat :=
  length (filter (fun o => match o with Some _ => true | None => false end) (kids t)).
Definition is_leaf {A} (t : tree A) : bool := Nat.eqb (n_children t) 0.

(** All nodes, a node before its children. *)
Fixpoint nodes {A} (t : tree A) : list (tree A) :=
  match t with
  | T a cs => t :: flat_map (fun o => match o with Some c => nodes c | None => [] end) cs
  end.
