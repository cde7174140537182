(** What a branch consists of. *)
From Coq Require Import List.
From Verif Require Import TreeModel GateModel.
Import ListNotations.

(** The slots lead to a node of the branch (innermost first). *)
Definition node_of (t : tree bool) (p : path) : Prop := exists n, sub t (rev p) = Some n.
(** [q] is [p] or below it. *)
Definition below (p q : path) : Prop := exists l, q = l ++ p.
(** Eight slots each; a node with few points has no children. *)
Definition branch (t : tree bool) : Prop :=
  forall p n, sub t p = Some n -> length (kids n) = 8 /\ (info n = true -> kids n = no_kids).
(** A partition task of node [p] that has not begun or has children left to make. *)
Definition partitioning (p : path) (a : act) : Prop :=
  match a with Run q _ => q = p | Loop q _ todo => q = p /\ todo <> [] | _ => False end.
