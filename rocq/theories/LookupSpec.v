(** What a lookup should return, without mention of the walk. *)
From Coq Require Import ZArith List.
From Verif Require Import Base IndexModel TreeModel LookupModel.

(** [n] is a node of [t] carrying index [i]. *)
Definition node_at (t : tree lnode) (i : index) (n : tree lnode) : Prop := In n (nodes t) /\ l_idx (info n) = i.

(** The DAG node an edge of this kind ends in: the target's particles for the
    three operations onto targets, the intermediate expansion for the two that
    produce one, otherwise the normal expansion. *)
Definition slot_for (op : operation) (d : lnode) : option Z :=
  match op with
  | Nop => None
  | MtoT | LtoT | StoT => l_parts d
  | MtoI | ItoI => l_interm d
  | StoM | MtoM | StoL | MtoL | LtoL | ItoL => l_normal d
  end.

(** Edges that end in a node of the source tree. *)
Definition ends_in_source (op : operation) : Prop := op = StoM \/ op = MtoM \/ op = MtoI.
