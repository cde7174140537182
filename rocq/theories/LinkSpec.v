(** What the DAG must be after the insertions. *)
From Coq Require Import List Arith Permutation.
From Verif Require Import Base LookupModel DagModel LinkModel.
Import ListNotations.
Open Scope nat_scope.

(** A call of one of the edge operations: operation, object, argument; its edge. *)
Definition call := (operation * owner * owner)%type.
Definition call_edge (c : call) : option edge :=
  let '(op, this, o) := c in
  match op with
  | Nop => None
  | StoM => match do_StoM this o with Link e => Some e | _ => None end
  | StoL => match do_StoL this o with Link e => Some e | _ => None end
  | MtoM => match do_MtoM this o with Link e => Some e | _ => None end
  | MtoL => match do_MtoL this o with Link e => Some e | _ => None end
  | LtoL => match do_LtoL this o with Link e => Some e | _ => None end
  | MtoT => match do_MtoT this o with Link e => Some e | _ => None end
  | LtoT => match do_LtoT this o with Link e => Some e | _ => None end
  | StoT => match do_StoT this o with Link e => Some e | _ => None end
  | MtoI => match do_MtoI this o with Link e => Some e | _ => None end
  | ItoI => match do_ItoI this o with Link e => Some e | _ => None end
  | ItoL => match do_ItoL this o with Link e => Some e | _ => None end
  end.
(** The threads of a set of calls. *)
Definition links_of (cs : list call) : list link :=
  flat_map (fun c => let '(op, this, o) := c in match edge_op op this o with Some l => [l] | None => [] end) cs.
Definition edges_of (cs : list call) : list edge := flat_map (fun c => match call_edge c with Some e => [e] | None => [] end) cs.

Definition into (n : dnode) (es : list edge) : list edge := filter (fun e => if dnode_dec (eto e) n then true else false) es.
Definition out_of (n : dnode) (es : list edge) : list edge := filter (fun e => if dnode_dec (efrom e) n then true else false) es.

Definition finished (s : lstate) : Prop := forall t, In t (snd s) -> code t = [].
(** in_count_ of each node is the number of its incoming edges; its list of out edges holds
    its outgoing edges, each once. *)
Definition counts_right (m : mem) (es : list edge) : Prop := forall n,
  in_count m n = length (into n es) /\
  Permutation (out_edges m n) (map (fun e => (eop e, eto e)) (out_of n es)).
