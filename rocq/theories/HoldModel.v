(** What one tree holds on one rank: nodes, blocks of nodes, gates and locks, and where they are
    acquired and released (include/dashmm/node.h, tree.h, dualtree.h, dag.h). *)
From Coq Require Import ZArith List Bool Arith.
From Verif Require Import Base IndexModel TreeModel CompressModel.
Import ListNotations.
Open Scope nat_scope.

(** [RDone] is [unif_done_], [RTop] the array [root_] with the locks [RTopLock i] in its nodes
    (dag.h:192-221: the constructor of every node makes a lock for its DAG information, the
    destructor deletes it); [RSema k], [RGate k] are those of uniform cell k (node.h:123-143);
    [RNode k p] is the node at path p below an own cell, with gate and lock; [RBlock k] the
    array of nodes below a cell of another rank, with the locks of its elements. *)
Inductive resource :=
| RDone | RTop | RTopLock (i : nat) | RSema (k : nat) | RGate (k : nat)
| RNode (k : nat) (p : list nat) | RNodeGate (k : nat) (p : list nat) | RNodeLock (k : nat) (p : list nat)
| RBlock (k : nat) | RBlockLock (k : nat) (i : nat).
Inductive event := Get (r : resource) | Drop (r : resource).

Section Hold.
Context {A : Type}.

(** tree.h:556-609 [setup_basics_handler]: [top] nodes above [cells] uniform cells *)
Definition setup (top cells : nat) : list event :=
  [Get RDone; Get RTop] ++ map (fun i => Get (RTopLock i)) (seq 0 (top + cells))
  ++ flat_map (fun k => [Get (RSema k); Get (RGate k)]) (seq 0 cells).

(** The gate of the node at path [p] below cell [k]. *)
Definition gate_of (k : nat) (p : list nat) : resource := match p with [] => RGate k | _ => RNodeGate k p end.

(** node.h:443-536 [partition_node_handler] and those it starts for the children it creates
    (node.h:521-530, constructor node.h:89-105).  [parent_gate] tells whether the parent has a
    gate; then the node's own gate is deleted once it has fired (455-460).  The branch is the
    one that comes out; in which order things happen is C18's matter. *)
Fixpoint partition (k : nat) (p : list nat) (parent_gate : bool) (t : tree A) : list event :=
  (if parent_gate then [Drop (gate_of k p)] else []) ++
  (fix go (cs : list (option (tree A))) (i : nat) : list event :=
     match cs with
     | [] => []
     | Some c :: cs' =>
         let q := p ++ [i] in
         [Get (RNode k q); Get (RNodeGate k q); Get (RNodeLock k q)] ++ partition k q true c ++ go cs' (S i)
     | None :: cs' => go cs' (S i)
     end) (kids t) 0.

(** node.h:318-352 [extract]: the block is allocated whatever the number of nodes. *)
Definition receive (k : nat) (m : emem) : list event :=
  Get (RBlock k) :: map (fun i => Get (RBlockLock k i)) (seq 0 (length (m_block m))).

(** node.h:386-410 [destroy_branch]: level by level, each node with its path *)
Definition below (v : list nat * tree A) : list (list nat * tree A) :=
  (fix go (cs : list (option (tree A))) (i : nat) :=
     match cs with [] => [] | Some c :: cs' => (fst v ++ [i], c) :: go cs' (S i) | None :: cs' => go cs' (S i) end) (kids (snd v)) 0.
Fixpoint destroy_branch (fuel : nat) (k : nat) (V : list (list nat * tree A)) : res (list event) :=
  match V with
  | [] => Ok []
  | _ => match fuel with
         | O => Fail OutOfFuel
         | S fuel' =>
             do rest <- destroy_branch fuel' k (flat_map below V);
             Ok (flat_map (fun v => [Drop (RNodeLock k (fst v)); Drop (RNode k (fst v))]) V ++ rest)
         end
  end.

(** tree.h:885-896: an own cell *)
Definition delete_own (fuel k : nat) (t : tree A) : res (list event) :=
  do bs <- mapM (fun v => destroy_branch fuel k [v]) (below ([], t));
  Ok ([Drop (RSema k)] ++ concat bs ++ [Drop (RGate k)]).
(** tree.h:897-907: a cell of another rank; [delete []] of anything but the start of the block
    is undefined *)
Definition delete_other (k : nat) (cs : list (option Z)) (size : nat) : res (list event) :=
  match freed_block cs with
  | None => Ok [Drop (RSema k)]
  | Some r => if (r =? 0)%Z then Ok ([Drop (RSema k)] ++ map (fun i => Drop (RBlockLock k i)) (seq 0 size) ++ [Drop (RBlock k)]) else Fail BadOp
  end.

(** One rank's view of the tree: the owner of each cell, its number of records on all ranks and
    the branch below it. *)
Variables (rank : nat) (owner : nat -> nat) (count : nat -> nat) (branch : nat -> tree A).
Definition mine (k : nat) : bool := owner k =? rank.

(** dualtree.h:1236-1273 and what follows from it for one cell: an own cell with records is
    partitioned, one of another rank received; the latter's gate is deleted once it has fired.
    The cell's parent has no gate (node.h:64-71).  [cell] is the copy of the cell that [extract]
    fills. *)
Definition build_cell (fuel : nat) (junk : Z) (cell : Z -> res enode) (k : nat) : res (list event * list (option Z) * nat) :=
  if mine k then Ok (if count k =? 0 then [] else partition k [] false (branch k), [], 0)
  else if count k =? 0 then do e <- cell (Z.of_nat k); Ok ([], e_child e, 0)
  else
    do msg <- send_node fuel junk (branch k) (Z.of_nat k);
    do im <- recv_node cell msg;
    Ok (receive k (snd im) ++ [Drop (RGate k)], e_child (m_this (snd im)), length (m_block (snd im))).
(** tree.h:877-916 for one cell; below an own cell without records there is no node *)
Definition delete_cell (fuel : nat) (k : nat) (cs : list (option Z)) (size : nat) : res (list event) :=
  if mine k then if count k =? 0 then Ok [Drop (RSema k); Drop (RGate k)] else delete_own fuel k (branch k)
  else delete_other k cs size.
Definition cell_life (fuel : nat) (junk : Z) (cell : Z -> res enode) (k : nat) : res (list event) :=
  do b <- build_cell fuel junk cell k;
  do d <- delete_cell fuel k (snd (fst b)) (snd b);
  Ok (fst (fst b) ++ d).
(** tree.h:556-609, dualtree.h:1236-1273, tree.h:877-916: a whole life *)
Definition tree_life (fuel : nat) (junk : Z) (cell : Z -> res enode) (top cells : nat) : res (list event) :=
  do es <- mapM (cell_life fuel junk cell) (seq 0 cells);
  Ok (setup top cells ++ concat es ++ map (fun i => Drop (RTopLock i)) (seq 0 (top + cells)) ++ [Drop RTop; Drop RDone]).
End Hold.
