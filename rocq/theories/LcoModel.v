(** The life of a DAG after it was built: the LCOs made for its nodes and their destruction
    (include/dashmm/dualtree.h), the deletion of the nodes (include/dashmm/dag.h) and the expansion an
    ExpansionLCO holds (include/dashmm/expansionlco.h).  One rank is looked at.  The order in which the
    concurrent actions of HPX-5 run is left open: the functions below return what is to be done, and the
    theorems quantify over the orders.  The addresses the ranks exchange for the nodes of other ranks, and
    the names, sizes and contents of the LCOs, are left out. *)
From Coq Require Import ZArith List Bool Arith.
From Verif Require Import Base TreeModel DagModel DistroModel.
Import ListNotations.
Open Scope nat_scope.

(** ** The LCOs of one rank *)
(** [addx x] is global_addx of the node (dag.h:100), [alive] the LCOs that exist, [total] the number
    made so far, which names the next one. *)
Record pool := mkPool { addx : dnode -> option nat; alive : list nat; total : nat }.
(** dag.h:55-57: a new node has no address *)
Definition pool0 : pool := mkPool (fun _ => None) [] 0.
(** expansionlco.h:109-117, targetlco.h:85-90: a new LCO; dag.h:321-352: its address goes into the
    node, whatever was there before *)
Definition make (s : pool) (x : dnode) : pool :=
  mkPool (fun y => if dnode_dec y x then Some (total s) else addx s y) (total s :: alive s) (S (total s)).

Section Rank.
(** [has] and [loc]: the nodes of the DAG and their localities *)
Context (has : dnode -> bool) (loc : dnode -> Z) (rank : Z).
(** has_normal() and normal()->locality == myrank, and the like *)
Definition local (x : dnode) : bool := has x && (loc x =? rank)%Z.
Definition wanted (x : dnode) : list dnode := if local x then [x] else [].
(** dualtree.h:1363-1412: the nodes that get an LCO at a source node and below it *)
Fixpoint create_S {X} (fuel : nat) (n : path * tree X) : res (list dnode) :=
  match fuel with
  | O => Fail OutOfFuel
  | S fuel' =>
    let o := (SrcTree, fst n) in
    do l <- mapM (create_S fuel') (children n);
    Ok (wanted (o, Normal) ++ wanted (o, Interm) ++ concat l)
  end.
(** dualtree.h:1430-1490: the same of a target node; the walk ends where there are targets *)
Fixpoint create_T {X} (fuel : nat) (n : path * tree X) : res (list dnode) :=
  match fuel with
  | O => Fail OutOfFuel
  | S fuel' =>
    let o := (TgtTree, fst n) in
    let mine := wanted (o, Normal) ++ wanted (o, Interm) in
    if has (o, Parts) then Ok (mine ++ wanted (o, Parts))
    else
      do l <- mapM (create_T fuel') (children n);
      Ok (mine ++ concat l)
  end.

(** dualtree.h:1926-1945, one step of the loop; deleting an LCO that is not there is an error *)
Definition kill (s : pool) (x : dnode) : res pool :=
  if (loc x =? rank)%Z then
    match addx s x with
    | None => Fail AssertFail
    | Some i =>
      if in_dec Nat.eq_dec i (alive s) then Ok (mkPool (addx s) (remove Nat.eq_dec i (alive s)) (total s))
      else Fail BadOp
    end
  else Ok s.
End Rank.

(** ** The nodes *)
(** dag.h:170-173, the four vectors; dualtree.h:258-268 fills them *)
Record vectors := mkVectors { source_leaves : list dnode; source_nodes : list dnode; target_nodes : list dnode; target_leaves : list dnode }.
Definition vectors_of (s t : list dnode * list dnode) : vectors := mkVectors (snd s) (fst s) (fst t) (snd t).
(** dualtree.h:394-414: what destroy_DAG_LCOs goes through *)
Definition to_kill (v : vectors) : list dnode := target_leaves v ++ target_nodes v ++ source_nodes v.
(** dag.h:131-144: what ~DAG goes through *)
Definition to_delete (v : vectors) : list dnode := source_leaves v ++ source_nodes v ++ target_nodes v ++ target_leaves v.
(** operator delete on a node; the list holds the nodes that exist *)
Definition delete_node (l : list dnode) (x : dnode) : res (list dnode) :=
  if in_dec dnode_dec x l then Ok (remove dnode_dec x l) else Fail BadOp.
(** dag.h:59-61: the destructor of a node leaves the pointers of the DAGInfo object as they are (the call
    of remove_node is commented out), so that they still say that there is a node; a second creation
    on the same tree meets them. *)
Definition run_again (d : dag) (l : list act) : res dag := foldM exec l (mkDag (dnodes d) []).

(** ** The expansion of an ExpansionLCO *)
(** Where the action spawn_out_edges_ is: not yet possible, to be run, its contributions made
    but the expansion not yet deleted (expansionlco.h:402-405, 470-474), over. *)
Inductive stage := Waiting | Ready | Sent | Over.
(** [yta] yet_to_arrive, [obj] the pointer data, [made] the number of expansions made (which names
    the next one), [freed] those deleted, [gone] the LCO itself deleted *)
Record cell := mkCell { yta : nat; obj : option nat; made : nat; freed : list nat; at_stage : stage; gone : bool }.
Inductive event := Set_ | Work | Free | Reset | Destroy.

Section Cell.
(** in_count() and out_count() of the node *)
Context (ins outs : nat).
(** expansionlco.h:114-140, 316-319 *)
Definition cell0 : cell := mkCell ins None 0 [] Waiting false.
(** operator delete on an expansion: null is allowed, one deleted before not *)
Definition drop (c : cell) : res (list nat) :=
  match obj c with
  | None => Ok (freed c)
  | Some i => if in_dec Nat.eq_dec i (freed c) then Fail BadOp else Ok (i :: freed c)
  end.
Definition step (c : cell) (e : event) : res cell :=
  match e with
  | Set_ => (* expansionlco.h:338-362, 368-370: trigger when nothing is left, with the action
               attached when there are out edges (138-140, 156-158) *)
    if gone c then Fail BadOp else
    let c1 := match obj c with None => mkCell (yta c) (Some (made c)) (S (made c)) (freed c) (at_stage c) false | Some _ => c end in
    match yta c1 with
    | O => Fail AssertFail
    | S k => Ok (mkCell k (obj c1) (made c1) (freed c1) (if (k =? 0) && negb (outs =? 0) then Ready else at_stage c1) false)
    end
  | Work => (* expansionlco.h:384-402, 410-469: reads the expansion *)
    if gone c then Fail BadOp else
    match obj c with
    | None => Fail NullDeref
    | Some i => if in_dec Nat.eq_dec i (freed c) then Fail BadOp else Ok (mkCell (yta c) (obj c) (made c) (freed c) Sent false)
    end
  | Free => (* expansionlco.h:403-404, 473-474 *)
    if gone c then Fail BadOp else
    do f <- drop c; Ok (mkCell (yta c) None (made c) f Over false)
  | Reset => (* expansionlco.h:143-161, 316-319: the pointer stays as it is *)
    if gone c then Fail BadOp else Ok (mkCell ins (obj c) (made c) (freed c) Waiting false)
  | Destroy => (* expansionlco.h:164-182 *)
    if gone c then Fail BadOp else
    do f <- drop c; Ok (mkCell (yta c) (obj c) (made c) f (at_stage c) true)
  end.
(** What can happen next: contributions come once along each in edge, the action runs once in
    its two parts.  The evaluator resets and destroys when every contribution of the DAG has been made
    (evaluator.h:216-243); with [settled] also every action has ended.  A reset between the two parts
    is left out. *)
Definition allowed (settled : bool) (c : cell) (e : event) : bool :=
  match e with
  | Set_ => negb (gone c) && negb (yta c =? 0)
  | Work => match at_stage c with Ready => true | _ => false end
  | Free => match at_stage c with Sent => true | _ => false end
  | Reset => negb (gone c) && match at_stage c with Ready | Sent => false | _ => true end
  | Destroy => negb (gone c) && match at_stage c with Ready => false | Sent => negb settled | _ => true end
  end.
(** A history; None when an event of it cannot happen *)
Fixpoint play (settled : bool) (c : cell) (es : list event) : option (res cell) :=
  match es with
  | [] => Some (Ok c)
  | e :: es' =>
    if allowed settled c e then
      match step c e with Ok c' => play settled c' es' | Fail x => Some (Fail x) end
    else None
  end.
End Cell.
