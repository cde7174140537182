(** The DAG and its construction by a method (include/dashmm/dag.h and the traversals of
    include/dashmm/dualtree.h).  Localities and edge weights are left out here. *)
From Coq Require Import ZArith List Bool Arith.
From Verif Require Import Base IndexModel TreeModel TreeFacts LookupModel.
Import ListNotations.
Open Scope nat_scope.

(** A tree node is named by the child slots that lead to it from the root; its DAGInfo
    object (dag.h:170-600) by that path and the tree. *)
Notation path := (list nat).
Inductive side := SrcTree | TgtTree.
Definition owner := (side * path)%type.
Inductive kind := Parts | Normal | Interm.
Definition dnode := (owner * kind)%type.
(** dag.h:40-61, DAGEdge *)
Record edge := mkEdge { eop : operation; efrom : dnode; eto : dnode }.

Definition side_dec : forall a b : side, {a = b} + {a <> b}. decide equality. Defined.
Definition kind_dec : forall a b : kind, {a = b} + {a <> b}. decide equality. Defined.
Definition owner_dec : forall a b : owner, {a = b} + {a <> b}.
Proof. intros [a p] [b q]. destruct (side_dec a b); [|right; congruence]. destruct (list_eq_dec Nat.eq_dec p q); [left|right]; congruence. Defined.
Definition dnode_dec : forall a b : dnode, {a = b} + {a <> b}.
Proof. intros [a j] [b k]. destruct (owner_dec a b); [|right; congruence]. destruct (kind_dec j k); [left|right]; congruence. Defined.
Definition op_dec : forall a b : operation, {a = b} + {a <> b}. decide equality. Defined.
Definition edge_dec : forall a b : edge, {a = b} + {a <> b}.
Proof. intros [o f t] [o' f' t']. destruct (op_dec o o'); [|right; congruence]. destruct (dnode_dec f f'); [|right; congruence]. destruct (dnode_dec t t'); [left|right]; congruence. Defined.

(** What a method does to the DAG. *)
Inductive act := Add (n : dnode) | Link (e : edge).
(** dag.h:238-274 with the asserts of the callers: a second addition fails. *)
Definition add_normal (o : owner) : act := Add (o, Normal).
Definition add_interm (o : owner) : act := Add (o, Interm).
Definition add_parts (o : owner) : act := Add (o, Parts).
(** dag.h:382-531: [this] is the object the code calls, [o] the argument. *)
Definition do_StoM (this o : owner) : act := Link (mkEdge StoM (o, Parts) (this, Normal)).
Definition do_StoL (this o : owner) : act := Link (mkEdge StoL (o, Parts) (this, Normal)).
Definition do_MtoM (this o : owner) : act := Link (mkEdge MtoM (o, Normal) (this, Normal)).
Definition do_MtoL (this o : owner) : act := Link (mkEdge MtoL (o, Normal) (this, Normal)).
Definition do_LtoL (this o : owner) : act := Link (mkEdge LtoL (o, Normal) (this, Normal)).
Definition do_MtoT (this o : owner) : act := Link (mkEdge MtoT (this, Normal) (o, Parts)).
Definition do_LtoT (this o : owner) : act := Link (mkEdge LtoT (this, Normal) (o, Parts)).
Definition do_StoT (this o : owner) : act := Link (mkEdge StoT (o, Parts) (this, Parts)).
Definition do_MtoI (this o : owner) : act := Link (mkEdge MtoI (o, Normal) (this, Interm)).
Definition do_ItoI (this o : owner) : act := Link (mkEdge ItoI (o, Interm) (this, Interm)).
Definition do_ItoL (this o : owner) : act := Link (mkEdge ItoL (o, Interm) (this, Normal)).

(** The nodes made so far and the edges, each with its origin and destination
    (dag.h:563-573 puts the edge into the list of its origin and counts it at its
    destination; see LinkModel for the interleaving of these two steps). *)
Record dag := mkDag { dnodes : list dnode; dedges : list edge }.
Definition has (d : dag) (n : dnode) : bool := if in_dec dnode_dec n (dnodes d) then true else false.
Definition exec (d : dag) (a : act) : res dag :=
  match a with
  | Add n => do _ <- assert_ (negb (has d n)); Ok (mkDag (n :: dnodes d) (dedges d))
  | Link e => do _ <- assert_ (has d (efrom e)); do _ <- assert_ (has d (eto e)); Ok (mkDag (dnodes d) (e :: dedges d))
  end.
(** The actions of all tasks in the order a schedule performs them. *)
Definition run (l : list act) : res dag := foldM exec l (mkDag [] []).

Section Build.
Context {A B : Type}.
(** A tree node: its path and the tree below it. *)
Definition snode := (path * tree A)%type.
Definition tnode := (path * tree B)%type.
(** node.h:418-427: the loops over the child array. *)
Definition children {X} (n : path * tree X) : list (path * tree X) :=
  flat_map (fun w => match kid (snd n) w with Some c => [(fst n ++ [w], c)] | None => [] end) (seq 0 8).
(** The index of a node: the root has index (0,0,0) at level 0 (tree.h:82-91), a child
    idx.child(which) (node.h:505). *)
Definition root_index : index := mkIndex 0 0 0 0.
Definition idx_of (p : path) : index := follow root_index p.

(** The members of a method that build the DAG.  [inherit] also gets has_interm() of the
    parent's DAGInfo. *)
Record method := mkMethod {
  generate : snode -> list act;
  aggregate : snode -> list act;
  inherit : tnode -> bool -> bool -> list act;
  process : tnode -> list snode -> bool -> res (list act * list snode);
  refine_test : bool -> tnode -> list snode -> bool }.

Context (m : method) (unif_level : nat) (same : bool).

(** A task: the DAG actions of one node, in program order. *)
Definition task := (owner * list act)%type.

(** dualtree.h:1717-1783, source_apply_method(_child_done): the tasks of the nodes below
    and of the node itself.  The assertion fails for a leaf above the uniform level. *)
Fixpoint source_apply (fuel : nat) (n : snode) : res (list task) :=
  match fuel with
  | O => Fail OutOfFuel
  | S fuel' =>
    if n_children (snd n) =? 0 then
      do _ <- assert_ (unif_level <=? length (fst n));
      Ok [((SrcTree, fst n), generate m n)]
    else
      do ts <- mapM (source_apply fuel') (children n);
      Ok (concat ts ++ [((SrcTree, fst n), aggregate m n)])
  end.

Definition is_add_interm (p : path) (a : act) : bool :=
  match a with Add n => if dnode_dec n ((TgtTree, p), Interm) then true else false | Link _ => false end.
(** dualtree.h:1803-1808 *)
Definition refines (n : tnode) (consider : list snode) : bool :=
  if length (fst n) <? unif_level then true
  else if n_children (snd n) =? 0 then false else refine_test m same n consider.
(** dualtree.h:1798-1854, target_apply_method *)
Fixpoint target_apply (fuel : nat) (n : tnode) (parent_interm : bool) (consider : list snode) : res (list task) :=
  match fuel with
  | O => Fail OutOfFuel
  | S fuel' =>
    let refine := refines n consider in
    let a1 := inherit m n parent_interm (negb refine) in
    do r <- process m n consider (negb refine);
    let '(a2, consider') := r in
    let me := ((TgtTree, fst n), a1 ++ a2) in
    if refine then
      do ts <- mapM (fun c => target_apply fuel' c (existsb (is_add_interm (fst n)) (a1 ++ a2)) consider') (children n);
      Ok (me :: concat ts)
    else Ok [me]
  end.

(** dualtree.h:209-245, create_DAG: the tasks of the source phase and of the target phase. *)
Definition create_dag (fuel : nat) (stree : tree A) (ttree : tree B) : res (list task * list task) :=
  do s <- source_apply fuel ([], stree);
  do t <- target_apply fuel ([], ttree) false [([], stree)];
  Ok (s, t).
End Build.
Arguments method : clear implicits.
