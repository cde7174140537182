(** Finding the LCO of a DAG node from a tree index. *)
From Coq Require Import ZArith List Bool.
From Verif Require Import Base IndexModel TreeModel.
Import ListNotations.
Local Open Scope Z_scope.

(** types.h:73-87 *)
Inductive operation := Nop | StoM | StoL | MtoM | MtoL | LtoL | MtoT | LtoT | StoT | MtoI | ItoI | ItoL.

(** A node's index and its DAG nodes (dag.h:540-560): for each kind, [None] if
    absent, else the address stored in [global_addx]. *)
Record lnode := { l_idx : index; l_normal : option Z; l_interm : option Z; l_parts : option Z }.

(** tree.h:456-470: the walk.  The fuel bounds the loop, which runs once per
    level. *)
Fixpoint find_node (fuel : nat) (curr : tree lnode) (i : index) : res (tree lnode) :=
  let dlevel := ilevel i - ilevel (l_idx (info curr)) in
  do _ <- assert_ (0 <=? dlevel);
  if dlevel =? 0 then Ok curr
  else
    do _ <- assert_ (index_eqb (l_idx (info curr)) (parent dlevel i));
    let which := which_child (parent (dlevel - 1) i) in
    match fuel with
    | O => Fail OutOfFuel
    | S fuel' =>
        if which <? 0 then Fail Oob else
        if 8 <=? which then Fail Oob else
        match kid curr (Z.to_nat which) with
        | Some c => find_node fuel' c i
        | None => Fail NullDeref
        end
    end.

(** [assert(has_x()); retval = x()->global_addx;] *)
Definition have (o : option Z) : res Z := match o with Some a => Ok a | None => Fail AssertFail end.

(** tree.h:455-502 [Tree::lookup_lco_addx] *)
Definition tree_lookup (fuel : nat) (root : tree lnode) (i : index) (op : operation) : res Z :=
  do curr <- find_node fuel root i;
  do _ <- assert_ (index_eqb (l_idx (info curr)) i);
  match op with
  | Nop => Fail AssertFail
  | StoM | StoL | MtoM | MtoL | LtoL => have (l_normal (info curr))
  | MtoT | LtoT | StoT => have (l_parts (info curr))
  | MtoI | ItoI => have (l_interm (info curr))
  | ItoL => have (l_normal (info curr))
  end.

(** dualtree.h:141-184 [DualTree::lookup_lco_addx] *)
Definition dual_lookup (fuel : nat) (stree ttree : tree lnode) (i : index) (op : operation) : res Z :=
  match op with
  | Nop => Fail AssertFail
  | StoM | MtoM | MtoI => tree_lookup fuel stree i op
  | StoL | MtoL | LtoL | MtoT | LtoT | StoT | ItoI | ItoL => tree_lookup fuel ttree i op
  end.
