(** Pruning the top of the tree (tree.h:526-535, node.h:354-384). *)
From Coq Require Import ZArith List Bool.
From Verif Require Import Base IndexModel GridModel.
Import ListNotations.
Local Open Scope Z_scope.

Definition clear_child (n : tnode) (i : Z) : tnode :=
  mkTnode (t_idx n) (fun j => if j =? i then None else t_child n j) (t_parent n) (t_gate n).
Definition clear_parent (n : tnode) : tnode := mkTnode (t_idx n) (t_child n) None (t_gate n).

(** node.h:355-365 [remove_child]: the first slot holding [target] is cleared. *)
Definition remove_child (n : tnode) (target : Z) : res tnode :=
  match find (fun w => match t_child n w with Some q => q =? target | None => false end) (zseq 0 8) with
  | Some w => Ok (clear_child n w)
  | None => Fail AssertFail
  end.

(** node.h:270 [is_leaf] *)
Definition t_leaf (n : tnode) : bool := forallb (fun w => match t_child n w with None => true | Some _ => false end) (zseq 0 8).

(** node.h:374-384 [removeDownwardLinks].  [nparts] is [parts.n()] of a node.  The
    recursion goes at most limit+1 deep, bounded by the fuel. *)
Fixpoint remove_links (nparts : Z -> Z) (fuel : nat) (limit : Z) (b : block) (p : Z) (level : Z) : res (block * bool) :=
  match fuel with
  | O => Fail OutOfFuel
  | S fuel' =>
      do b1 <- (if level <? limit then
          foldM (fun b i =>
            do n <- b_load b p;
            match t_child n i with
            | None => Ok b
            | Some c =>
                do r <- remove_links nparts fuel' limit b c (level + 1);
                if snd r then
                  do cn <- b_load (fst r) c;
                  do b2 <- b_store (fst r) c (clear_parent cn);
                  do n2 <- b_load b2 p;
                  b_store b2 p (clear_child n2 i)
                else Ok (fst r)
            end) (zseq 0 8) b
        else Ok b);
      do n <- b_load b1 p;
      Ok (b1, t_leaf n && (nparts p =? 0))
  end.

(** tree.h:527-532: one uniform cell.  [ubase] is the position of [unif_grid_]. *)
Definition prune_cell (ubase : Z) (counts : Z -> Z) (b : block) (i : Z) : res block :=
  if counts i =? 0 then
    do curr <- b_load b (ubase + i);
    match t_parent curr with
    | None => Fail NullDeref
    | Some q => do pn <- b_load b q; do pn' <- remove_child pn (ubase + i); b_store b q pn'
    end
  else Ok b.

(** tree.h:526-535 [pruneTopnodes]; the root is at position 0. *)
Definition prune (nparts : Z -> Z) (ubase : Z) (counts : Z -> Z) (dim3 : Z) (unif_level : nat) (b : block) : res block :=
  do b1 <- foldM (prune_cell ubase counts) (zseq 0 (Z.to_nat dim3)) b;
  do r <- remove_links nparts unif_level (Z.of_nat unif_level - 1) b1 0 0;
  Ok (fst r).
