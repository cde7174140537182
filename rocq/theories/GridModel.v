(** Model of the uniform grid numbering and of the allocation of the top of
    the tree: include/dashmm/tree.h:421-447, 556-609. *)
From Coq Require Import ZArith List Bool.
From Verif Require Import Base IndexModel.
Import ListNotations.
Local Open Scope Z_scope.

(** 32-bit unsigned arithmetic. *)
Definition u32 (z : Z) : Z := z mod 2 ^ 32.
(** Conversion of an unsigned 64-bit value to [int] (two's complement). *)
Definition to_int (z : Z) : Z :=
  let m := z mod 2 ^ 32 in if m <? 2 ^ 31 then m else m - 2 ^ 32.

(** tree.h:421-423 [simple_key]: all arguments are [unsigned], so the
    arithmetic is modulo 2^32 before widening to uint64_t. *)
Definition simple_key (x y z max : Z) : Z :=
  u32 (u32 x + u32 (u32 y * u32 max) + u32 (u32 (u32 z * u32 max) * u32 max)).

(** tree.h:432-447 [get_unif_grid_index]. *)
Definition get_unif_grid_index (i : index) (uniflevel : Z) : Z :=
  let delta := ilevel i - uniflevel in
  if delta <? 0 then -1
  else
    let max := Z.shiftl 1 uniflevel in
    if delta >? 0 then
      let t := parent delta i in
      to_int (simple_key (ix t) (iy t) (iz t) max)
    else to_int (simple_key (ix i) (iy i) (iz i) max).

(** A node of the preallocated block.  Pointers to nodes are positions in the
    block [root_] (all top nodes live in one array).  node.h:64-70: default
    construction.  [t_gate] records add_lock()/add_completion(), which assert
    that they have not been called before (node.h:125-136). *)
Record tnode := mkTnode {
  t_idx : index;
  t_child : Z -> option Z;
  t_parent : option Z;
  t_gate : bool }.

Definition tnode0 : tnode := mkTnode (mkIndex 0 0 0 0) (fun _ => None) None false.

(** The block: its size and its contents. *)
Record block := mkBlock { b_size : Z; b_at : Z -> tnode }.

Definition b_load (b : block) (p : Z) : res tnode :=
  if (0 <=? p) && (p <? b_size b) then Ok (b_at b p) else Fail Oob.

Definition b_store (b : block) (p : Z) (n : tnode) : res block :=
  if (0 <=? p) && (p <? b_size b)
  then Ok (mkBlock (b_size b) (fun q => if q =? p then n else b_at b q))
  else Fail Oob.

(** Field updates. *)
Definition set_child (n : tnode) (i : Z) (c : Z) : tnode :=
  mkTnode (t_idx n) (fun j => if j =? i then Some c else t_child n j) (t_parent n) (t_gate n).
Definition set_idx (n : tnode) (i : index) : tnode :=
  mkTnode i (t_child n) (t_parent n) (t_gate n).
Definition set_parent (n : tnode) (p : Z) : tnode :=
  mkTnode (t_idx n) (t_child n) (Some p) (t_gate n).
Definition add_gate (n : tnode) : res tnode :=
  if t_gate n then Fail AssertFail
  else Ok (mkTnode (t_idx n) (t_child n) (t_parent n) true).

(** tree.h:561-564: n_top_nodes = 1 + sum_{1<=i<unif_level} 8^i. *)
Definition n_top_nodes (L : nat) : Z :=
  fold_left (fun acc i => acc + 8 ^ Z.of_nat i) (seq 1 (L - 1)) 1.

(** tree.h:579-585: body of the child loop at the lower levels. *)
Definition top_child_body (nd : Z) (b : block) (i : Z) : res block :=
  let firstchild := nd * 8 + 1 in
  do snode <- b_load b nd;
  do b1 <- b_store b nd (set_child snode i (firstchild + i));
  do sc <- b_load b1 (firstchild + i);
  do sn1 <- b_load b1 nd;
  do b2 <- b_store b1 (firstchild + i) (set_parent (set_idx sc (child i (t_idx sn1))) nd);
  Ok b2.

(** tree.h:588-600: body of the child loop at the last level. *)
Definition last_child_body (ubase : Z) (L : nat) (nd : Z) (b : block) (i : Z) : res block :=
  do snode <- b_load b nd;
  let cindex := child i (t_idx snode) in
  let kval := simple_key (ix cindex) (iy cindex) (iz cindex) (Z.shiftl 1 (Z.of_nat L)) in
  do b1 <- b_store b nd (set_child snode i (ubase + kval));
  do uc <- b_load b1 (ubase + kval);
  do uc' <- add_gate (set_parent (set_idx uc cindex) nd);
  b_store b1 (ubase + kval) uc'.

(** tree.h:573-602: loop over the nodes [startingnode, stoppingnode) of a level. *)
Definition level_loop (ubase : Z) (L level : nat) (start stop : Z) (b : block) : res block :=
  foldM (fun b nd =>
           if negb (Nat.eqb level (L - 1))
           then foldM (top_child_body nd) (zseq 0 8) b
           else foldM (last_child_body ubase L nd) (zseq 0 8) b)
        (zseq start (Z.to_nat (stop - start))) b.

(** tree.h:572-606: loop over levels, carrying startingnode and stoppingnode. *)
Fixpoint levels_loop (ubase : Z) (L : nat) (levels : list nat) (start stop : Z) (b : block)
  : res block :=
  match levels with
  | [] => Ok b
  | l :: ls =>
      do b' <- level_loop ubase L l start stop b;
      levels_loop ubase L ls (start + 8 ^ Z.of_nat l) (stop + 8 ^ Z.of_nat (l + 1)) b'
  end.

(** tree.h:556-609 [setup_basics_handler]; LCO creation is reduced to the
    [t_gate] flag, [dag.set_index] repeats the node index and is left out,
    [pow(8, i)] is taken to be exact.  Returns the block and the position of
    [unif_grid_] in it. *)
Definition setup_basics (L : nat) : res (block * Z) :=
  let ntop := n_top_nodes L in
  let dim3 := 8 ^ Z.of_nat L in
  let b0 := mkBlock (ntop + dim3) (fun _ => tnode0) in
  do r <- b_load b0 0;
  do b1 <- b_store b0 0 (set_idx r (mkIndex 0 0 0 0));
  do b2 <- levels_loop ntop L (seq 0 L) 0 1 b1;
  Ok (b2, ntop).

(** Follow child links from a node. *)
Fixpoint walk (b : block) (p : Z) (path : list Z) : res Z :=
  match path with
  | [] => Ok p
  | w :: ws =>
      do n <- b_load b p;
      match t_child n w with
      | Some q => walk b q ws
      | None => Fail NullDeref
      end
  end.
