(** Sending the shape of a branch to the other ranks (include/dashmm/node.h). *)
From Coq Require Import ZArith List Bool Arith.
From Verif Require Import Base IndexModel TreeModel.
Import ListNotations.
Open Scope Z_scope.

Section Compress.
Context {A : Type}.

(** The children present, in slot order. *)
Definition present (t : tree A) : list (tree A) :=
  flat_map (fun w => match kid t w with Some c => [c] | None => [] end) (seq 0 8).

(** node.h:234-252 [n_descendants]: level by level; the node itself is counted. *)
Fixpoint count_loop (fuel : nat) (V : list (tree A)) (count : Z) : res Z :=
  match V with
  | [] => Ok count
  | _ => match fuel with
         | O => Fail OutOfFuel
         | S fuel' => count_loop fuel' (flat_map present V) (count + Z.of_nat (length V))
         end
  end.
Definition n_descendants (fuel : nat) (t : tree A) : res Z := count_loop fuel [t] 0.

(** State of node.h:285-308 inside the loops: the two output arrays, [curr], and
    the next level with the positions of its nodes. *)
Record cstate := mkC { c_branch : list Z; c_tree : list Z; c_curr : Z; c_next : list (tree A * Z) }.

(** node.h:296-303: one slot of one node. *)
Definition compress_slot (t : tree A) (vidx : Z) (s : cstate) (j : nat) : res cstate :=
  match kid t j with
  | None => Ok s
  | Some c =>
      do br <- set_resZ (c_branch s) (c_curr s) (Z.of_nat j);
      do tr <- set_resZ (c_tree s) (c_curr s) vidx;
      Ok (mkC br tr (c_curr s + 1) (c_next s ++ [(c, c_curr s)]))
  end.

(** node.h:294-305: one level. *)
Definition compress_level (s : cstate) (V : list (tree A * Z)) : res cstate :=
  foldM (fun s v => foldM (compress_slot (fst v) (snd v)) (seq 0 8) s) V s.

(** node.h:285-308 [compress] *)
Fixpoint compress_loop (fuel : nat) (V : list (tree A * Z)) (s : cstate) : res (list Z * list Z) :=
  match V with
  | [] => Ok (c_branch s, c_tree s)
  | _ => match fuel with
         | O => Fail OutOfFuel
         | S fuel' =>
             do s' <- compress_level (mkC (c_branch s) (c_tree s) (c_curr s) []) V;
             compress_loop fuel' (c_next s') s'
         end
  end.
Definition compress (fuel : nat) (t : tree A) (branch tr : list Z) : res (list Z * list Z) :=
  compress_loop fuel [(t, -1)] (mkC branch tr 0 []).
End Compress.

(** tree.h:795-810: the message after the address; [new char[]] leaves the arrays
    uninitialised, so their first contents are a parameter.  The [int] sizes are
    taken as exact. *)
Definition send_node {A} (fuel : nat) (junk : Z) (t : tree A) (id : Z) : res (list Z) :=
  do n <- n_descendants fuel t;
  let n_nodes := n - 1 in
  let blank := repeat junk (Z.to_nat n_nodes) in
  do bt <- if n_nodes =? 0 then Ok (blank, blank) else compress fuel t blank blank;
  Ok ([id; n_nodes] ++ fst bt ++ snd bt).

(** A node recreated by extract.  References: -1 is the uniform cell ([this]), k
    the k-th element of the new block. *)
Record enode := mkE { e_idx : index; e_parent : option Z; e_child : list (option Z) }.
Definition enode0 : enode := mkE (mkIndex 0 0 0 0) None (repeat None 8).

Record emem := mkM { m_this : enode; m_block : list enode }.

Definition e_load (m : emem) (r : Z) : res enode := if r <? 0 then Ok (m_this m) else nth_resZ (m_block m) r.
Definition e_store (m : emem) (r : Z) (n : enode) : res emem :=
  if r <? 0 then Ok (mkM n (m_block m)) else do b <- set_resZ (m_block m) r n; Ok (mkM (m_this m) b).

(** node.h:340-350: the loop body.  [dag.set_index] repeats the index. *)
Definition extract_step (branch tr : list Z) (m : emem) (i : Z) : res emem :=
  do pos <- nth_resZ tr i;
  do which <- nth_resZ branch i;
  let par := if pos <? 0 then -1 else pos in
  do curr <- nth_resZ (m_block m) i;
  do p <- e_load m par;
  do m1 <- e_store m i (mkE (child which (e_idx p)) (Some par) (e_child curr));
  do p1 <- e_load m1 par;
  do cs <- set_resZ (e_child p1) which (Some i);
  e_store m1 par (mkE (e_idx p1) (e_parent p1) cs).

(** node.h:318-352 [extract] *)
Definition extract (this : enode) (branch tr : list Z) (n_nodes : Z) : res emem :=
  foldM (extract_step branch tr) (zseq 0 (Z.to_nat n_nodes)) (mkM this (repeat enode0 (Z.to_nat n_nodes))).

(** tree.h:842-864 [recv_node_handler]: the cell the branch belongs to, and what
    is built below it.  [cell] gives the local uniform cell of a number. *)
Definition recv_node (cell : Z -> res enode) (msg : list Z) : res (Z * emem) :=
  do id <- nth_resZ msg 0;
  do n_nodes <- nth_resZ msg 1;
  do this <- cell id;
  do m <- extract this (skipn 2 msg) (skipn (Z.to_nat (2 + n_nodes)) msg) n_nodes;
  Ok (id, m).

(** tree.h:897-905: the block released when the tree is deleted, for a cell owned
    by another rank: the first child present. *)
Fixpoint freed_block (cs : list (option Z)) : option Z :=
  match cs with [] => None | Some r :: _ => Some r | None :: cs' => freed_block cs' end.
