(** The table of the edges of a DAG between localities (src/dag.cc:29-86, 111-129).  The file
    written is the list of its lines; counts beyond the range of int are undefined. *)
From Coq Require Import ZArith List Bool.
From Verif Require Import Base LookupModel DagModel.
Import ListNotations.
Open Scope Z_scope.

(** dag.cc:31-71 *)
Definition optoint (o : operation) : Z :=
  match o with Nop => 0 | StoM => 1 | StoL => 2 | MtoM => 3 | MtoL => 4 | LtoL => 5 | MtoT => 6 | LtoT => 7 | StoT => 8 | MtoI => 9 | ItoI => 10 | ItoL => 11 end.
Definition edge_table : Type := list (list (list Z)).
(** dag.cc:73-78; a negative length is refused by an exception *)
Definition zero_table (n : Z) : res edge_table :=
  if n <? 0 then Fail BadOp else Ok (repeat (repeat (repeat 0 (Z.to_nat n)) (Z.to_nat n)) 12).

Section Count.
  Variable loc : dnode -> Z.
  Variable outs : dnode -> list edge.
  (** dag.cc:84: edges[i][j][k] += 1 *)
  Definition bump (t : edge_table) (i j k : Z) : res edge_table :=
    do plane <- nth_resZ t i;
    do row <- nth_resZ plane j;
    do c <- nth_resZ row k;
    do c' <- (if c + 1 <? 2 ^ 31 then Ok (c + 1) else Fail Overflow);
    do row' <- set_resZ row k c';
    do plane' <- set_resZ plane j row';
    set_resZ t i plane'.
  (** dag.cc:80-87 *)
  Definition collect_edges (nodes : list dnode) (t : edge_table) : res edge_table :=
    foldM (fun t v => foldM (fun t e => bump t (optoint (eop e)) (loc v) (loc (eto e))) (outs v) t) nodes t.
  (** dag.cc:111-129: the operation, the two localities and the count of every line *)
  Definition printedges (source_leaves source_nodes target_nodes : list dnode) (n : Z) : res (list (Z * Z * Z * Z)) :=
    do t <- zero_table n;
    do t <- collect_edges source_leaves t;
    do t <- collect_edges source_nodes t;
    do t <- collect_edges target_nodes t;
    do lines <- mapM (fun i => mapM (fun j => mapM (fun k =>
      do plane <- nth_resZ t i; do row <- nth_resZ plane j; do c <- nth_resZ row k; Ok (i, j, k, c))
      (zseq 0 (Z.to_nat n))) (zseq 0 (Z.to_nat n))) (zseq 0 12);
    Ok (concat (map (@concat _) lines)).
End Count.
