(** Messages that carry the output edges of a DAG node to another rank.
    A message is its bytes; integers are little endian (x86-64), pointers and
    [hpx_addr_t] 8 bytes.  Padding bytes of the records are written as 0. *)
From Coq Require Import ZArith List Bool Arith.
From Verif Require Import Base ArrayRefModel BufferModel ViewSetModel IndexModel TreeModel LookupModel EdgeGroupModel.
Import ListNotations.
Open Scope nat_scope.

(** ** Serializers and blocks of memory *)

(** serializer.h:38-73 [Serializer] for records of type [A]: the size reported,
    the bytes written at [buffer], and what is read from the bytes starting at
    [buffer] together with how far the returned pointer moved. *)
Record serializer (A : Type) := { z_size : A -> nat; z_write : A -> list Z; z_read : list Z -> res (A * nat) }.
Arguments z_size {A}. Arguments z_write {A}. Arguments z_read {A}.

(** [new char[n]]: uninitialised, so the contents are arbitrary. *)
Definition fill (junk : nat -> Z) (n : nat) : list Z := map junk (seq 0 n).

(** Storing at a pointer and moving it behind what was stored. *)
Definition put_at (s : list Z * nat) (d : list Z) : res (list Z * nat) :=
  do m <- store (fst s) (snd s) d; Ok (m, snd s + length d).
(** [ptr = manager->serialize(&x, ptr)] *)
Definition ser_at {A} (z : serializer A) (s : list Z * nat) (x : A) : res (list Z * nat) := put_at s (z_write z x).
(** [ptr = manager->deserialize(ptr, &x)]; a pointer beyond the message fails. *)
Definition deser_at {A} (z : serializer A) (msg : list Z) (s : list A * nat) : res (list A * nat) :=
  if length msg <? snd s then Fail Oob else
  do r <- z_read z (skipn (snd s) msg); Ok (fst s ++ [fst r], snd s + snd r).

(** Reading an [int] and an 8-byte unsigned integer. *)
Definition get_i32 (mem : list Z) (off : nat) : res Z := do b <- load mem off 4; Ok (s32 (le_dec b)).
Definition get_u64 (mem : list Z) (off : nat) : res Z := do b <- load mem off 8; Ok (le_dec b).

(** index.h:109-110: [int idx_[3]; int level_;] *)
Definition index_bytes (i : index) : list Z := le_enc 4 (ix i) ++ le_enc 4 (iy i) ++ le_enc 4 (iz i) ++ le_enc 4 (ilevel i).
Definition get_index (mem : list Z) (off : nat) : res index :=
  do x <- get_i32 mem off; do y <- get_i32 mem (off + 4); do z <- get_i32 mem (off + 8); do l <- get_i32 mem (off + 12);
  Ok (mkIndex x y z l).

(** types.h:75-88: the enumerators in order, stored as [int]. *)
Definition op_code (o : operation) : Z :=
  match o with
  | Nop => 0 | StoM => 1 | StoL => 2 | MtoM => 3 | MtoL => 4 | LtoL => 5 | MtoT => 6 | LtoT => 7 | StoT => 8
  | MtoI => 9 | ItoI => 10 | ItoL => 11
  end%Z.
Definition op_of (c : Z) : res operation :=
  match c with
  | 0 => Ok Nop | 1 => Ok StoM | 2 => Ok StoL | 3 => Ok MtoM | 4 => Ok MtoL | 5 => Ok LtoL | 6 => Ok MtoT | 7 => Ok LtoT
  | 8 => Ok StoT | 9 => Ok MtoI | 10 => Ok ItoI | 11 => Ok ItoL | _ => Fail BadOp
  end%Z.

(** An output edge as the sender sees it: [op], [target->global_addx] (0 is
    [HPX_NULL]), [target->index()], [target->locality]. *)
Record oedge := { o_op : operation; o_addr : Z; o_idx : index; o_loc : Z }.

(** What a handler does with its edges: for [Done], the edges it applied; for
    [Parcel], the bytes sent and the rank. *)
Inductive out (R : Type) : Type := Done (recs : list R) | Parcel (rank : Z) (bytes : list Z).
Arguments Done {R}. Arguments Parcel {R}.

(** ** Edges out of the source leaves *)

(** dualtree.h:500-504 [DAGInstigationRecord]: 4 bytes op, 4 padding, 8 target,
    16 index. *)
Record irec := { r_op : operation; r_target : Z; r_idx : index }.
Definition irec_size : nat := 32.
(** dualtree.h:1570-1574 *)
Definition irec_bytes (e : oedge) : list Z :=
  le_enc 4 (op_code (o_op e)) ++ le_enc 4 0 ++ le_enc 8 (o_addr e) ++ index_bytes (o_idx e).
(** [edges[i]] for [edges] at [off]. *)
Definition get_irec (mem : list Z) (off : nat) : res irec :=
  do c <- get_i32 mem off; do o <- op_of c; do t <- get_u64 mem (off + 8); do i <- get_index mem (off + 16);
  Ok {| r_op := o; r_target := t; r_idx := i |}.
Definition get_irecs (mem : list Z) (off n : nat) : res (list irec) :=
  mapM (fun k => get_irec mem (off + k * irec_size)) (seq 0 n).

(** dualtree.h:1658-1704 [instigate_dag_eval_work]: the edges applied to the
    sources; every other operation hits an assert. *)
Definition inst_work (edges : list irec) : res (list irec) :=
  mapM (fun e => match r_op e with StoM | StoL | StoT => Ok e | _ => Fail AssertFail end) edges.

(** dualtree.h:1525-1533: the sizes of the scratch block. *)
Definition source_size {A} (z : serializer A) (sources : list A) : nat := fold_left (fun a x => a + z_size z x) sources 0.
Definition header_size {A} (z : serializer A) (sources : list A) : nat := source_size z sources + 8 + 8.

(** dualtree.h:1525-1550: allocating the scratch block and copying the tree
    address, the number of sources and the sources into it. *)
Definition inst_header {A} (z : serializer A) (junk : nat -> Z) (rwtree : Z) (sources : list A) (n_edges : nat) : res (list Z) :=
  let total := header_size z sources + 8 + n_edges * irec_size in
  do m <- store (fill junk total) 0 (le_enc 8 rwtree);
  do m <- store m 8 (le_enc 8 (Z.of_nat (length sources)));
  do s <- foldM (ser_at z) sources (m, 16);
  Ok (fst s).

(** dualtree.h:1560-1590: one run of edges, written over the previous one. *)
Definition inst_step (hdr : nat) (s : list Z * list (out irec)) (a : action oedge) : res (list Z * list (out irec)) :=
  let '(m, outs) := s in
  let es := match a with Work es => es | Send _ es => es end in
  do m <- store m hdr (le_enc 8 (Z.of_nat (length es)));
  do w <- foldM put_at (map irec_bytes es) (m, hdr + 8);
  let m := fst w in
  match a with
  | Work _ => do recs <- get_irecs m (hdr + 8) (length es); do done <- inst_work recs; Ok (m, outs ++ [Done done])
  | Send r _ => do parc <- load m 0 (hdr + 8 + irec_size * length es); Ok (m, outs ++ [Parcel r parc])
  end.

(** dualtree.h:1517-1595 for one node, after the sort.  Local work happens on
    [sources] itself. *)
Definition instigate {A} (z : serializer A) (junk : nat -> Z) (rwtree my_rank : Z) (sources : list A) (sorted : list oedge)
  : res (list (out irec)) :=
  do m <- inst_header z junk rwtree sources (length sorted);
  do acts <- instigate_split o_loc my_rank sorted;
  do r <- foldM (inst_step (header_size z sources)) acts (m, []);
  Ok (snd r).

(** dualtree.h:1613-1631: the tree address, sources and edges in a message. *)
Definition inst_unpack {A} (z : serializer A) (msg : list Z) : res (Z * list A * list irec) :=
  do addr <- get_u64 msg 0;
  do n_src <- get_u64 msg 8;
  do s <- foldM (fun s (_ : nat) => deser_at z msg s) (seq 0 (Z.to_nat n_src)) ([], 16);
  do n_edges <- get_u64 msg (snd s);
  do edges <- get_irecs msg (snd s + 8) (Z.to_nat n_edges);
  Ok (addr, fst s, edges).

(** dualtree.h:1633-1641: unknown addresses are looked up in the target tree. *)
Definition inst_resolve (ttree : tree lnode) (e : irec) : res irec :=
  if (r_target e =? 0)%Z
  then do a <- tree_lookup (Z.to_nat (ilevel (r_idx e))) ttree (r_idx e) (r_op e); Ok {| r_op := r_op e; r_target := a; r_idx := r_idx e |}
  else Ok e.

(** dualtree.h:1611-1648 [instigate_dag_eval_remote_handler]: the sources and
    the edges applied to them. *)
Definition inst_remote {A} (z : serializer A) (ttree : tree lnode) (msg : list Z) : res (list A * list irec) :=
  do u <- inst_unpack z msg;
  let '(_, sources, edges) := u in
  do edges <- mapM (inst_resolve ttree) edges;
  do done <- inst_work edges;
  Ok (sources, done).

(** ** Edges out of the expansions *)

(** expansionlco.h:296-306 [Header]: node, expansion size, address, index, then
    48 bytes (centre, scale, data pointer, role, inputs to come) that the
    modelled code copies as they are. *)
Record header := { h_node : Z; h_size : Z; h_rwaddr : Z; h_index : index; h_rest : list Z }.
Definition header_bytes (h : header) : list Z :=
  le_enc 8 (h_node h) ++ le_enc 8 (h_size h) ++ le_enc 8 (h_rwaddr h) ++ index_bytes (h_index h) ++ h_rest h.
Definition hsize : nat := 88.
Definition get_header (mem : list Z) : res header :=
  do n <- get_u64 mem 0; do s <- get_u64 mem 8; do r <- get_u64 mem 16; do i <- get_index mem 24; do rest <- load mem 40 48;
  Ok {| h_node := n; h_size := s; h_rwaddr := r; h_index := i; h_rest := rest |}.

(** expansionlco.h:283-288 [OutEdgeRecord]: 4 bytes op, 4 padding, 8 target, 16
    index, 4 locality, 4 padding. *)
Record orec := { e_op : operation; e_target : Z; e_tidx : index; e_locality : Z }.
Definition orec_size : nat := 40.
(** expansionlco.h:396-401 *)
Definition orec_of (e : oedge) : orec := {| e_op := o_op e; e_target := o_addr e; e_tidx := o_idx e; e_locality := o_loc e |}.
Definition orec_bytes (e : orec) : list Z :=
  le_enc 4 (op_code (e_op e)) ++ le_enc 4 0 ++ le_enc 8 (e_target e) ++ index_bytes (e_tidx e) ++ le_enc 4 (e_locality e) ++ le_enc 4 0.
Definition get_orec (mem : list Z) (off : nat) : res orec :=
  do c <- get_i32 mem off; do o <- op_of c; do t <- get_u64 mem (off + 8); do i <- get_index mem (off + 16); do l <- get_i32 mem (off + 32);
  Ok {| e_op := o; e_target := t; e_tidx := i; e_locality := l |}.
Definition get_orecs (mem : list Z) (off n : nat) : res (list orec) :=
  mapM (fun k => get_orec mem (off + k * orec_size)) (seq 0 n).

(** expansionlco.h:545-578 [spawn_out_edges_work] *)
Definition spawn_work (edges : list orec) : res (list orec) :=
  mapM (fun e => match e_op e with MtoM | MtoL | LtoL | MtoT | LtoT | MtoI | ItoI | ItoL => Ok e | _ => Fail AssertFail end) edges.

(** expansionlco.h:413-426: header and expansion in the scratch block.  [views]
    is [head->data->get_all_views()]; the buffer handed to [serialize] is the
    part of the block behind the header. *)
Definition spawn_header (junk : nat -> Z) (h : header) (views : viewset) (n_edges : nat) : res (list Z) :=
  let esize := Z.to_nat (h_size h) in
  let edgeless := hsize + esize in
  do m <- store (fill junk (edgeless + orec_size * n_edges)) 0 (header_bytes h);
  do part <- load m hsize esize;
  do b <- serialize views (mk_buf part);
  store m hsize (b_mem b).

(** expansionlco.h:438-461: one run of edges. *)
Definition spawn_step (edgeless : nat) (s : list Z * list (out orec)) (a : action oedge) : res (list Z * list (out orec)) :=
  let '(m, outs) := s in
  match a with
  | Work es => do done <- spawn_work (map orec_of es); Ok (m, outs ++ [Done done])
  | Send r es =>
      do m <- store m edgeless (concat (map (fun e => orec_bytes (orec_of e)) es));
      do parc <- load m 0 (edgeless + orec_size * length es);
      Ok (m, outs ++ [Parcel r parc])
  end.

(** expansionlco.h:381-475 [spawn_out_edges_handler], after the sort. *)
Definition spawn_out_edges (junk : nat -> Z) (num_ranks my_rank : Z) (h : header) (views : viewset) (sorted : list oedge)
  : res (list (out orec)) :=
  if (num_ranks =? 1)%Z then do done <- spawn_work (map orec_of sorted); Ok [Done done]
  else
    do m <- spawn_header junk h views (length sorted);
    do acts <- out_edges_split o_loc num_ranks my_rank sorted;
    do r <- foldM (spawn_step (hsize + Z.to_nat (h_size h))) acts (m, []);
    Ok (snd r).

(** expansionlco.h:500-516: the header, the expansion (its bytes and the views
    into them) and the edges in a message.  The count is computed in [size_t],
    converted to [int], then divided as [size_t] again. *)
Definition spawn_unpack (msg : list Z) : res (header * list Z * pviewset * list orec) :=
  do h <- get_header msg;
  let esize := Z.to_nat (h_size h) in
  do exp <- load msg hsize esize;
  do v <- interpret_vs (mk_buf exp);
  let bytes := s32 (Z.of_nat (length msg) - Z.of_nat hsize - h_size h) in
  let count := s32 (u64 bytes / Z.of_nat orec_size)%Z in
  do edges <- get_orecs msg (hsize + esize) (Z.to_nat count);
  Ok (h, exp, snd v, edges).

(** expansionlco.h:518-528: unknown addresses are looked up in the dual tree. *)
Definition spawn_resolve (stree ttree : tree lnode) (e : orec) : res orec :=
  if (e_target e =? 0)%Z
  then do a <- dual_lookup (Z.to_nat (ilevel (e_tidx e))) stree ttree (e_tidx e) (e_op e);
       Ok {| e_op := e_op e; e_target := a; e_tidx := e_tidx e; e_locality := e_locality e |}
  else Ok e.

(** expansionlco.h:495-533 [spawn_out_edges_from_remote_handler] *)
Definition spawn_remote (stree ttree : tree lnode) (msg : list Z) : res (header * list Z * pviewset * list orec) :=
  do u <- spawn_unpack msg;
  let '(h, exp, views, edges) := u in
  do edges <- mapM (spawn_resolve stree ttree) edges;
  do done <- spawn_work edges;
  Ok (h, exp, views, done).
