(** Concurrent insertion of edges into the DAG, at the level of the locked steps
    (include/dashmm/dag.h). *)
From Coq Require Import ZArith List Bool Arith.
From Verif Require Import Base LookupModel DagModel.
Import ListNotations.
Open Scope nat_scope.

(** The arguments of link_nodes (dag.h:563-565); the weight is left out. *)
Record link := mkLink { l_src_info : owner; l_source : dnode; l_dest_info : owner; l_dest : dnode; l_op : operation }.

(** dag.h:382-531: the call of link_nodes each edge operation makes; [this] is the object the
    operation is called on, [o] its argument.  Nop is not an edge operation. *)
Definition edge_op (op : operation) (this o : owner) : option link :=
  match op with
  | Nop => None
  | StoM => Some (mkLink o (o, Parts) this (this, Normal) StoM)      (* 382-386 *)
  | StoL => Some (mkLink o (o, Parts) this (this, Normal) StoL)      (* 395-399 *)
  | MtoM => Some (mkLink o (o, Normal) this (this, Normal) MtoM)     (* 408-413 *)
  | MtoL => Some (mkLink o (o, Normal) this (this, Normal) MtoL)     (* 422-427 *)
  | LtoL => Some (mkLink o (o, Normal) this (this, Normal) LtoL)     (* 436-441 *)
  | MtoT => Some (mkLink this (this, Normal) o (o, Parts) MtoT)      (* 451-456 *)
  | LtoT => Some (mkLink this (this, Normal) o (o, Parts) LtoT)      (* 466-471 *)
  | StoT => Some (mkLink o (o, Parts) this (this, Parts) StoT)       (* 481-486 *)
  | MtoI => Some (mkLink o (o, Normal) this (this, Interm) MtoI)     (* 496-501 *)
  | ItoI => Some (mkLink o (o, Interm) this (this, Interm) ItoI)     (* 511-516 *)
  | ItoL => Some (mkLink o (o, Interm) this (this, Normal) ItoL)     (* 526-531 *)
  end.

(** The steps of a thread.  The increment of in_count_ and the push_back into out_edges are
    each a read followed by a write, so that a missing lock would show. *)
Inductive instr :=
| P (o : owner)                              (* hpx_lco_sema_p, dag.h:577-579 *)
| V (o : owner)                              (* hpx_lco_sema_v, dag.h:582-584 *)
| ReadCount (n : dnode) | WriteCount (n : dnode)   (* ++in_count_, dag.h:69-71 *)
| ReadOut (n : dnode) | WriteOut (n : dnode) (op : operation) (t : dnode).   (* out_edges.push_back, dag.h:64-66 *)

(** dag.h:563-573 link_nodes *)
Definition link_code (l : link) : list instr :=
  [ P (l_dest_info l); ReadCount (l_dest l); WriteCount (l_dest l); V (l_dest_info l);
    P (l_src_info l); ReadOut (l_source l); WriteOut (l_source l) (l_op l) (l_dest l); V (l_src_info l) ].

(** A thread: what it still has to do, and what it read. *)
Record thread := mkThread { code : list instr; reg_count : nat; reg_out : list (operation * dnode) }.
(** The semaphores (dag.h:190, 200: created with the value 1), in_count_ and out_edges of all
    DAG nodes. *)
Record mem := mkMem { sema : owner -> nat; in_count : dnode -> nat; out_edges : dnode -> list (operation * dnode) }.

Definition upd {K V} (dec : forall a b : K, {a = b} + {a <> b}) (f : K -> V) (k : K) (v : V) : K -> V :=
  fun x => if dec x k then v else f x.

(** One step of a thread; [None]: blocked (or finished). *)
Definition step_thread (m : mem) (t : thread) : option (mem * thread) :=
  match code t with
  | [] => None
  | P o :: c => match sema m o with
                | O => None
                | S k => Some (mkMem (upd owner_dec (sema m) o k) (in_count m) (out_edges m), mkThread c (reg_count t) (reg_out t))
                end
  | V o :: c => Some (mkMem (upd owner_dec (sema m) o (S (sema m o))) (in_count m) (out_edges m), mkThread c (reg_count t) (reg_out t))
  | ReadCount n :: c => Some (m, mkThread c (in_count m n) (reg_out t))
  | WriteCount n :: c => Some (mkMem (sema m) (upd dnode_dec (in_count m) n (S (reg_count t))) (out_edges m), mkThread c (reg_count t) (reg_out t))
  | ReadOut n :: c => Some (m, mkThread c (reg_count t) (out_edges m n))
  | WriteOut n op d :: c => Some (mkMem (sema m) (in_count m) (upd dnode_dec (out_edges m) n (reg_out t ++ [(op, d)])), mkThread c (reg_count t) (reg_out t))
  end.

Definition lstate := (mem * list thread)%type.
(** Any thread may make the next step. *)
Inductive lstep : lstate -> lstate -> Prop :=
| lstep_do : forall m t1 t t2 m' t', step_thread m t = Some (m', t') -> lstep (m, t1 ++ t :: t2) (m', t1 ++ t' :: t2).
Inductive lruns : nat -> lstate -> lstate -> Prop :=
| lruns_0 : forall s, lruns 0 s s
| lruns_S : forall n s s' s'', lruns n s s' -> lstep s' s'' -> lruns (S n) s s''.

(** All DAG nodes are new (dag.h:48-52: in_count_ 0, no out edges), each thread is about to
    perform its list of calls. *)
Definition lstart (ts : list (list link)) : lstate :=
  (mkMem (fun _ => 1) (fun _ => 0) (fun _ => []), map (fun ls => mkThread (flat_map link_code ls) 0 []) ts).
