(** Execution of the DAG: source leaves, LCOs, messages and termination detection, as
    interleaved steps (include/dashmm/{dualtree,expansionlco,targetlco,evaluator}.h). *)
From Coq Require Import ZArith List Bool Arith.
From Verif Require Import Base LookupModel DagModel EdgeGroupModel LinkModel.
Import ListNotations.
Open Scope Z_scope.

(** What a DAG node is: a source leaf (no LCO), a target leaf (targetlco.h) or an
    expansion (expansionlco.h). *)
Definition is_source (v : dnode) : bool := match v with ((SrcTree, _), Parts) => true | _ => false end.
Definition is_target (v : dnode) : bool := match v with ((TgtTree, _), Parts) => true | _ => false end.

(** The operations of instigate_dag_eval_work (dualtree.h:1658-1704) and those that set a
    TargetLCO. *)
Definition s_op (o : operation) : bool := match o with StoM | StoL | StoT => true | _ => false end.
Definition t_op (o : operation) : bool := match o with StoT | MtoT | LtoT => true | _ => false end.
Definition is_nop (o : operation) : bool := match o with Nop => true | _ => false end.
(** The switch statements of dualtree.h:1664-1702 (edges of source leaves) and
    expansionlco.h:545-575 (edges of expansions) assert that the operation is one of theirs. *)
Definition served (e : edge) : bool := negb (is_nop (eop e)) && Bool.eqb (s_op (eop e)) (is_source (efrom e)).

Section Eval.
(** The contributions.  [op_val e d] is what edge [e] adds at its destination when its
    origin holds [d]; [sources] is what a source leaf holds. *)
Context {M : Type} (zero : M) (add : M -> M -> M) (op_val : edge -> M -> M) (sources : dnode -> M).
(** The localities, the number of ranks, in_count_ and the sorted out_edges of the nodes. *)
Context (loc : dnode -> Z) (num_ranks : Z) (inc : dnode -> nat) (outs : dnode -> list edge).

Inductive todo :=
| Emit (e : edge)                      (* one iteration of the loops of instigate_dag_eval_work / spawn_out_edges_work *)
| Ship (v : dnode) (es : list edge)    (* a message with the data of [v] and some of its edges *)
| Free (v : dnode).                    (* delete head->data *)
(** A thread; those started by a message carry their data ([payload]). *)
Record thr := mkThr { payload : option M; code : list todo }.

Definition do_action (v : dnode) (a : action edge) : list todo :=
  match a with Work es => map Emit es | Send _ es => [Ship v es] end.
(** expansionlco.h:381-475 spawn_out_edges_handler (the serialized copy of lines 415-424 is
    made here by each Ship: the data does not change before line 466) *)
Definition lco_prog (v : dnode) : res (list todo) :=
  do acts <- out_edges_split (fun e => loc (eto e)) num_ranks (loc v) (outs v);
  Ok (flat_map (do_action v) acts ++ [Free v]).
(** dualtree.h:1504-1597 instigate_dag_eval_handler, the body of the loop *)
Definition source_prog (v : dnode) : res (list todo) :=
  do acts <- instigate_split (fun e => loc (eto e)) (loc v) (outs v);
  Ok (flat_map (do_action v) acts).

(** An action waiting for the and-LCO of a rank (dualtree.h:1868-1916). *)
Inductive wait :=
| Skip (rank : Z) (n : nat)          (* hpx_lco_and_set_num(done, nskip, ...), line 1913 *)
| When (rank : Z) (v : dnode).       (* hpx_call_when(v, done, hpx_lco_set_action, ...) *)

Record est := mkEst {
  yta : dnode -> Z;                  (* yet_to_arrive *)
  trig : dnode -> bool;              (* the LCO has triggered *)
  data : dnode -> option M;          (* Header::data of an expansion, None: nullptr *)
  tval : dnode -> M;                 (* the values in the target records of a target leaf *)
  threads : list thr;
  parcels : list (edge * M);         (* LCO set operations on their way *)
  waits : list wait;
  remaining : Z -> Z;                (* the and-LCO of each rank *)
  log : list (edge * M);             (* not in the code: the set operations performed *)
  fired : list dnode }.              (* not in the code: the LCOs that triggered *)

(** The LCO triggers; hpx_call_when(data_, data_, spawn_out_edges_) of
    expansionlco.h:136-139 (and 156-158) then starts its thread.  TargetLCOs have no such
    call and no out edges. *)
Definition trigger (v : dnode) (s : est) : res est :=
  let s1 := mkEst (yta s) (upd dnode_dec (trig s) v true) (data s) (tval s) (threads s) (parcels s) (waits s) (remaining s) (log s) (fired s ++ [v]) in
  match outs v with
  | [] => Ok s1
  | _ => do c <- lco_prog v;
         Ok (mkEst (yta s1) (trig s1) (data s1) (tval s1) (threads s1 ++ [mkThr None c]) (parcels s1) (waits s1) (remaining s1) (log s1) (fired s1))
  end.

(** A set operation arrives: expansionlco.h:337-360 and 366-368, targetlco.h:182-223.  The
    case of a target leaf without records (targetlco.h:188-190) adds nothing.  A set of the
    wrong kind of LCO would misread the buffer. *)
Definition deliver (e : edge) (m : M) (s : est) : res est :=
  let v := eto e in
  let y := yta s v - 1 in
  do _ <- (if Bool.eqb (t_op (eop e)) (is_target v) then Ok tt else Fail BadOp);
  do _ <- assert_ (0 <=? y);
  let d' := if is_target v then data s else upd dnode_dec (data s) v (Some (add (match data s v with Some d => d | None => zero end) m)) in
  let t' := if is_target v then upd dnode_dec (tval s) v (add (tval s v) m) else tval s in
  let s1 := mkEst (upd dnode_dec (yta s) v y) (trig s) d' t' (threads s) (parcels s) (waits s) (remaining s) (log s ++ [(e, m)]) (fired s) in
  if y =? 0 then trigger v s1 else Ok s1.

(** The data a thread works on: its message, the records of a source leaf, or what the
    expansion LCO holds. *)
Definition holds (t : thr) (v : dnode) (s : est) : option M :=
  match payload t with Some d => Some d | None => if is_source v then Some (sources v) else data s v end.

Definition with_threads (l : list thr) (s : est) : est :=
  mkEst (yta s) (trig s) (data s) (tval s) l (parcels s) (waits s) (remaining s) (log s) (fired s).
(** One instruction of a thread; [s] is the state in which the thread has already been
    replaced by its rest.  Contributions to expansions are sent by value
    (expansionlco.h:264-288), those to targets wait for their completion
    (targetlco.h:114-134, hpx_lco_set_rsync), so that the pointer they carry stays valid. *)
Definition perform (t : thr) (i : todo) (s : est) : res est :=
  match i with
  | Emit e => do _ <- assert_ (served e);
              match holds t (efrom e) s with
              | None => Fail NullDeref
              | Some d => let m := op_val e d in
                          if t_op (eop e) then deliver e m s
                          else Ok (mkEst (yta s) (trig s) (data s) (tval s) (threads s) (parcels s ++ [(e, m)]) (waits s) (remaining s) (log s) (fired s))
              end
  | Ship v es => match holds t v s with
                 | None => Fail NullDeref
                 | Some d => Ok (with_threads (threads s ++ [mkThr (Some d) (map Emit es)]) s)
                 end
  | Free v => Ok (mkEst (yta s) (trig s) (upd dnode_dec (data s) v None) (tval s) (threads s) (parcels s) (waits s) (remaining s) (log s) (fired s))
  end.

Definition notify (r : Z) (n : Z) (s : est) : est :=
  mkEst (yta s) (trig s) (data s) (tval s) (threads s) (parcels s) (waits s) (upd Z.eq_dec (remaining s) r (remaining s r - n)) (log s) (fired s).
Definition with_waits (l : list wait) (s : est) : est :=
  mkEst (yta s) (trig s) (data s) (tval s) (threads s) (parcels s) l (remaining s) (log s) (fired s).
Definition with_parcels (l : list (edge * M)) (s : est) : est :=
  mkEst (yta s) (trig s) (data s) (tval s) (threads s) l (waits s) (remaining s) (log s) (fired s).

(** Any thread, message or waiting action may be next. *)
Inductive estep : est -> res est -> Prop :=
| do_thread : forall s a t b i c, threads s = a ++ t :: b -> code t = i :: c ->
    estep s (perform t i (with_threads (a ++ mkThr (payload t) c :: b) s))
| do_parcel : forall s a e m b, parcels s = a ++ (e, m) :: b -> estep s (deliver e m (with_parcels (a ++ b) s))
| do_skip : forall s a r n b, waits s = a ++ Skip r n :: b -> estep s (Ok (notify r (Z.of_nat n) (with_waits (a ++ b) s)))
| do_when : forall s a r v b, waits s = a ++ When r v :: b -> trig s v = true -> estep s (Ok (notify r 1 (with_waits (a ++ b) s))).
Inductive eruns : nat -> est -> est -> Prop :=
| eruns_0 : forall s, eruns 0 s s
| eruns_S : forall n s s' s'', eruns n s s' -> estep s' (Ok s'') -> eruns (S n) s s''.

(** dualtree.h:317-333 setup_termination_detection and 1868-1916 for one rank; [lcos] are
    target_leaves, target_nodes and source_nodes. *)
Definition waits_of (lcos : list dnode) (r : Z) : list wait :=
  map (When r) (filter (fun v => loc v =? r) lcos) ++ [Skip r (length (filter (fun v => negb (loc v =? r)) lcos))].

(** One evaluation, evaluator.h:425-450 on all ranks: dualtree.h:347-385 starts one thread
    per chunk of source leaves.  The LCOs are new (expansionlco.h:111-139) or have been
    reset (142-161): yet_to_arrive is in_count_ and nothing has triggered.  What the last
    evaluation left in [data], the targets and the threads is still there. *)
Definition launch (lcos : list dnode) (chunks : list (list dnode)) (s : est) : res est :=
  do cs <- mapM (fun ch => do ps <- mapM source_prog ch; Ok (mkThr None (concat ps))) chunks;
  Ok (mkEst (fun v => Z.of_nat (inc v)) (fun _ => false) (data s) (tval s) (threads s ++ cs) (parcels s)
            (flat_map (waits_of lcos) (zseq 0 (Z.to_nat num_ranks))) (fun _ => Z.of_nat (length lcos)) [] []).
(** Nothing has happened yet: no expansion holds data, the targets hold [t0]. *)
Definition blank (t0 : dnode -> M) : est := mkEst (fun _ => 0) (fun _ => false) (fun _ => None) t0 [] [] [] (fun _ => 0) [] [].
End Eval.
Arguments thr : clear implicits.
Arguments est : clear implicits.
