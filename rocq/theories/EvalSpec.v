(** What an evaluation of a DAG has to do. *)
From Coq Require Import ZArith List Bool Arith Permutation.
From Verif Require Import Base LookupModel DagModel DagSpec EdgeGroupModel EdgeGroupSpec LinkModel LinkSpec EvalModel.
Import ListNotations.
Open Scope Z_scope.

(** No chain of edges leads back to its start. *)
Definition no_cycle (E : list edge) : Prop := forall a es, chain E a es a -> es = [].

(** A distributed DAG: [lcos] and [leaves] are its nodes, the edges [E] go from nodes to
    LCOs; each node knows the number of its inputs and has its outputs sorted by locality. *)
Record is_dag (loc : dnode -> Z) (num_ranks : Z) (inc : dnode -> nat) (outs : dnode -> list edge)
              (leaves lcos : list dnode) (E : list edge) : Prop := {
  d_lcos : NoDup lcos;
  d_leaves : NoDup leaves;
  d_lco : forall v, In v lcos -> is_source v = false;
  d_leaf : forall v, In v leaves -> is_source v = true;
  d_from : forall e, In e E -> In (efrom e) (leaves ++ lcos);
  d_tgt : forall e, In e E -> is_target (efrom e) = false;
  d_to : forall e, In e E -> In (eto e) lcos;
  d_ops : forall e, In e E -> eop e <> Nop /\ s_op (eop e) = is_source (efrom e) /\ t_op (eop e) = is_target (eto e);
  d_inc : forall v, inc v = length (into v E);
  d_outs : forall v, sort_outcome (fun e => loc (eto e)) (out_of v E) (outs v);
  d_loc : forall v, In v (leaves ++ lcos) -> 0 <= loc v < num_ranks }.

(** Each LCO has an input. *)
Definition all_fed (lcos : list dnode) (E : list edge) : Prop := forall v, In v lcos -> into v E <> [].

(** Nothing is left to do. *)
Definition over {M} (s : est M) : Prop := (forall t, In t (threads s) -> code t = []) /\ parcels s = [] /\ waits s = [].
(** No thread has an edge left to process; it may still have data to free. *)
Definition only_frees {M} (s : est M) : Prop :=
  forall t i, In t (threads s) -> In i (code t) -> match i with Emit _ => False | Ship _ es => es = [] | Free _ => True end.

Definition sum {M} (zero : M) (add : M -> M -> M) (l : list M) : M := fold_right add zero l.
(** The values the nodes must have. *)
Definition solves {M} (zero : M) (add : M -> M -> M) (op_val : edge -> M -> M) (sources : dnode -> M) (E : list edge) (val : dnode -> M) : Prop :=
  forall v, val v = if is_source v then sources v else sum zero add (map (fun e => op_val e (val (efrom e))) (into v E)).
Definition monoid {M} (zero : M) (add : M -> M -> M) : Prop :=
  (forall a b, add a b = add b a) /\ (forall a b c, add a (add b c) = add (add a b) c) /\ (forall a, add zero a = a).

(** No thread has anything left to do and no message is on its way. *)
Definition idle {M} (s : est M) : Prop := (forall t, In t (threads s) -> code t = []) /\ parcels s = [].
(** The expansions with outputs hold nothing. *)
Definition clean {M} (outs : dnode -> list edge) (s : est M) : Prop := forall v, outs v <> [] -> data s v = None.
(** [s] is a state of an evaluation started in [s0], in any distribution of the source leaves
    over threads and after any steps. *)
Definition evaluates {M} (zero : M) (add : M -> M -> M) (op_val : edge -> M -> M) (sources : dnode -> M)
    (loc : dnode -> Z) (num_ranks : Z) (inc : dnode -> nat) (outs : dnode -> list edge) (leaves lcos : list dnode) (s0 s : est M) : Prop :=
  exists chunks s1 n, Permutation (concat chunks) leaves /\ launch loc num_ranks inc outs lcos chunks s0 = Ok s1 /\
    eruns zero add op_val sources loc num_ranks outs n s1 s.
