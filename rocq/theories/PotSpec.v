(** What an evaluation has to compute: the potentials at the targets. *)
From Coq Require Import Reals ZArith List Bool Permutation.
From Verif Require Import Base IndexModel LookupModel TreeModel DagModel DagSpec EdgeGroupSpec LinkSpec EvalModel EvalSpec LapModel LapSpec TranSpec PotModel.
Import ListNotations.
Open Scope R_scope.

Definition pt_dec : forall a b : pt, {a = b} + {a <> b}.
Proof. decide equality; apply Req_EM_T. Defined.

(** The potential at [t] of all charges but those at [t] itself. *)
Definition potential (l : list charge) (t : pt) : R := coulomb (filter (fun s => if pt_dec (cpos s) t then false else true) l) t.

(** The closed box of an index. *)
Definition inside (corner : pt) (size : R) (i : index) (x : pt) : Prop :=
  let c := middle corner size i in let h := side size (ilevel i) / 2 in
  Rabs (px x - px c) <= h /\ Rabs (py x - py c) <= h /\ Rabs (pz x - pz c) <= h.

(** Each node of the tree has the records of its children, together. *)
Definition gathered {X} (t : tree (list X)) : Prop := forall p n, sub t p = Some n -> ~ leaf_at t p ->
  Permutation (info n) (flat_map (fun o => match o with Some c => info c | None => [] end) (kids n)).
(** The records of a node lie in its box. *)
Definition boxed {X} (pos : X -> pt) (corner : pt) (size : R) (t : tree (list X)) : Prop :=
  forall p n x, sub t p = Some n -> In x (info n) -> inside corner size (idx_of p) (pos x).
(** A point is not so near the centre of a box of the trees, or of the vertical line through
    it, that the code takes it for another. *)
Definition plain {A B} (corner : pt) (size : R) (S : tree A) (T : tree B) (x : pt) : Prop :=
  forall p, sub S p <> None \/ sub T p <> None -> regular (middle corner size (idx_of p)) x.
(** No box is smaller than those of the level [h]. *)
Definition levels {X} (h : nat) (t : tree X) : Prop := forall p, sub t p <> None -> (length p <= h)%nat.

(** The potentials [vs] of the targets [ts] up to an error. *)
Definition close (l : list charge) (err : R) (ts : list pt) (vs : list cplx) : Prop :=
  Forall2 (fun t v => snd v = 0 /\ Rabs (fst v - potential l t) <= err) ts vs.

(** The records of the trees are where they belong. *)
Definition scene (corner : pt) (size : R) (S : tree (list charge)) (T : tree (list pt)) : Prop :=
  gathered S /\ gathered T /\ boxed cpos corner size S /\ boxed (fun x => x) corner size T /\
  (forall s, In s (info S) -> plain corner size S T (cpos s)) /\ (forall t, In t (info T) -> plain corner size S T t).

(** In every evaluation of the DAG made by [ts], on any number of ranks, with the nodes
    distributed in any way and in any schedule: once all ranks have been told that it is over,
    the records [targets q] of each target box [q] the method stops at have gained the
    potentials of the charges [l], up to the error [err].  [pots] makes potentials a value of
    the DAG's nodes. *)
Definition delivers_in {M} (zero : M) (add : M -> M -> M) (pots : list cplx -> M) (op_val : edge -> M -> M) (sources : dnode -> M) (targets : path -> list pt) (ts : list task) (l : list charge) (err : R) : Prop :=
  forall loc num_ranks inc outs,
  (forall v, In v (all_adds ts) -> (0 <= loc v < num_ranks)%Z) -> (forall v, inc v = length (into v (all_edges ts))) ->
  (forall v, sort_outcome (fun e => loc (eto e)) (out_of v (all_edges ts)) (outs v)) ->
  forall s0 s, idle s0 -> clean outs s0 ->
  evaluates zero add op_val sources loc num_ranks inc outs (filter is_source (all_adds ts)) (filter (fun v => negb (is_source v)) (all_adds ts)) s0 s ->
  (forall r, (0 <= r < num_ranks)%Z -> remaining s r = 0%Z) ->
  forall q, stops ts q -> exists phis, tval s ((TgtTree, q), Parts) = add (tval s0 ((TgtTree, q), Parts)) (pots phis) /\ close l err (targets q) phis.
Definition delivers := delivers_in value_zero value_add Array.
