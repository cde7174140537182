(** The interaction lists of the adaptive fast multipole method, said with boxes only. *)
From Coq Require Import ZArith List Bool Arith.
From Verif Require Import Base IndexModel TreeModel TreeFacts LookupModel GeomModel DagModel MethodModel DagSpec.
Import ListNotations.
Open Scope nat_scope.

(** The two closed boxes, of any two sizes, have a point in common: along each axis neither
    begins after the other ends. *)
Definition touch (i j : index) : Prop := forall a,
  (icoord a i * 2 ^ ilevel j <= (icoord a j + 1) * 2 ^ ilevel i)%Z /\ (icoord a j * 2 ^ ilevel i <= (icoord a i + 1) * 2 ^ ilevel j)%Z.
Definition near (c p : path) : Prop := touch (idx_of c) (idx_of p).

Section Lists.
Context {A B : Type} (unif : nat) (same : bool) (S : tree A) (T : tree B).

(** The target boxes the method visits, and those it stops at or divides. *)
Definition reached (p : path) : Prop := sub T p <> None /\ forall q, prefix q p -> q <> p -> ~ finished unif same S T q.
Definition ended (p : path) : Prop := reached p /\ finished unif same S T p.
Definition divided (p : path) : Prop := reached p /\ ~ finished unif same S T p.

(** Source boxes of the size of [p] that do not touch it, in boxes touching its parent. *)
Definition list_V (p c : path) : Prop := sub S c <> None /\ length c = length p /\ ~ near c p /\ near (parent_of c) (parent_of p).
(** Larger source leaves that touch the parent of [p] but not [p]. *)
Definition list_X (p c : path) : Prop := leaf_at S c /\ length c < length p /\ ~ near c p /\ near c (parent_of p).
(** Smaller source boxes that do not touch [p] but have a parent that does. *)
Definition list_W (p c : path) : Prop := sub S c <> None /\ length p < length c /\ ~ near c p /\ near (parent_of c) p.
(** Source leaves, of any size, that touch [p]. *)
Definition list_U (p c : path) : Prop := leaf_at S c /\ near c p.
(** The children of the source boxes of the size of [p] that touch it, not those of the same
    box; not for the root. *)
Definition list_I (p c : path) : Prop :=
  sub S c <> None /\ length c = Datatypes.S (length p) /\ 1 <= length p /\ near (parent_of c) p /\ parent_of c <> p.

(** All edges of the DAG of the FMM method. *)
Inductive fmm_edge : edge -> Prop :=
| FE_StoM : forall c, leaf_at S c -> 2 <= length c -> fmm_edge (mkEdge StoM (src c, Parts) (src c, Normal))
| FE_MtoM : forall c w, sub S (c ++ [w]) <> None -> 2 <= length c -> fmm_edge (mkEdge MtoM (src (c ++ [w]), Normal) (src c, Normal))
| FE_MtoL : forall c p, reached p -> list_V p c -> fmm_edge (mkEdge MtoL (src c, Normal) (tgt p, Normal))
| FE_StoL : forall c p, reached p -> list_X p c -> fmm_edge (mkEdge StoL (src c, Parts) (tgt p, Normal))
| FE_MtoT : forall c p, ended p -> list_W p c -> fmm_edge (mkEdge MtoT (src c, Normal) (tgt p, Parts))
| FE_StoT : forall c p, ended p -> list_U p c -> fmm_edge (mkEdge StoT (src c, Parts) (tgt p, Parts))
| FE_LtoL : forall p w, reached (p ++ [w]) -> 2 <= length p -> fmm_edge (mkEdge LtoL (tgt p, Normal) (tgt (p ++ [w]), Normal))
| FE_LtoT : forall p, ended p -> 2 <= length p -> fmm_edge (mkEdge LtoT (tgt p, Normal) (tgt p, Parts)).

(** All edges of the DAG of the FMM97 method. *)
Inductive fmm97_edge : edge -> Prop :=
| GE_StoM : forall c, leaf_at S c -> 2 <= length c -> fmm97_edge (mkEdge StoM (src c, Parts) (src c, Normal))
| GE_MtoM : forall c w, sub S (c ++ [w]) <> None -> 2 <= length c -> fmm97_edge (mkEdge MtoM (src (c ++ [w]), Normal) (src c, Normal))
| GE_MtoI : forall c, sub S c <> None -> 2 <= length c -> fmm97_edge (mkEdge MtoI (src c, Normal) (src c, Interm))
| GE_ItoI : forall c p, divided p -> list_I p c -> fmm97_edge (mkEdge ItoI (src c, Interm) (tgt p, Interm))
| GE_ItoL : forall c p w, reached (p ++ [w]) -> list_I p c -> fmm97_edge (mkEdge ItoL (tgt p, Interm) (tgt (p ++ [w]), Normal))
| GE_StoL : forall c p, reached p -> list_X p c -> fmm97_edge (mkEdge StoL (src c, Parts) (tgt p, Normal))
| GE_MtoT : forall c p, ended p -> list_W p c -> fmm97_edge (mkEdge MtoT (src c, Normal) (tgt p, Parts))
| GE_StoT : forall c p, ended p -> list_U p c -> fmm97_edge (mkEdge StoT (src c, Parts) (tgt p, Parts))
| GE_LtoL : forall p w, reached (p ++ [w]) -> 2 <= length p -> fmm97_edge (mkEdge LtoL (tgt p, Normal) (tgt (p ++ [w]), Normal))
| GE_LtoT : forall p, ended p -> 2 <= length p -> fmm97_edge (mkEdge LtoT (tgt p, Normal) (tgt p, Parts)).
End Lists.

(** How many edges of one kind a node receives and how many it sends. *)
Definition into (ts : list task) (o : operation) (x : dnode) : nat :=
  length (filter (fun e => if op_dec (eop e) o then if dnode_dec (eto e) x then true else false else false) (all_edges ts)).
Definition out_of (ts : list task) (o : operation) (x : dnode) : nat :=
  length (filter (fun e => if op_dec (eop e) o then if dnode_dec (efrom e) x then true else false else false) (all_edges ts)).
