(** What the nodes of the DAG hold and what its edges contribute when the expansion is
    LaplaceCOM (include/builtins/laplace_com.h) and the method is Direct or Barnes-Hut. *)
From Coq Require Import Reals ZArith List.
From Verif Require Import Base IndexModel TreeModel LookupModel DagModel LapModel PotModel ComModel.
Import ListNotations.
Open Scope R_scope.

(** A record as laplace_com.h reads it. *)
Definition com_source (s : LapModel.charge) : source := mkSource (cq s) (px (cpos s)) (py (cpos s)) (pz (cpos s)).

(** The records of a source leaf; an expansion; the potentials of the targets of a leaf; the
    outcome of a failed operation. *)
Inductive cvalue := CSources (l : list LapModel.charge) | CExp (t : com) | CPots (a : list cplx) | CBroken.

(** expansionlco.h:310-338, targetlco.h:176-222: a set operation adds to what an LCO holds.
    What nothing has been added to is [CPots []] for targets and expansions alike; for the
    latter the code has [com_zero], to which add_expansion (laplace_com.h:251-298) adds in the
    same way (C88_additions).  Expansions whose total is not positive are not modelled: their sum
    counts as broken here, in the code it depends on the order (C43). *)
Definition cvalue_zero : cvalue := CPots [].
Definition cvalue_add (u v : cvalue) : cvalue :=
  match u, v with
  | CPots [], _ => v
  | _, CPots [] => u
  | CPots a, CPots b => CPots (padd a b)
  | CExp t, CExp u =>
      if Rlt_dec 0 (mtot t) then if Rlt_dec 0 (mtot u) then
        match add_expansion t u with Ok r => CExp r | Fail _ => CBroken end
      else CBroken else CBroken
  | _, _ => CBroken
  end.

Section Values.
(** The targets of the target tree's nodes. *)
Context (targets : path -> list pt).

(** laplace_com.h:191-236: the loops over the targets, for targets that start with zero *)
Definition com_targets (f : pt -> res R) (ts : list pt) : cvalue :=
  match mapM (fun t => do v <- f t; Ok (v, 0)) ts with Ok a => CPots a | Fail _ => CBroken end.

(** laplace_com.h:191-215 for one target; at the centre of charge it divides by zero *)
Definition com_at (e : com) (t : pt) : res R :=
  let d := (px t - cx e) * (px t - cx e) + (py t - cy e) * (py t - cy e) + (pz t - cz e) * (pz t - cz e) in
  if Req_EM_T d 0 then Fail DivZero else Ok (M_to_T e (px t) (py t) (pz t)).

(** What an edge adds at its destination when its origin holds [d]: dualtree.h:1658-1704 and
    expansionlco.h:227-269 for source leaves, expansionlco.h:545-629 for expansions,
    targetlco.h:120-141 and 176-222 for targets.  laplace_com.h:160-236; the other operations
    return no expansion (169-172, 183-189, 217, 239-250). *)
Definition com_edge (e : edge) (d : cvalue) : cvalue :=
  let ts := targets (snd (fst (eto e))) in
  match eop e, d with
  | StoM, CSources l => CExp (S_to_M (map com_source l))
  | StoT, CSources l => com_targets (fun t => Ok (S_to_T (map com_source l) (px t) (py t) (pz t))) ts
  | MtoM, CExp t => CExp (M_to_M t)
  | MtoT, CExp t => com_targets (com_at t) ts
  | _, _ => CBroken
  end.
End Values.

(** What the source leaves hold (dualtree.h:1517-1518, 1577-1578). *)
Definition com_leaf (S : tree (list LapModel.charge)) (v : dnode) : cvalue := CSources (records S (snd (fst v))).
