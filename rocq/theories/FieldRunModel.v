(** What the nodes of the DAG hold and what its edges contribute when the kernel is Yukawa or
    Helmholtz and the method is Direct, or the expansion is LaplaceCOMAcc
    (include/builtins/laplace_com_acc.h) and the method is Direct or Barnes-Hut. *)
From Coq Require Import Reals ZArith List.
From Verif Require Import Base IndexModel TreeModel LookupModel DagModel LapModel PotModel ComModel ComRunModel AccModel YukModel HelmModel.
Import ListNotations.
Open Scope R_scope.

Section Values.
(** What a target gains: a potential or an acceleration. *)
Context {G : Type} (gadd : G -> G -> G).

(** The records of a source leaf; an expansion of LaplaceCOMAcc; what the targets of a leaf
    gained; the outcome of a failed operation. *)
Inductive fvalue := FSources (l : list LapModel.charge) | FExp (t : com) | FVals (a : list G) | FBroken.

(** Each target of a leaf adds what comes for it to what it has. *)
Fixpoint vadd (a b : list G) : list G :=
  match a, b with
  | [], _ => b
  | _, [] => a
  | x :: a', y :: b' => gadd x y :: vadd a' b'
  end.
(** expansionlco.h:310-338, targetlco.h:176-222: a set operation adds to what an LCO holds.
    What nothing has been added to is [FVals []] for targets and expansions alike; for the
    latter the code has [acc_zero], to which add_expansion (laplace_com_acc.h:278-327) adds in
    the same way (C90_additions).  Expansions whose total is not positive are not modelled:
    their sum counts as broken here, in the code it depends on the order (C75). *)
Definition fvalue_zero : fvalue := FVals [].
Definition fvalue_add (u v : fvalue) : fvalue :=
  match u, v with
  | FVals [], _ => v
  | _, FVals [] => u
  | FVals a, FVals b => FVals (vadd a b)
  | FExp t, FExp u => if Rlt_dec 0 (mtot t) then if Rlt_dec 0 (mtot u) then FExp (acc_add t u) else FBroken else FBroken
  | _, _ => FBroken
  end.

(** The targets of the target tree's nodes. *)
Context (targets : path -> list pt).
(** The loops over the targets (yukawa.h:236-253, helmholtz.h:480-497,
    laplace_com_acc.h:191-264), for targets that start with zero *)
Definition for_targets (f : pt -> res G) (ts : list pt) : fvalue :=
  match mapM f ts with Ok a => FVals a | Fail _ => FBroken end.

(** What an edge of the direct method adds at its destination when its origin holds [d]:
    dualtree.h:1658-1704, targetlco.h:120-141 and 176-222 with the kernel's S_to_T. *)
Definition direct_edge (S_to_T : list LapModel.charge -> pt -> res G) (e : edge) (d : fvalue) : fvalue :=
  match eop e, d with
  | StoT, FSources l => for_targets (S_to_T l) (targets (snd (fst (eto e))))
  | _, _ => FBroken
  end.
End Values.
Arguments fvalue : clear implicits.

(** What the source leaves hold (dualtree.h:1517-1518, 1577-1578). *)
Definition field_leaf {G} (S : tree (list LapModel.charge)) (v : dnode) : fvalue G := FSources (records S (snd (fst v))).

(** yukawa.h:236-253 *)
Definition yukawa_kernel (lambda : R) (l : list LapModel.charge) (t : pt) : res cplx := Ok (yuk_S_to_T lambda l t 0, 0).
(** helmholtz.h:480-497 *)
Definition helmholtz_kernel (omega : R) (l : list LapModel.charge) (t : pt) : res cplx := helm_S_to_T omega l t (0, 0).
(** laplace_com_acc.h:241-264, for a source record as that file reads it *)
Definition acc_kernel (l : list LapModel.charge) (t : pt) : res (R * R * R) := Ok (acc_S_to_T (map com_source l) (px t) (py t) (pz t)).

(** Accelerations add up by component (laplace_com_acc.h:207-209, 219-235, 260-262). *)
Definition add3 (u v : R * R * R) : R * R * R :=
  let '(a, b, c) := u in let '(d, e, f) := v in (a + d, b + e, c + f).
(** What an edge adds at its destination with LaplaceCOMAcc: as [ComRunModel.com_edge], with
    laplace_com_acc.h:160-264; the other operations return no expansion (169-172, 183-189,
    239, 266-276). *)
Definition acc_edge (targets : path -> list pt) (e : edge) (d : fvalue (R * R * R)) : fvalue (R * R * R) :=
  let ts := targets (snd (fst (eto e))) in
  match eop e, d with
  | StoM, FSources l => FExp (acc_S_to_M (map com_source l))
  | StoT, FSources l => for_targets (acc_kernel l) ts
  | MtoM, FExp t => FExp (acc_M_to_M t)
  | MtoT, FExp t => for_targets (fun x => acc_M_to_T t (px x) (py x) (pz x)) ts
  | _, _ => FBroken
  end.
