(** What the nodes of the DAG hold and what its edges contribute when the expansion is
    Laplace (include/builtins/laplace.h) and the method does not use intermediate
    expansions. *)
From Coq Require Import Reals ZArith List.
From Verif Require Import Base IndexModel TreeModel LookupModel DagModel LapModel TranModel.
Import ListNotations.
Open Scope R_scope.

(** The records of a source leaf; the coefficients of an expansion or the potentials of the
    targets of a leaf; the outcome of a failed operation. *)
Inductive value := Sources (l : list charge) | Array (a : list cplx) | Broken.

(** expansionlco.h:310-338, targetlco.h:176-222: a set operation adds to what an LCO holds.
    The code starts with an array of zeros of the right length; here it is the empty array,
    and the shorter of two arrays counts as filled up with zeros. *)
Fixpoint padd (a b : list cplx) : list cplx :=
  match a, b with
  | [], _ => b
  | _, [] => a
  | x :: a', y :: b' => cadd x y :: padd a' b'
  end.
Definition value_zero : value := Array [].
Definition value_add (u v : value) : value :=
  match u, v with
  | Array a, Array b => Array (padd a b)
  | Array [], _ => v
  | _, Array [] => u
  | _, _ => Broken
  end.

(** laplace.h:282-297 S_to_T for one target *)
Definition S_to_T (l : list charge) (t : pt) (phi : R) : R :=
  phi + fold_left (fun v s => let d := norm3 (point_sub t (cpos s)) in if Rlt_dec 0 d then v + cq s / d else v) l 0.

Definition of_res (r : res (list cplx)) : value := match r with Ok a => Array a | Fail _ => Broken end.

Section Values.
(** The table, the domain and the targets of the target tree's nodes. *)
Context (tb : table) (corner : pt) (size : R) (targets : path -> list pt).

(** laplace.h:260-297: the loops over the targets, for targets that start with zero *)
Definition at_targets (f : pt -> res R) (ts : list pt) : value := of_res (mapM (fun t => do v <- f t; Ok (v, 0)) ts).

(** The same loops as the code runs them, on the potentials the targets have *)
Fixpoint in_place (f : pt -> R -> res R) (ts : list pt) (phis : list R) : res (list R) :=
  match ts, phis with
  | [], _ => Ok []
  | t :: ts', phi :: phis' => do v <- f t phi; do vs <- in_place f ts' phis'; Ok (v :: vs)
  | _ :: _, [] => Fail Oob
  end.

(** What an edge adds at its destination when its origin holds [d]: dualtree.h:1658-1704 and
    expansionlco.h:227-269 for source leaves, expansionlco.h:545-629 for expansions,
    targetlco.h:120-141 and 176-222 for targets.  The centre and the scale of an expansion
    are those of its box (dualtree.h:1367-1378, 1434-1446). *)
Definition edge_value (e : edge) (d : value) : value :=
  let i := idx_of (snd (fst (efrom e))) in
  let j := idx_of (snd (fst (eto e))) in
  let ts := targets (snd (fst (eto e))) in
  let scale (k : index) := level_scale size (ilevel k) in
  let center (k : index) := box_center corner size k in
  match eop e, d with
  | StoM, Sources l => of_res (S_to_M (tb_p tb) (tb_sqf tb) (scale j) (center j) l)
  | StoL, Sources l => of_res (S_to_L (tb_p tb) (tb_sqf tb) (scale j) (center j) l)
  | StoT, Sources l => at_targets (fun t => Ok (S_to_T l t 0)) ts
  | MtoM, Array M => of_res (M_to_M tb (Z.to_nat (which_child i)) M)
  | MtoL, Array M => of_res (M_to_L tb (scale i) i j M)
  | LtoL, Array L => of_res (L_to_L tb (Z.to_nat (which_child j)) L)
  | MtoT, Array M => at_targets (fun t => M_to_T (tb_p tb) (tb_sqf tb) (scale i) (center i) M t 0) ts
  | LtoT, Array L => at_targets (fun t => L_to_T (tb_p tb) (tb_sqf tb) (scale i) (center i) L t 0) ts
  | _, _ => Broken
  end.
End Values.

(** node->parts (node.h:415) of the node a path leads to, and what the source leaves hold
    (dualtree.h:1517-1518, 1577-1578). *)
Definition records {X} (t : tree (list X)) (p : path) : list X := match sub t p with Some n => info n | None => [] end.
Definition leaf_value (S : tree (list charge)) (v : dnode) : value := Sources (records S (snd (fst v))).
