(** What the nodes of the DAG hold and what its edges contribute when the expansion is
    Laplace (include/builtins/laplace.h) and the method uses intermediate expansions. *)
From Coq Require Import Reals ZArith List.
From Verif Require Import Base IndexModel TreeModel LookupModel DagModel LapModel TranModel WaveModel PotModel.
Import ListNotations.
Open Scope R_scope.

(** The values of PotModel, or the views of an intermediate expansion. *)
Inductive value97 := Plain (v : value) | Views (vs : list (list cplx)).

(** expansionlco.h:310-338 and laplace.h:323-340: views are added to the views with the same
    number.  As in PotModel the code starts with zeros and here with nothing. *)
Fixpoint vadd (a b : list (list cplx)) : list (list cplx) :=
  match a, b with
  | [], _ => b
  | _, [] => a
  | x :: a', y :: b' => padd x y :: vadd a' b'
  end.
Definition zero97 : value97 := Plain value_zero.
Definition add97 (u v : value97) : value97 :=
  match u, v with
  | Plain u, Plain v => Plain (value_add u v)
  | Views a, Views b => Views (vadd a b)
  | Plain (Array []), _ => v
  | _, Plain (Array []) => u
  | _, _ => Plain Broken
  end.

Definition flat (d : value97) : value := match d with Plain v => v | Views _ => Broken end.
Definition of_views (r : res (list (list cplx))) : value97 := match r with Ok a => Views a | Fail _ => Plain Broken end.

Section Values.
Context (tb : table) (wt : wtab) (corner : pt) (size : R) (targets : path -> list pt).

(** laplace.h:106-111: the views a target's intermediate expansion starts with *)
Definition no_views : list (list cplx) := repeat (repeat (0, 0) (q_nexp (w_q wt))) 28.

(** What an edge adds at its destination when its origin holds [d]: as in PotModel, and
    expansionlco.h:648-687 for the intermediate expansions.  I_to_I makes some of the 28 views
    of the target; the others count as zeros here. *)
Definition edge_value97 (e : edge) (d : value97) : value97 :=
  let i := idx_of (snd (fst (efrom e))) in
  let j := idx_of (snd (fst (eto e))) in
  match eop e, d with
  | MtoI, Plain (Array M) => of_views (M_to_I tb wt M)
  | ItoI, Views V => of_views (do new <- I_to_I wt i j V; add_views no_views new)
  | ItoL, Views V => Plain (of_res (I_to_L tb wt (level_scale size (ilevel i)) j V))
  | (MtoI | ItoI | ItoL), _ => Plain Broken
  | _, _ => Plain (edge_value tb corner size targets e (flat d))
  end.
End Values.
Definition leaf_value97 (S : tree (list charge)) (v : dnode) : value97 := Plain (leaf_value S v).
