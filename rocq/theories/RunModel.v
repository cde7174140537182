(** A whole evaluation up to its DAG: evaluator.h:139-178, 301-310.  The trees of all ranks, built in the domain
    computed from all the records, are what the DAG is made from. *)
From Coq Require Import Reals Qreals ZArith QArith List Bool Arith Permutation.
From Verif Require Import Base IndexModel ArrayModel TreeModel RefineModel RefineSpec GeomModel GroupModel MessageModel ExchangeModel MergeModel BuildModel WholeModel LapModel.
Import ListNotations.
Open Scope nat_scope.

(** A point's coordinates as real numbers. *)
Definition real (p : point) : pt := mkPt (Q2R (coord AX p)) (Q2R (coord AY p)) (Q2R (coord AZ p)).

(** The same tree with other records. *)
Fixpoint tree_map {X Y} (f : X -> Y) (t : tree (list X)) : tree (list Y) :=
  match t with T a cs => T (map f a) (map (fun o => match o with Some c => Some (tree_map f c) | None => None end) cs) end.

Section Run.
Context {A B : Type} (pos_s : A -> point) (pos_t : B -> point) (q : A -> R).
Variable L : Z.
Variable same : bool.
Variable users : list (list A * list B).

(** dualtree.h:486-557: the domain. *)
Definition domain_for (order : otree) : domain :=
  domain_of (reduce_bounds order (map (fun st => rank_bounds same (fst st) (snd st)) (map (fun u => (map pos_s (fst u), map pos_t (snd u))) users))).

(** dualtree.h:1166-1299 on all ranks, then the trees of all the ranks' branches. *)
Variable zs : serializer A.
Variable zt : serializer B.
Variable junk : nat -> nat -> Z.
Variables rw sm tm : Z.
Definition trees_built (d : domain) part_s part_t pp thr fuel (rank_map : nat -> nat) (S : tree (list charge)) (T : tree (list pt)) : Prop :=
  exists locals unif sources, counted pos_s pos_t d L same users locals unif /\
    sources_built L same zs zt junk rw sm tm (fun a i x => below_centre d a i (pos_s x)) part_s thr fuel rank_map locals unif sources /\
    S = tree_map (fun x => mkCharge (q x) (real (pos_s x))) (whole L rank_map sources) /\
    if same then
      exists targets, targets_built_same L (fun a i x => below_centre d a i (pos_s x)) pp thr fuel rank_map unif sources targets /\
        T = tree_map (fun x => real (pos_s x)) (whole L rank_map targets)
    else
      exists targets, targets_built L same zs zt junk rw sm tm (fun a i x => below_centre d a i (pos_t x)) part_t thr fuel rank_map locals unif targets /\
        T = tree_map (fun x => real (pos_t x)) (whole L rank_map targets).
End Run.
