(** What an evaluation may be asked to compute. *)
From Coq Require Import Reals Qreals ZArith QArith List Bool Arith Permutation.
From Verif Require Import IndexModel IndexSpec GeomModel GeomSpec MessageModel MessageSpec TreeModel DagModel DagSpec LapModel LapSpec TranSpec PotModel PotSpec RunModel.
Import ListNotations.
Open Scope nat_scope.

(** All the records of the users, one part of them on each rank. *)
Definition all_sources {A B} (users : list (list A * list B)) : list A := concat (map fst users).
Definition all_targets {A B} (users : list (list A * list B)) : list B := concat (map snd users).
Definition all_points {A B} (pos_s : A -> point) (pos_t : B -> point) (users : list (list A * list B)) : list point := map pos_s (all_sources users) ++ map pos_t (all_targets users).

(** There are records of both kinds, few enough for an [int]; they can be sent; with S == T
    sources and targets are the same points; no coordinate is beyond the initial bounds of the
    domain; and not all records are at one place. *)
Definition well_posed {A B} (pos_s : A -> point) (pos_t : B -> point) (zs : serializer A) (zt : serializer B) (same : bool) (users : list (list A * list B)) : Prop :=
  all_sources users <> [] /\ all_targets users <> [] /\
  (Z.of_nat (length (all_sources users)) < 2 ^ 31)%Z /\ (Z.of_nat (length (all_targets users)) < 2 ^ 31)%Z /\
  Forall (codec_ok zs) (all_sources users) /\ (same = false -> Forall (codec_ok zt) (all_targets users)) /\
  (same = true -> forall u, In u users -> map pos_t (snd u) = map pos_s (fst u)) /\
  (forall x a, In x (all_points pos_s pos_t users) -> (- big <= coord a x <= big)%Q) /\
  (exists x y a, In x (all_points pos_s pos_t users) /\ In y (all_points pos_s pos_t users) /\ (coord a x < coord a y)%Q).

(** No record is so near the centre of a box of the first [h] levels, or of the vertical line
    through it, that the code takes it for another. *)
Definition clear_points (d : domain) (h : nat) (ps : list point) : Prop :=
  forall x i, In x ps -> in_grid i -> (ilevel i <= Z.of_nat h)%Z -> regular (middle (real (dlow d)) (Q2R (dsize d)) i) (real x).

(** The boxes at which the DAG ends hold each target once. *)
Definition each_target (T : tree (list pt)) (ts : list task) (tgts : list pt) : Prop :=
  exists qs, NoDup qs /\ (forall q, In q qs <-> stops ts q) /\ Permutation (flat_map (records T) qs) tgts.
