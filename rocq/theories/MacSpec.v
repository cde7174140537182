(** What the acceptance test has to guarantee. *)
From Coq Require Import ZArith QArith Reals Qreals List Bool.
From Verif Require Import Base IndexModel GeomModel.
Open Scope Q_scope.

(** [p] is a point of the cube with centre [c] and side [size]. *)
Definition in_cube (c : point) (size : Q) (p : point) : Prop := forall a, coord a c - size * (1 # 2) <= coord a p <= coord a c + size * (1 # 2).
Definition square_dist (p q : point) : Q :=
  (px p - px q) * (px p - px q) + (py p - py q) * (py p - py q) + (pz p - pz q) * (pz p - pz q).
(** From [p], the cube of side [size] around [s] is seen under an opening angle
    size / |p - s| below [theta] (real numbers). *)
Definition seen_below (theta size : Q) (s p : point) : Prop :=
  (0 < Q2R (square_dist p s))%R /\ (Q2R size / sqrt (Q2R (square_dist p s)) < Q2R theta)%R.
(** Along no axis does [s] lie below the cube. *)
Definition not_below (c : point) (size : Q) (s : point) : Prop := forall a, coord a c - size * (1 # 2) <= coord a s.
