(** Real numbers behind the doubles, and boxes with a tolerance. *)
From Coq Require Import ZArith Reals List.
From Flocq Require Import Core BinarySingleNaN.
From Verif Require Import IndexModel ArrayModel RefineModel DoubleModel.
Open Scope R_scope.

(** A point with finite coordinates of absolute value at most [B]. *)
Definition within (B : R) (p : dpoint) : Prop :=
  forall a, is_finite (dcoord a p) = true /\ Rabs (B2R (dcoord a p)) <= B.

(** [v] is the tightest box around the points. *)
Definition dhull (v : dbounds) (ps : list dpoint) : Prop :=
  forall a, let lo := dcoord a (dbmin v) in let hi := dcoord a (dbmax v) in
    is_finite lo = true /\ is_finite hi = true /\
    (forall p, In p ps -> B2R lo <= B2R (dcoord a p) <= B2R hi) /\
    (exists p, In p ps /\ B2R (dcoord a p) = B2R lo) /\ (exists p, In p ps /\ B2R (dcoord a p) = B2R hi).

Definition iaxis (a : axis) (i : index) : Z := match a with AX => ix i | AY => iy i | AZ => iz i end.

(** The point lies in the box of the index, up to [tol] in every direction; the box is
    that of the stored corner and size. *)
Definition near_box (tol : R) (d : ddomain) (i : index) (p : dpoint) : Prop :=
  forall a, let low := B2R (dcoord a (ddlow d)) in let h := B2R (ddsize d) / IZR (2 ^ ilevel i) in
    low + IZR (iaxis a i) * h - tol <= B2R (dcoord a p) <= low + IZR (iaxis a i + 1) * h + tol.

(** A domain far from overflow and underflow. *)
Definition moderate (d : ddomain) : Prop :=
  is_finite (ddsize d) = true /\ bpow radix2 (-960) <= B2R (ddsize d) <= bpow radix2 900 /\
  forall a, is_finite (dcoord a (ddlow d)) = true /\ Rabs (B2R (dcoord a (ddlow d))) <= bpow radix2 900.
(** At least the rounding error of a corner. *)
Definition tolerates (tol : R) (d : ddomain) : Prop :=
  forall a, (B2R (ddsize d) + Rabs (B2R (dcoord a (ddlow d)))) / IZR (2 ^ 49) <= tol.
