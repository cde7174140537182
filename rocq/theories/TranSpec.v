(** What the translations of the Laplace expansions have to compute. *)
From Coq Require Import Reals ZArith List.
From Verif Require Import Base IndexModel LapModel LapSpec TranModel.
Import ListNotations.
Open Scope R_scope.

(** The boxes of a level divide the domain, a cube of side [size], evenly. *)
Definition side (size : R) (lev : Z) : R := size / powerRZ 2 lev.
Definition middle (corner : pt) (size : R) (i : index) : pt :=
  let h := side size (ilevel i) in
  mkPt (px corner + h * IZR (ix i) + h / 2) (py corner + h * IZR (iy i) + h / 2) (pz corner + h * IZR (iz i) + h / 2).

(** Half the diagonal of a box: the box lies within this distance of its centre. *)
Definition radius (size : R) (lev : Z) : R := sqrt 3 / 2 * side size lev.

(** Where the code takes a point [x] to lie when it computes its angles around [c]. *)
Definition rounded (c x : pt) : pt :=
  if Rle_dec (dist c x) (/ 10 ^ 14) then mkPt (px c) (py c) (pz c + dist c x)
  else if Rle_dec (off_axis c x / dist c x) (/ 10 ^ 14) then mkPt (px c + off_axis c x) (py c) (pz x)
  else x.
Definition rounded_charges (c : pt) (l : list charge) : list charge := map (fun s => mkCharge (cq s) (rounded c (cpos s))) l.

(** Boxes of one level that do not touch, but whose parents do, at most. *)
Definition separated (s t : index) : Prop :=
  ilevel s = ilevel t /\
  (Z.abs (ix s - ix t) <= 3 /\ Z.abs (iy s - iy t) <= 3 /\ Z.abs (iz s - iz t) <= 3)%Z /\
  (2 <= Z.abs (ix s - ix t) \/ 2 <= Z.abs (iy s - iy t) \/ 2 <= Z.abs (iz s - iz t))%Z.

(** The expansions that can arise in the upward pass for the box [i], with the charges they
    stand for.  In the code the results of M_to_M are added to an expansion of the parent. *)
Inductive upward (tb : table) (corner : pt) (size : R) : index -> list charge -> list cplx -> Prop :=
| up_new i : upward tb corner size i [] (new_expansion (tb_p tb))
| up_sources i l M : (forall s, In s l -> dist (middle corner size i) (cpos s) <= radius size (ilevel i)) ->
    S_to_M (tb_p tb) (tb_sqf tb) (level_scale size (ilevel i)) (box_center corner size i) l = Ok M ->
    upward tb corner size i (rounded_charges (middle corner size i) l) M
| up_child i k l M M' : (k < 8)%nat -> upward tb corner size (child (Z.of_nat k) i) l M -> M_to_M tb k M = Ok M' -> upward tb corner size i l M'
| up_add i l1 l2 M1 M2 M : upward tb corner size i l1 M1 -> upward tb corner size i l2 M2 -> add_expansion M1 M2 = Ok M -> upward tb corner size i (l1 ++ l2) M.

(** The expansions that can arise in the downward pass.  S_to_L is used for sources outside
    of the neighbours of the box, M_to_L for separated boxes. *)
Inductive downward (tb : table) (corner : pt) (size : R) : index -> list charge -> list cplx -> Prop :=
| dn_new i : downward tb corner size i [] (new_expansion (tb_p tb))
| dn_sources i l L : (forall s, In s l -> 3 / 2 * side size (ilevel i) <= dist (middle corner size i) (cpos s)) ->
    S_to_L (tb_p tb) (tb_sqf tb) (level_scale size (ilevel i)) (box_center corner size i) l = Ok L ->
    downward tb corner size i (rounded_charges (middle corner size i) l) L
| dn_multipole i j l M L : separated j i -> upward tb corner size j l M -> M_to_L tb (level_scale size (ilevel j)) j i M = Ok L -> downward tb corner size i l L
| dn_parent i k l L L' : (k < 8)%nat -> downward tb corner size i l L -> L_to_L tb k L = Ok L' -> downward tb corner size (child (Z.of_nat k) i) l L'
| dn_add i l1 l2 L1 L2 L : downward tb corner size i l1 L1 -> downward tb corner size i l2 L2 -> add_expansion L1 L2 = Ok L -> downward tb corner size i (l1 ++ l2) L.

(** An array of coefficients of an expansion of degree [p]: those of order zero are real. *)
Definition expansion (p : nat) (M : list cplx) : Prop :=
  length M = ((p + 1) * (p + 2) / 2)%nat /\ forall n, (n <= p)%nat -> exists v, nth_error M (n * (n + 1) / 2) = Some (v, 0).

(** The entries of the rotation matrices of degree [n]: rotating the two variables of a
    homogeneous polynomial of degree [2 n] by half the angle. *)
Definition mono (n k : nat) (u v : R) : R := u ^ k * v ^ (2 * n - k) / sqrt (INR (fact k) * INR (fact (2 * n - k))).
Fixpoint rsum_upto (f : nat -> R) (n : nat) : R := match n with O => f O | S n => rsum_upto f n + f (S n) end.
Definition rotation_matrix (p : nat) (beta : R) (d : list R) : Prop :=
  forall n m, (m <= n <= p)%nat -> exists row,
    (forall k, (k <= 2 * n)%nat -> nth_error d (n * (n + 1) * (4 * n - 1) / 6 + m * (2 * n + 1) + k) = Some (row k)) /\
    forall u v, rsum_upto (fun k => row k * mono n k u v) (2 * n) =
                mono n (n + m) (cos (beta / 2) * u - sin (beta / 2) * v) (sin (beta / 2) * u + cos (beta / 2) * v).
