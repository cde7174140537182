(** Positions, the domain, its boxes and the uniform cell of a point.
    Coordinates are rationals: every finite double is one.  Rounding is not modelled. *)
From Coq Require Import ZArith QArith Qround List Bool.
From Verif Require Import Base IndexModel GridModel ArrayModel RefineModel.
Import ListNotations.
Open Scope Q_scope.

(** point.h: three doubles. *)
Record point := mkP { px : Q; py : Q; pz : Q }.
Definition coord (a : axis) (p : point) : Q := match a with AX => px p | AY => py p | AZ => pz p end.
Definition icoord (a : axis) (i : index) : Z := match a with AX => ix i | AY => iy i | AZ => iz i end.

(** domaingeometry.h:110-113 *)
Record domain := mkD { dlow : point; dsize : Q }.

Definition Qltb (a b : Q) : bool := negb (Qle_bool b a).
(** fmin, fmax (no NaNs). *)
Definition fmin (a b : Q) : Q := if Qle_bool a b then a else b.
Definition fmax (a b : Q) : Q := if Qle_bool a b then b else a.

(** domaingeometry.cc:65-67; [1 << level] is an int. *)
Definition size_from_level (d : domain) (level : Z) : res Q :=
  if ((level <? 0) || (30 <? level))%Z then Fail Overflow else Ok (dsize d / inject_Z (Z.shiftl 1 level)).

(** domaingeometry.cc:41-62.  [off] is 0 for the low corner, 1 for the high one and
    1/2 for the centre. *)
Definition corner (off : Q) (d : domain) (i : index) : res point :=
  do s <- size_from_level d (ilevel i);
  Ok (mkP ((inject_Z (ix i) + off) * s + px (dlow d)) ((inject_Z (iy i) + off) * s + py (dlow d)) ((inject_Z (iz i) + off) * s + pz (dlow d))).
Definition low_from_index := corner 0.
Definition high_from_index := corner 1.
Definition center_from_index := corner (1 # 2).

(** domaingeometry.cc:26-38, the cubifying constructor. *)
Definition cubify (lo hi : point) (factor : Q) : domain :=
  let c a := coord a lo * (1 # 2) + coord a hi * (1 # 2) in
  let s a := coord a hi - coord a lo in
  let m := if Qltb (s AY) (s AX) then s AX else s AY in
  let m := if Qltb (s AZ) m then m else s AZ in
  let m := m * factor in
  let h := m * (1 # 2) in
  mkD (mkP (c AX - h) (c AY - h) (c AZ - h)) m.

(** dualtree.h:518-586: xmin, xmax, ymin, ymax, zmin, zmax. *)
Definition big : Q := inject_Z (10 ^ 50).
Record bounds := mkB { bmin : point; bmax : point }.
(** dualtree.h:566-575 [domain_geometry_init_handler] *)
Definition no_bounds : bounds := mkB (mkP big big big) (mkP (- big) (- big) (- big)).
(** dualtree.h:581-591 [domain_geometry_op_handler] *)
Definition join (l r : bounds) : bounds :=
  mkB (mkP (fmin (px (bmin l)) (px (bmin r))) (fmin (py (bmin l)) (py (bmin r))) (fmin (pz (bmin l)) (pz (bmin r))))
      (mkP (fmax (px (bmax l)) (px (bmax r))) (fmax (py (bmax l)) (py (bmax r))) (fmax (pz (bmax l)) (pz (bmax r)))).
(** dualtree.h:529-536: one record. *)
Definition extend (v : bounds) (p : point) : bounds :=
  mkB (mkP (fmin (px (bmin v)) (px p)) (fmin (py (bmin v)) (py p)) (fmin (pz (bmin v)) (pz p)))
      (mkP (fmax (px (bmax v)) (px p)) (fmax (py (bmax v)) (py p)) (fmax (pz (bmax v)) (pz p))).
(** dualtree.h:518-557 [set_domain_geometry_handler] on one rank. *)
Definition rank_bounds (same_sandt : bool) (sources targets : list point) : bounds :=
  let v := fold_left extend sources no_bounds in
  if same_sandt then v else fold_left extend targets v.
(** The reduction, in the order [t]. *)
Fixpoint reduce_bounds (t : otree) (vs : list bounds) : bounds :=
  match t with
  | OLeaf r => nth r vs no_bounds
  | OIdent => no_bounds
  | ONode a b => join (reduce_bounds a vs) (reduce_bounds b vs)
  end.
(** dualtree.h:672-680 in [init_partition_handler] *)
Definition domain_of (v : bounds) : domain :=
  let len := fmax (px (bmax v) - px (bmin v)) (fmax (py (bmax v) - py (bmin v)) (pz (bmax v) - pz (bmin v))) in
  mkD (mkP ((px (bmax v) + px (bmin v) - len) / 2) ((py (bmax v) + py (bmin v) - len) / 2) ((pz (bmax v) + pz (bmin v) - len) / 2)) len.

(** Conversion of a double to int: towards zero, undefined out of range. *)
Definition int_of (q : Q) : res Z :=
  let t := Z.quot (Qnum q) (QDen q) in
  if ((- 2 ^ 31 <=? t) && (t <? 2 ^ 31))%Z then Ok t else Fail Overflow.

(** tree.h:634-644: cell number of one record.  With size 0 the scale is infinite and
    the conversion undefined. *)
Definition cell_coord (a : axis) (d : domain) (dim : Z) (p : point) : res Z :=
  if Qeq_bool (dsize d) 0 then Fail DivZero else
  do k <- int_of (inject_Z dim * (coord a p - coord a (dlow d)) * (1 / dsize d));
  Ok (Z.min (dim - 1) k).
Definition cell_of (d : domain) (dim : Z) (p : point) : res Z :=
  do x <- cell_coord AX d dim p;
  do y <- cell_coord AY d dim p;
  do z <- cell_coord AZ d dim p;
  Ok (to_int (simple_key x y z dim)).

(** tree.h:627-650 [assign_points_to_unif_grid_handler]; the array [count] has 8^L
    entries. *)
Definition assign_points (d : domain) (L : Z) (P : list point) (count : list Z) : res (list Z * list Z) :=
  foldM (fun '(gid, count) p =>
    do g <- cell_of d (2 ^ L) p;
    do c <- nth_resZ count g;
    do count' <- set_resZ count g (c + 1)%Z;
    Ok (gid ++ [g], count')) P ([], count).

(** node.h:464-483: the tests of refinement, with the same geometry. *)
Definition below_centre (d : domain) (a : axis) (i : index) (p : point) : bool :=
  Qltb (coord a p) (coord a (dlow d) + (inject_Z (icoord a i) + (1 # 2)) * (dsize d / inject_Z (2 ^ ilevel i))).
