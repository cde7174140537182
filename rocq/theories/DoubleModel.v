(** The bounding box and the uniform cell of a point in double precision (IEEE 754
    binary64, round to nearest even, every operation rounded on its own). *)
From Coq Require Import ZArith List Bool.
From Flocq Require Import Core BinarySingleNaN.
From Verif Require Import Base IndexModel GridModel ArrayModel RefineModel.
Import ListNotations.
Open Scope Z_scope.

Definition double := binary_float 53 1024.
#[global] Instance prec53 : Prec_gt_0 53 := eq_refl.
#[global] Instance emax1024 : Prec_lt_emax 53 1024 := eq_refl.

Definition dadd (x y : double) : double := Bplus mode_NE x y.
Definition dsub (x y : double) : double := Bminus mode_NE x y.
Definition dmul (x y : double) : double := Bmult mode_NE x y.
Definition ddiv (x y : double) : double := Bdiv mode_NE x y.
(** An integer constant, or an [int] converted. *)
Definition of_int (z : Z) : double := binary_normalize 53 1024 prec53 emax1024 mode_NE z 0 false.

(** fmin, fmax, arguments that are not NaN. *)
Definition dmin (a b : double) : double := match Bcompare a b with Some Gt => b | _ => a end.
Definition dmax (a b : double) : double := match Bcompare a b with Some Lt => b | _ => a end.

(** point.h: three doubles. *)
Record dpoint := mkDP { dx : double; dy : double; dz : double }.
Definition dcoord (a : axis) (p : dpoint) : double := match a with AX => dx p | AY => dy p | AZ => dz p end.

(** dualtree.h:518-586: the six values reduced over the ranks. *)
Record dbounds := mkDB { dbmin : dpoint; dbmax : dpoint }.
(** dualtree.h:566-575 *)
Definition dno_bounds : dbounds :=
  let b := of_int (10 ^ 50) in let m := of_int (- 10 ^ 50) in mkDB (mkDP b b b) (mkDP m m m).
(** dualtree.h:581-591 *)
Definition djoin (l r : dbounds) : dbounds :=
  mkDB (mkDP (dmin (dx (dbmin l)) (dx (dbmin r))) (dmin (dy (dbmin l)) (dy (dbmin r))) (dmin (dz (dbmin l)) (dz (dbmin r))))
       (mkDP (dmax (dx (dbmax l)) (dx (dbmax r))) (dmax (dy (dbmax l)) (dy (dbmax r))) (dmax (dz (dbmax l)) (dz (dbmax r)))).
(** dualtree.h:529-536 *)
Definition dextend (v : dbounds) (p : dpoint) : dbounds := djoin v (mkDB p p).
(** dualtree.h:518-557 *)
Definition drank_bounds (same_sandt : bool) (sources targets : list dpoint) : dbounds :=
  let v := fold_left dextend sources dno_bounds in
  if same_sandt then v else fold_left dextend targets v.
(** The reduction, in the order [t]. *)
Fixpoint dreduce_bounds (t : otree) (vs : list dbounds) : dbounds :=
  match t with
  | OLeaf r => nth r vs dno_bounds
  | OIdent => dno_bounds
  | ONode a b => djoin (dreduce_bounds a vs) (dreduce_bounds b vs)
  end.

(** domaingeometry.h:110-113 *)
Record ddomain := mkDD { ddlow : dpoint; ddsize : double }.
(** dualtree.h:672-680 *)
Definition ddomain_of (v : dbounds) : ddomain :=
  let ext a := dsub (dcoord a (dbmax v)) (dcoord a (dbmin v)) in
  let len := dmax (ext AX) (dmax (ext AY) (ext AZ)) in
  let low a := ddiv (dsub (dadd (dcoord a (dbmax v)) (dcoord a (dbmin v))) len) (of_int 2) in
  mkDD (mkDP (low AX) (low AY) (low AZ)) len.

(** Conversion to int: undefined for NaN, infinities and out of range. *)
Definition dint (x : double) : res Z :=
  if is_finite x then
    let t := Btrunc x in
    if ((- 2 ^ 31 <=? t) && (t <? 2 ^ 31))%Z then Ok t else Fail Overflow
  else Fail DivZero.

(** tree.h:634-645 *)
Definition dcell_coord (a : axis) (d : ddomain) (dim : Z) (p : dpoint) : res Z :=
  let scale := ddiv (of_int 1) (ddsize d) in
  do k <- dint (dmul (dmul (of_int dim) (dsub (dcoord a p) (dcoord a (ddlow d)))) scale);
  Ok (Z.min (dim - 1) k).
Definition dcell_of (d : ddomain) (dim : Z) (p : dpoint) : res Z :=
  do x <- dcell_coord AX d dim p;
  do y <- dcell_coord AY d dim p;
  do z <- dcell_coord AZ d dim p;
  Ok (to_int (simple_key x y z dim)).

(** tree.h:627-650 [assign_points_to_unif_grid_handler]; [count] has 8^L entries. *)
Definition dassign_points (d : ddomain) (L : Z) (P : list dpoint) (count : list Z) : res (list Z * list Z) :=
  foldM (fun '(gid, count) p =>
    do g <- dcell_of d (2 ^ L) p;
    do c <- nth_resZ count g;
    do count' <- set_resZ count g (c + 1)%Z;
    Ok (gid ++ [g], count')) P ([], count).

(** The constant 0.5. *)
Definition dhalf : double := binary_normalize 53 1024 prec53 emax1024 mode_NE 1 (-1) false.
Definition dicoord (a : axis) (i : index) : Z := match a with AX => ix i | AY => iy i | AZ => iz i end.
Definition dltb (x y : double) : bool := match Bcompare x y with Some Lt => true | _ => false end.

(** node.h:464-483: the tests of refinement.  [pow] is exact for powers of two. *)
Definition dcentre (d : ddomain) (a : axis) (i : index) : double :=
  let h := ddiv (ddsize d) (of_int (2 ^ ilevel i)) in
  dadd (dcoord a (ddlow d)) (dmul (dadd (of_int (dicoord a i)) dhalf) h).
Definition dbelow (d : ddomain) (a : axis) (i : index) (p : dpoint) : bool := dltb (dcoord a p) (dcentre d a i).

(** domaingeometry.cc:41-67: one coordinate of the low and high corners and of the centre. *)
Definition dsize_from_level (d : ddomain) (level : Z) : res double :=
  if ((level <? 0) || (30 <? level))%Z then Fail Overflow else Ok (ddiv (ddsize d) (of_int (Z.shiftl 1 level))).
Definition dcorner_coord (q : double) (d : ddomain) (a : axis) (i : index) : res double :=
  do s <- dsize_from_level d (ilevel i); Ok (dadd (dmul q s) (dcoord a (ddlow d))).
Definition dlow_from_index (d : ddomain) (a : axis) (i : index) : res double := dcorner_coord (of_int (dicoord a i)) d a i.
Definition dhigh_from_index (d : ddomain) (a : axis) (i : index) : res double := dcorner_coord (of_int (dicoord a i + 1)) d a i.
Definition dcenter_from_index (d : ddomain) (a : axis) (i : index) : res double := dcorner_coord (dadd (of_int (dicoord a i)) dhalf) d a i.
