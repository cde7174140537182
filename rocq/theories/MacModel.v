(** The acceptance test of the Barnes-Hut method: include/builtins/bh_method.h.
    Coordinates are rationals as in GeomModel; rounding is not modelled. *)
From Coq Require Import ZArith QArith Qabs List Bool.
From Verif Require Import Base IndexModel GeomModel.
Import ListNotations.
Open Scope Q_scope.

(** point.cc: point_sub *)
Definition point_sub (l r : point) : point := mkP (px l - px r) (py l - py r) (pz l - pz r).
(** point.h:73-75, the argument of sqrt *)
Definition norm2 (p : point) : Q := px p * px p + py p * py p + pz p * pz p.

(** bh_method.h:156-160 MAC.  [size / disp.norm() < theta_] is decided by squares (C37_mac);
    a zero distance gives infinity or NaN and so false. *)
Definition mac (theta : Q) (exp_point : point) (size : Q) (pos : point) : bool :=
  let disp := point_sub pos exp_point in
  Qltb 0 theta && Qltb (size * size) (theta * theta * norm2 disp).

(** bh_method.h:174-185 nearest *)
Definition nearest (scenter tcenter : point) (tsize : Q) : point :=
  let offset := point_sub scenter tcenter in
  let len := (1 # 2) * tsize in
  let val c := if Qltb len (Qabs c) then len else c in
  mkP (val (px offset) + px tcenter) (val (py offset) + py tcenter) (val (pz offset) + pz tcenter).

(** bh_method.h:102-110: the test process() makes for the target node [curr] and the source
    node [i]. *)
Definition can_use (theta : Q) (d : domain) (i curr : index) : res bool :=
  do ccenter <- center_from_index d curr;
  do csize <- size_from_level d (ilevel curr);
  do icenter <- center_from_index d i;
  do isize <- size_from_level d (ilevel i);
  let comp_point := nearest icenter ccenter csize in
  Ok (mac theta icenter isize comp_point).
