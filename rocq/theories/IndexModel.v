(** Model of include/dashmm/index.h. *)
From Coq Require Import ZArith Bool.
Local Open Scope Z_scope.

(** index.h:35-40, 105-107: four [int]s.  Modelled in Z; [fits_int32] results
    in IndexProps say when no [int] overflows. *)
Record index := mkIndex { ix : Z; iy : Z; iz : Z; ilevel : Z }.

(** index.h:60-63 [Index::parent(num)]: arithmetic right shifts. *)
Definition parent (num : Z) (i : index) : index :=
  mkIndex (Z.shiftr (ix i) num) (Z.shiftr (iy i) num) (Z.shiftr (iz i) num)
          (if ilevel i >? num then ilevel i - num else 0).

(** index.h:77-82 [Index::child(which)]. [which & 1 ? 1 : 0] etc. *)
Definition child (which : Z) (i : index) : index :=
  mkIndex (Z.shiftl (ix i) 1 + (if Z.land which 1 =? 0 then 0 else 1))
          (Z.shiftl (iy i) 1 + (if Z.land which 2 =? 0 then 0 else 1))
          (Z.shiftl (iz i) 1 + (if Z.land which 4 =? 0 then 0 else 1))
          (ilevel i + 1).

(** index.h:93-98 [Index::which_child]; C++ [%] truncates, hence [Z.rem]. *)
Definition which_child (i : index) : Z :=
  Z.rem (ix i) 2 + Z.shiftl (Z.rem (iy i) 2) 1 + Z.shiftl (Z.rem (iz i) 2) 2.

(** index.h:101-106 [operator==]. *)
Definition index_eqb (a b : index) : bool :=
  (ilevel a =? ilevel b) && (ix a =? ix b) && (iy a =? iy b) && (iz a =? iz b).
