(** ArrayRef: a pointer and a count into an array segment. *)
From Coq Require Import ZArith Bool.
Open Scope Z_scope.

(** 64-bit [size_t]. *)
Definition u64 (z : Z) : Z := z mod 2 ^ 64.

(** arrayref.h:44-91.  [r_data] is [None] for the null pointer, else the record
    number of [data_] within the array it points into. *)
Record aref := { r_data : option Z; r_n : Z }.

(** arrayref.h:56 *)
Definition valid (r : aref) : bool := match r_data r with Some _ => true | None => false end.

(** arrayref.h:69-78.  A null [data_] plus an offset is null only for offset 0;
    the model keeps [None], which no caller dereferences since [n_] is 0. *)
Definition slice (r : aref) (offset n : Z) : aref :=
  if r_n r <? offset then {| r_data := None; r_n := 0 |}
  else if r_n r <? u64 (offset + n) then {| r_data := None; r_n := 0 |}
  else {| r_data := match r_data r with Some d => Some (d + offset) | None => None end; r_n := n |}.
