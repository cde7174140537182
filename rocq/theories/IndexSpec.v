(** What the index properties talk about. *)
From Coq Require Import ZArith.
From Verif Require Import IndexModel.
Local Open Scope Z_scope.

(** The cells of level l are the triples with coordinates in [0, 2^l). *)
Definition in_grid (i : index) : Prop :=
  0 <= ilevel i /\
  0 <= ix i < 2 ^ ilevel i /\ 0 <= iy i < 2 ^ ilevel i /\ 0 <= iz i < 2 ^ ilevel i.

(** [c] is the octant of [p] in the (low/high) half given by the three bits
    of w: 0: ---, 1: +--, 2: -+-, 3: ++-, 4: --+, ... as documented. *)
Definition octant_of (w : Z) (p c : index) : Prop :=
  ilevel c = ilevel p + 1 /\
  ix c = 2 * ix p + (w mod 2) /\
  iy c = 2 * iy p + (w / 2) mod 2 /\
  iz c = 2 * iz p + (w / 4) mod 2.

Definition int32 (z : Z) : Prop := - 2 ^ 31 <= z < 2 ^ 31.
Definition fits_int32 (i : index) : Prop :=
  int32 (ix i) /\ int32 (iy i) /\ int32 (iz i) /\ int32 (ilevel i).
