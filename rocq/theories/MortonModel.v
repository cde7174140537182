(** Model of the Morton key, src/hilbert.cc:32-49 (the USEMORTONKEYS build). *)
From Coq Require Import NArith.
Local Open Scope N_scope.

(** 64-bit left shift: bits beyond 63 are lost. *)
Definition shl64 (a n : N) : N := (N.shiftl a n) mod 2 ^ 64.

(** One line of [split]: [(split | split << n) & mask]. *)
Definition spread (n mask a : N) : N := N.land (N.lor a (shl64 a n)) mask.

(** hilbert.cc:34-42 [split]. *)
Definition split (k : N) : N :=
  let s := N.land k 0x1fffff in
  let s := spread 32 0x1f00000000ffff s in
  let s := spread 16 0x1f0000ff0000ff s in
  let s := spread 8  0x100f00f00f00f00f s in
  let s := spread 4  0x10c30c30c30c30c3 s in
  let s := spread 2  0x1249249249249249 s in
  s.

(** hilbert.cc:45-49 [morton_key]. *)
Definition morton_key (x y z : N) : N :=
  N.lor (N.lor (split x) (shl64 (split y) 1)) (shl64 (split z) 2).
