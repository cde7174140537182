(** Cells of a cubic grid and face adjacency. *)
From Coq Require Import ZArith.
Local Open Scope Z_scope.

Definition in_cube (n : Z) (x y z : Z) : Prop := 0 <= x < n /\ 0 <= y < n /\ 0 <= z < n.

(** Two cells share a face. *)
Definition face_neighbours (x y z x' y' z' : Z) : Prop :=
  Z.abs (x - x') + Z.abs (y - y') + Z.abs (z - z') = 1.
