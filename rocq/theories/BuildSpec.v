(** Where every record must end up. *)
From Coq Require Import ZArith QArith List Arith.
From Verif Require Import IndexModel IndexSpec GridSpec GeomModel GeomSpec.
Import ListNotations.
Open Scope nat_scope.

(** [cell] gives every record of the list the number of the box of level [L] it is in. *)
Definition cell_numbers {X} (pos : X -> point) (d : domain) (L : Z) (recs : list X) (cell : X -> nat) : Prop :=
  forall x, In x recs -> exists i, in_grid i /\ ilevel i = L /\ in_box d i (pos x) /\ slot_of i L = Z.of_nat (cell x).
(** The records of one cell, and of one rank. *)
Definition of_cell {X} (cell : X -> nat) (i : nat) (recs : list X) : list X := filter (fun x => cell x =? i) recs.
Definition of_rank {X} (cell : X -> nat) (rank_map : nat -> nat) (r : nat) (recs : list X) : list X := filter (fun x => rank_map (cell x) =? r) recs.
(** Records in the domain, few enough to be counted by an [int]. *)
Definition placed {X} (pos : X -> point) (d : domain) (recs : list X) : Prop :=
  (forall x, In x recs -> in_domain d (pos x)) /\ (Z.of_nat (length recs) < 2 ^ 31)%Z.
