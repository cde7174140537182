(** How many edges of an operation lead from one locality to another. *)
From Coq Require Import ZArith List Bool.
From Verif Require Import Base LookupModel DagModel.
Import ListNotations.
Open Scope Z_scope.

(** The operations in the order of their tables *)
Definition operations : list operation := [Nop; StoM; StoL; MtoM; MtoL; LtoL; MtoT; LtoT; StoT; MtoI; ItoI; ItoL].
Definition between (loc : dnode -> Z) (o : operation) (j k : Z) (l : list edge) : Z :=
  Z.of_nat (length (filter (fun e => (if op_dec (eop e) o then true else false) && (loc (efrom e) =? j) && (loc (eto e) =? k)) l)).
(** The lines of all the tables, in order *)
Definition all_lines (n : nat) (count : operation -> Z -> Z -> Z) : list (Z * Z * Z * Z) :=
  flat_map (fun io => flat_map (fun j => map (fun k => (fst io, j, k, count (snd io) j k)) (zseq 0 n)) (zseq 0 n)) (combine (zseq 0 12) operations).
