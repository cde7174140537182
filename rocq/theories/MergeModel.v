(** Filling the uniform cells of one rank with the local and arriving points. *)
From Coq Require Import ZArith List Bool Arith.
From Verif Require Import Base ArrayRefModel ArrayModel.
Import ListNotations.
Open Scope nat_scope.

Section Merge.
Variable A : Type.
(** The number of uniform cells, the rank map, the calling rank and the global counts. *)
Variable dim3 : nat.
Variable rank_map : nat -> nat.
Variable my_rank : nat.
Variable global_count : nat -> nat.

Definition owned (i : nat) : bool := rank_map i =? my_rank.
Definition share (i : nat) : nat := if owned i then global_count i else 0.

(** tree.h:225-232: [global_offset] and [num_points] (ints in the code). *)
Fixpoint global_offset (i : nat) : nat := match i with O => 0 | S i' => global_offset i' + share i' end.
Fixpoint sum_shares (n : nat) : nat := match n with O => 0 | S n' => sum_shares n' + share n' end.
Definition num_points : nat := sum_shares dim3.

(** tree.h:236, 242: the whole segment and the slice of cell [i]. *)
Definition sorted_ref : aref := {| r_data := Some 0%Z; r_n := Z.of_nat num_points |}.
Definition parts (i : nat) : aref := slice sorted_ref (Z.of_nat (global_offset i)) (Z.of_nat (global_count i)).

(** [st_mem] is the memory of [sorted_data], [st_first] the [first_] of every cell.
    [st_started] logs the cells whose partitioning was started and [st_written] the slots
    of [sorted_data] written; both are only for the statements. *)
Record mstate := { st_mem : list A; st_first : nat -> nat; st_started : list nat; st_written : list nat }.

(** tree.h:728-748 [merge_points_handler], also the body of the loop at tree.h:244-262:
    copy the batch behind [first_], node.h:172-175 [increment_first], and start
    partitioning when it returns true.  The node's lock makes this atomic per cell. *)
Definition merge_batch (st : mstate) (e : nat * list A) : res mstate :=
  let '(i, batch) := e in
  match r_data (parts i) with
  | None => Fail NullDeref
  | Some d =>
      let at_ := Z.to_nat d + st_first st i in
      do mem' <- write_range A (st_mem st) at_ batch;
      let f := st_first st i + length batch in
      Ok {| st_mem := mem';
            st_first := fun j => if j =? i then f else st_first st j;
            st_started := if (r_n (parts i) <=? Z.of_nat f)%Z then st_started st ++ [i] else st_started st;
            st_written := st_written st ++ seq at_ (length batch) |}
  end.

(** tree.h:214-270 [initPointExchange]; [fresh] is the content of the new array,
    [temp] the local points, grouped by cell at [local_offset]. *)
Definition init_exchange (local_count local_offset : nat -> nat) (temp fresh : list A) : res mstate :=
  let st0 := {| st_mem := fresh; st_first := fun _ => 0; st_started := []; st_written := [] |} in
  if num_points =? 0 then Ok st0 else
  foldM (fun st i =>
    if negb (owned i) then Ok st
    else if local_count i =? 0 then Ok st
    else do batch <- read_range A temp (local_offset i) (local_offset i + local_count i); merge_batch st (i, batch)) (seq 0 dim3) st0.

(** S == T, tree.h:290-343 and 768-784: the target cells share the source cells' memory
    and only count. *)
Definition count_batch (st : (nat -> nat) * list nat) (e : nat * nat) : (nat -> nat) * list nat :=
  let '(i, n) := e in
  let f := fst st i + n in
  (fun j => if j =? i then f else fst st j, if (r_n (parts i) <=? Z.of_nat f)%Z then snd st ++ [i] else snd st).
Definition init_same (local_count : nat -> nat) : (nat -> nat) * list nat :=
  if num_points =? 0 then (fun _ => 0, []) else
  fold_left (fun st i => if negb (owned i) then st else if local_count i =? 0 then st else count_batch st (i, local_count i)) (seq 0 dim3) (fun _ => 0, []).
End Merge.
Arguments st_mem {A} m. Arguments st_first {A} m. Arguments st_started {A} m. Arguments st_written {A} m.
