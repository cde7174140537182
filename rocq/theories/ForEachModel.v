(** Array<T>::forEach: recursive splitting of the local records into chunks.
    Simplification: the products and sums are exact; they are bounded by the
    number of records, except [threads * factor], which fits in [size_t]. *)
From Coq Require Import List Arith Bool.
From Verif Require Import Base.
Import ListNotations.

(** arrayforeachaction.h:143-166: records per chunk and the number of chunk
    completions the gate [alldone] waits for. *)
Definition foreach_sizes (total threads factor : nat) : res (nat * nat) :=
  let over := if factor =? 0 then 1 else if threads =? 1 then 1 else threads * factor in
  if over =? 0 then Fail DivZero else
  let n_per_chunk := total / over in
  if n_per_chunk =? 0 then Ok (1, total)
  else Ok (n_per_chunk, total / n_per_chunk + (if total mod n_per_chunk =? 0 then 0 else 1)).

(** A spawn task: arrayforeachaction.h:196-198, the offset of [data] from the
    start of the segment and [count]. *)
Definition task : Type := nat * nat.

(** State of one forEach: tasks not yet run, leaf calls (offset and count) made
    so far, and the number of times [alldone] was set. *)
Record fstate := { pending : list task; calls : list (nat * nat); sets : nat }.

(** arrayforeachaction.h:139-172: nothing for an empty segment, else one task. *)
Definition foreach_init (total : nat) : fstate :=
  {| pending := if total =? 0 then [] else [(0, total)]; calls := []; sets := 0 |}.

(** arrayforeachaction.h:196-222 [spawn_handler]: the tasks it spawns, and the
    leaf call it makes, if any. *)
Definition spawn_handler (chunk : nat) (t : task) : res (list task * option (nat * nat)) :=
  let '(data, count) := t in
  if count <=? chunk then Ok ([], Some (data, count))
  else if chunk =? 0 then Fail DivZero else
    let num_chunks := count / chunk + (if count mod chunk =? 0 then 0 else 1) in
    let num_left := num_chunks / 2 in
    let count_left := num_left * chunk in
    let count_right := count - count_left in
    Ok ([(data, count_left); (data + count_left, count_right)], None).

(** The runtime picks any pending task next. *)
Inductive fstep (chunk : nat) : fstate -> fstate -> Prop :=
| fstep_run : forall l1 t l2 cs n spawned leaf,
    spawn_handler chunk t = Ok (spawned, leaf) ->
    fstep chunk {| pending := l1 ++ t :: l2; calls := cs; sets := n |}
      {| pending := l1 ++ spawned ++ l2;
         calls := match leaf with Some c => c :: cs | None => cs end;
         sets := match leaf with Some _ => S n | None => n end |}.

Inductive fruns (chunk : nat) : fstate -> fstate -> Prop :=
| fruns_refl : forall s, fruns chunk s s
| fruns_step : forall s1 s2 s3, fruns chunk s1 s2 -> fstep chunk s2 s3 -> fruns chunk s1 s3.
