(** Buffer, ReadBuffer, WriteBuffer: a cursor over a block of bytes.
    Bytes are integers; pointers are offsets from [base_]. *)
From Coq Require Import ZArith List Bool Arith.
From Verif Require Import Base.
Import ListNotations.

(** Copying out of and into a block ([memcpy], [std::copy]); any access outside
    the block fails. *)
Definition load (mem : list Z) (off n : nat) : res (list Z) :=
  if off + n <=? length mem then Ok (firstn n (skipn off mem)) else Fail Oob.
Definition store (mem : list Z) (off : nat) (data : list Z) : res (list Z) :=
  if off + length data <=? length mem
  then Ok (firstn off mem ++ data ++ skipn (off + length data) mem) else Fail Oob.

(** buffer.h:74-78: [b_mem] is the block at [base_] ([total_] bytes), [b_off] is
    [offset_ - base_], [b_rem] is [remain_]. *)
Record buf := { b_mem : list Z; b_off : nat; b_rem : nat }.

(** buffer.h:41-42 *)
Definition mk_buf (mem : list Z) : buf := {| b_mem := mem; b_off := 0; b_rem := length mem |}.
(** buffer.h:57 *)
Definition complete (b : buf) : bool := b_rem b =? 0.
(** Moves the cursor: [offset_ += n; remain_ -= n]. *)
Definition moved (b : buf) (mem : list Z) (n : nat) : buf :=
  {| b_mem := mem; b_off := b_off b + n; b_rem := b_rem b - n |}.

(** buffer.h:66-72 *)
Definition advance (b : buf) (bytes : nat) : buf * bool :=
  if complete b then (b, false) else
  let adv := if bytes <=? b_rem b then bytes else b_rem b in
  (moved b (b_mem b) adv, adv =? bytes).

(** buffer.h:99-109: new buffer, the bytes copied out, and the return value. *)
Definition read (b : buf) (bytes : nat) : res (buf * list Z * bool) :=
  if complete b then Ok (b, [], false) else
  let toread := if bytes <=? b_rem b then bytes else b_rem b in
  do out <- load (b_mem b) (b_off b) toread;
  Ok (moved b (b_mem b) toread, out, toread =? bytes).

(** buffer.h:130-157 [interpret], [interpret_array] for [bytes] bytes: the
    pointer returned ([None] for nullptr). *)
Definition interpret (b : buf) (bytes : nat) : buf * option nat :=
  let '(b', e) := advance b bytes in (b', if e then Some (b_off b) else None).

(** buffer.h:178-188 [write(const char *, size_t)], also [write(const T)]
    (219-222); [data] are the bytes at the argument. *)
Definition write (b : buf) (data : list Z) : res (buf * bool) :=
  let bytes := length data in
  if complete b then Ok (b, false) else
  let towrite := if bytes <=? b_rem b then bytes else b_rem b in
  do src <- load data 0 towrite;
  do mem' <- store (b_mem b) (b_off b) src;
  Ok (moved b mem' towrite, towrite =? bytes).

(** buffer.h:226-236 [write(const T *, size_t)] *)
Definition write_array (b : buf) (data : list Z) : res (buf * bool) :=
  let bytes := length data in
  if b_rem b <? bytes then Ok (b, false) else
  do mem' <- store (b_mem b) (b_off b) data;
  Ok (moved b mem' bytes, true).

(** buffer.h:200-216 [write(ReadBuffer &)]: both buffers change.  The input is a
    different block. *)
Definition write_buf (b inp : buf) : res (buf * buf * bool) :=
  if complete b then Ok (b, inp, false) else
  let inputleft := b_rem inp in
  let towrite := if inputleft <=? b_rem b then inputleft else b_rem b in
  if towrite =? 0 then Ok (moved b (b_mem b) 0, inp, towrite =? inputleft) else
  do r <- read inp towrite;
  let '(inp', data, e) := r in
  do mem' <- store (b_mem b) (b_off b) data;
  do _ <- assert_ e;
  Ok (moved b mem' towrite, inp', towrite =? inputleft).
