(** ViewSet: the serialized form of an expansion.
    Integers are stored little endian (x86-64); a double is its 8 bytes. *)
From Coq Require Import ZArith List Bool Arith.
From Verif Require Import Base ArrayRefModel BufferModel.
Import ListNotations.
Open Scope nat_scope.

(** Object representation of an [n]-byte integer. *)
Fixpoint le_enc (n : nat) (z : Z) : list Z :=
  match n with O => [] | S n' => (z mod 256)%Z :: le_enc n' (z / 256)%Z end.
Fixpoint le_dec (l : list Z) : Z :=
  match l with [] => 0%Z | b :: l' => (b + 256 * le_dec l')%Z end.
(** Value of a 32-bit pattern as [int]. *)
Definition s32 (z : Z) : Z := let m := (z mod 2 ^ 32)%Z in if (m <? 2 ^ 31)%Z then m else (m - 2 ^ 32)%Z.

(** viewset.h:34-38 [View]; [v_data] is the memory at [data]. *)
Record view := { v_index : Z; v_bytes : nat; v_data : list Z }.
(** viewset.h:160-164 [ViewSet]; [vs_center] and [vs_scale] hold the bytes of
    the doubles. *)
Record viewset := { vs_views : list view; vs_role : Z; vs_x : list Z; vs_y : list Z; vs_z : list Z; vs_scale : list Z }.

(** viewset.h:131 [int count()]: the size converted to [int]. *)
Definition vs_count (vs : viewset) : Z := s32 (Z.of_nat (length (vs_views vs))).
(** Views visited by [for (int i = 0; i < count(); ++i)]. *)
Definition vs_loop (vs : viewset) : list view := firstn (Z.to_nat (vs_count vs)) (vs_views vs).

(** viewset.cc:41-54 [bytes()] *)
Definition vs_bytes (vs : viewset) : Z :=
  let n := Z.of_nat (length (vs_views vs)) in
  u64 (fold_left (fun a v => a + Z.of_nat (v_bytes v))%Z (vs_views vs) 0 + 4 + 4 + 4 * 8 + n * 4 + n * 8)%Z.

(** [e = buffer.write(...); assert(e);] *)
Definition put (b : buf) (data : list Z) : res buf :=
  do r <- write b data; do _ <- assert_ (snd r); Ok (fst r).

(** viewset.cc:57-87 *)
Definition serialize (vs : viewset) (b : buf) : res buf :=
  do b <- put b (le_enc 4 (vs_role vs));
  do b <- put b (le_enc 4 (vs_count vs));
  do b <- put b (vs_x vs);
  do b <- put b (vs_y vs);
  do b <- put b (vs_z vs);
  do b <- put b (vs_scale vs);
  do b <- foldM (fun b v => do b <- put b (le_enc 4 (v_index v)); put b (le_enc 8 (Z.of_nat (v_bytes v)))) (vs_loop vs) b;
  foldM (fun b v => do d <- load (v_data v) 0 (v_bytes v); put b d) (vs_loop vs) b.

(** [e = buffer.read(...); assert(e);] *)
Definition get (b : buf) (n : nat) : res (buf * list Z) :=
  do r <- read b n; let '(b', d, e) := r in do _ <- assert_ e; Ok (b', d).

(** A view after [interpret]: its data is a pointer into the buffer. *)
Record pview := { p_index : Z; p_bytes : nat; p_data : nat }.
Record pviewset := { ps_views : list pview; ps_role : Z; ps_x : list Z; ps_y : list Z; ps_z : list Z; ps_scale : list Z }.

(** viewset.cc:90-129.  The views vector is rebuilt from empty; [set_data] for
    view [i] is merged with the loop that advances the cursor. *)
Definition interpret_vs (b : buf) : res (buf * pviewset) :=
  do r <- get b 4; let '(b, role) := r in
  do r <- get b 4; let '(b, ct) := r in
  do r <- get b 8; let '(b, x) := r in
  do r <- get b 8; let '(b, y) := r in
  do r <- get b 8; let '(b, z) := r in
  do r <- get b 8; let '(b, scale) := r in
  let ct := s32 (le_dec ct) in
  do r <- foldM (fun s (_ : nat) => let '(b, vs) := s in
                   do r <- get b 4; let '(b, idx) := r in
                   do r <- get b 8; let '(b, bts) := r in
                   Ok (b, vs ++ [(s32 (le_dec idx), Z.to_nat (le_dec bts))]))
             (seq 0 (Z.to_nat ct)) (b, []);
  let '(b, metas) := r in
  do r <- foldM (fun s (m : Z * nat) => let '(b, vs) := s in
                   let '(b', e) := advance b (snd m) in
                   do _ <- assert_ e;
                   Ok (b', vs ++ [{| p_index := fst m; p_bytes := snd m; p_data := b_off b |}]))
             metas (b, []);
  let '(b, views) := r in
  Ok (b, {| ps_views := views; ps_role := le_dec role; ps_x := x; ps_y := y; ps_z := z; ps_scale := scale |}).
