(** C27: buffer reads return what was written, never crossing the end. *)
From Coq Require Import ZArith List Bool Arith Lia.
From Verif Require Import Base ListFacts BufferModel BufferSpec BufferProofs.
Import ListNotations.

(** Any sequence of operations on a new buffer: none reads or writes outside
    the block, the cursor never moves back, cursor plus remaining equals the
    unchanged capacity, and only bytes between the old and new cursor change. *)
Theorem C27_any_operations : forall mem os, Forall inputs_wf os ->
  exists b, foldM run_op os (mk_buf mem) = Ok b /\
    b_off b + b_rem b = length mem /\ length (b_mem b) = length mem /\
    (forall i, b_off b <= i -> nth_error (b_mem b) i = nth_error mem i) /\
    (forall os', Forall inputs_wf os' -> exists b', foldM run_op os' b = Ok b' /\ b_off b <= b_off b' /\
        (forall i, i < b_off b \/ b_off b' <= i -> nth_error (b_mem b') i = nth_error (b_mem b) i)).
Proof.
  intros mem os H. assert (W : wf (mk_buf mem)) by reflexivity.
  destruct (run_ops_ok os (mk_buf mem) W H) as (b & E & W' & O & L & C). exists b. split; [exact E|].
  cbn in L, C, O. split; [unfold wf in W'; lia|]. split; [assumption|]. split; [intros i Hi; apply C; lia|].
  intros os' H'. destruct (run_ops_ok os' b W' H') as (b' & E' & W'' & O' & L' & C'). exists b'. repeat split; assumption.
Qed.
Print Assumptions C27_any_operations.

(** Writes of any kind that all return true, replayed as reads of the same
    sizes, give the same bytes, and every non-empty read returns true (all of
    them if any room was left). *)
Theorem C27_round_trip : forall mem ws b,
  Forall (fun w => match w with WBuf i => wf i | _ => True end) ws ->
  write_all (mk_buf mem) ws = Ok (Some b) ->
  exists rs, read_all (mk_buf (b_mem b)) (map (@length Z) (map payload ws)) = Ok rs /\
    map fst rs = map payload ws /\
    Forall (fun r => fst r <> [] -> snd r = true) rs /\
    (b_rem b <> 0 -> Forall (fun r => snd r = true) rs).
Proof.
  intros mem ws b HI HW. destruct (write_all_at ws (mk_buf mem) [] mem b (at_mk mem) HI HW) as (post & M & O & R).
  cbn [app] in *. destruct (read_all_at (map payload ws) (mk_buf (b_mem b)) [] post) as (rs & E & F & G1 & G2).
  { rewrite M. apply at_mk. }
  exists rs. repeat split; try assumption. intros N. apply G2. intros ->. rewrite R in N. cbn in N. lia.
Qed.
Print Assumptions C27_round_trip.

(** An array write that does not fit returns false and changes nothing; a byte
    write that does not fit writes the part that does. *)
Theorem C27_failed_array_write : forall b d, b_rem b < length d -> write_array b d = Ok (b, false).
Proof. intros b d H. unfold write_array. destruct (Nat.ltb_spec (b_rem b) (length d)); [reflexivity|lia]. Qed.
Print Assumptions C27_failed_array_write.

(** A write returns true exactly when it fits (and, for the byte form, the
    buffer is not already full). *)
Theorem C27_write_succeeds_iff : forall mem os b d, Forall inputs_wf os -> foldM run_op os (mk_buf mem) = Ok b ->
  (exists b', write b d = Ok (b', length d <=? b_rem b) /\ b_rem b <> 0) \/ (b_rem b = 0 /\ write b d = Ok (b, false)).
Proof.
  intros mem os b d H E. destruct (run_ops_ok os (mk_buf mem) eq_refl H) as (b0 & E0 & W & _). rewrite E in E0. inversion E0; subst b0.
  unfold write, complete. destruct (Nat.eqb_spec (b_rem b) 0) as [Z0|Z0]; [right; auto|left].
  destruct (min_if (length d) (b_rem b)) as [M1 M2].
  rewrite load_ok by (cbn; exact M2). cbn [bind skipn]. unfold wf in W.
  rewrite store_ok by (rewrite firstn_length; lia). cbn [bind]. eexists. split; [|assumption]. f_equal. f_equal.
  destruct (Nat.leb_spec (length d) (b_rem b)); [apply Nat.eqb_refl|]. apply Nat.eqb_neq. lia.
Qed.
Print Assumptions C27_write_succeeds_iff.

(** The zero-size corner: once the buffer is full, writing or advancing by zero
    bytes reports failure, while the array form reports success. *)
Theorem C27_empty_write_on_full_refuted : forall b, b_rem b = 0 ->
  write b [] = Ok (b, false) /\ advance b 0 = (b, false) /\ (wf b -> exists b', write_array b [] = Ok (b', true)).
Proof.
  intros b H. unfold write, advance, complete, write_array. rewrite H. repeat split. intros W. unfold wf in W.
  destruct (Nat.ltb_spec 0 (length (@nil Z))) as [X|X]; [cbn in X; lia|]. rewrite store_ok by (cbn; lia). cbn [bind]. eauto.
Qed.
Print Assumptions C27_empty_write_on_full_refuted.

(** What a byte write on a buffer with room does: the part of the data that
    fits lands at the cursor, nothing else changes, and the cursor moves past it. *)
Theorem C27_byte_write : forall b d, wf b -> b_rem b <> 0 ->
  let k := Nat.min (length d) (b_rem b) in
  write b d = Ok ({| b_mem := firstn (b_off b) (b_mem b) ++ firstn k d ++ skipn (b_off b + k) (b_mem b);
                     b_off := b_off b + k; b_rem := b_rem b - k |}, length d <=? b_rem b).
Proof.
  intros b d W N k. unfold write, complete. destruct (Nat.eqb_spec (b_rem b) 0); [contradiction|]. fold (min_of (length d) (b_rem b)).
  rewrite min_of_min. fold k. assert (k <= length d /\ k <= b_rem b) by (unfold k; lia). unfold wf in W.
  rewrite load_ok by lia. cbn [bind skipn]. assert (L : length (firstn k d) = k) by (rewrite firstn_length; lia).
  rewrite store_ok by lia. cbn [bind]. rewrite L. unfold moved. f_equal. f_equal. apply min_eqb.
Qed.
Print Assumptions C27_byte_write.

(** What a read does: it copies out the next [min bytes remaining] bytes, leaves
    the memory alone, and moves the cursor past them. *)
Theorem C27_read : forall b n, wf b -> b_rem b <> 0 ->
  let k := Nat.min n (b_rem b) in
  read b n = Ok ({| b_mem := b_mem b; b_off := b_off b + k; b_rem := b_rem b - k |},
                 firstn k (skipn (b_off b) (b_mem b)), n <=? b_rem b).
Proof.
  intros b n W N k. unfold read, complete. destruct (Nat.eqb_spec (b_rem b) 0); [contradiction|]. fold (min_of n (b_rem b)).
  rewrite min_of_min. fold k. assert (k <= n /\ k <= b_rem b) by (unfold k; lia). unfold wf in W.
  rewrite load_ok by lia. cbn [bind]. unfold moved. f_equal. f_equal. apply min_eqb.
Qed.
Print Assumptions C27_read.

(** Filling a buffer from another: as many bytes as there are in the input and
    room for move, to the cursor of the one from the cursor of the other, both
    cursors pass them, the input's bytes stay, and the answer says whether the
    input is used up.  A full buffer refuses and nothing changes. *)
Theorem C27_buffer_to_buffer : forall b inp, wf b -> wf inp ->
  let k := Nat.min (b_rem inp) (b_rem b) in
  if b_rem b =? 0 then write_buf b inp = Ok (b, inp, false) else
  write_buf b inp =
    Ok ({| b_mem := firstn (b_off b) (b_mem b) ++ firstn k (skipn (b_off inp) (b_mem inp)) ++ skipn (b_off b + k) (b_mem b);
           b_off := b_off b + k; b_rem := b_rem b - k |},
        {| b_mem := b_mem inp; b_off := b_off inp + k; b_rem := b_rem inp - k |},
        b_rem inp <=? b_rem b).
Proof.
  intros b inp W WI k. unfold write_buf, complete. destruct (Nat.eqb_spec (b_rem b) 0) as [Z0|Z0]; [reflexivity|].
  fold (min_of (b_rem inp) (b_rem b)). rewrite min_of_min. fold k. unfold wf in W, WI.
  assert (E : (k =? b_rem inp) = (b_rem inp <=? b_rem b)) by apply min_eqb.
  destruct (Nat.eqb_spec k 0) as [K|K].
  - rewrite E, K. assert (b_rem inp = 0) by (unfold k in K; lia). unfold moved. cbn [firstn app]. rewrite firstn_skipn_0.
    destruct inp as [mi oi ri]. cbn [b_mem b_off b_rem] in *. rewrite (Nat.add_0_r oi), (Nat.sub_0_r ri). reflexivity.
  - assert (k <= b_rem inp /\ k <= b_rem b) by (unfold k; lia).
    rewrite (C27_read inp k WI) by lia. cbn zeta. rewrite Nat.min_l by lia. cbn [bind].
    assert (L : length (firstn k (skipn (b_off inp) (b_mem inp))) = k) by (rewrite firstn_length, skipn_length; lia).
    rewrite store_ok by lia. cbn [bind]. rewrite L, E. replace (k <=? b_rem inp) with true by (symmetry; apply Nat.leb_le; lia).
    reflexivity.
Qed.
Print Assumptions C27_buffer_to_buffer.

(** Interpreting in place gives a pointer exactly when a read of as many bytes
    would succeed; the pointer is where the read's bytes are, and the cursor ends
    where the read would leave it. *)
Theorem C27_interpret : forall b n, wf b ->
  exists b' out e, read b n = Ok (b', out, e) /\
    interpret b n = (b', if e then Some (b_off b) else None) /\
    (e = true -> out = firstn n (skipn (b_off b) (b_mem b)) /\ length out = n /\ b_off b' = b_off b + n).
Proof.
  intros b n W. destruct (Nat.eq_dec (b_rem b) 0) as [Z0|Z0].
  - exists b, [], false. unfold read, interpret, advance, complete. rewrite Z0. cbn. repeat split; discriminate.
  - rewrite (C27_read b n W Z0). cbn zeta. eexists _, _, _. split; [reflexivity|]. split.
    + unfold interpret, advance, complete. destruct (Nat.eqb_spec (b_rem b) 0); [contradiction|]. fold (min_of n (b_rem b)).
      rewrite min_of_min, min_eqb. reflexivity.
    + intros E. apply Nat.leb_le in E. rewrite Nat.min_l by lia. cbn [b_off]. unfold wf in W.
      split; [reflexivity|]. split; [rewrite firstn_length, skipn_length; lia|reflexivity].
Qed.
Print Assumptions C27_interpret.

Example C27_nonvacuous : let m := repeat 0%Z 8 in
  let ws := [WBytes [1;2]%Z; WArray [3;4;5]%Z; WBuf (mk_buf [9;8;7]%Z)] in
  write_all (mk_buf m) ws = Ok (Some {| b_mem := [1;2;3;4;5;9;8;7]%Z; b_off := 8; b_rem := 0 |}) /\
  read_all (mk_buf [1;2;3;4;5;9;8;7]%Z) [2;3;3] = Ok [([1;2]%Z, true); ([3;4;5]%Z, true); ([9;8;7]%Z, true)].
Proof. split; reflexivity. Qed.

Example C27_nonvacuous_moves :
  let b := {| b_mem := [1;2;0;0;0]%Z; b_off := 2; b_rem := 3 |} in
  let inp := {| b_mem := [5;6;7;8;9]%Z; b_off := 1; b_rem := 4 |} in
  wf b /\ wf inp /\
  write_buf b inp = Ok ({| b_mem := [1;2;6;7;8]%Z; b_off := 5; b_rem := 0 |}, {| b_mem := [5;6;7;8;9]%Z; b_off := 4; b_rem := 1 |}, false) /\
  write b [4;4;4;4]%Z = Ok ({| b_mem := [1;2;4;4;4]%Z; b_off := 5; b_rem := 0 |}, false) /\
  interpret inp 3 = ({| b_mem := [5;6;7;8;9]%Z; b_off := 4; b_rem := 1 |}, Some 1) /\
  interpret inp 5 = ({| b_mem := [5;6;7;8;9]%Z; b_off := 5; b_rem := 0 |}, None).
Proof. repeat split. Qed.
