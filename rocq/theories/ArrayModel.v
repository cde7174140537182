(** Array: the user's distributed records.  Every rank has one [ArrayMetaData]. *)
From Coq Require Import ZArith List Bool Arith.
From Verif Require Import Base ArrayRefModel ReduceModel BufferModel ViewSetModel.
Import ListNotations.
Open Scope nat_scope.

(** types.h:38-46 *)
Definition kSuccess : Z := 0%Z.
Definition kAllocationError : Z := 3%Z.
Definition kDomainError : Z := 6%Z.

(** The order in which the runtime combines the ranks' contributions to a
    reduction: any binary tree over the ranks with identities anywhere. *)
Inductive otree := OLeaf (rank : nat) | OIdent | ONode (l r : otree).
Fixpoint fill (t : otree) (vs : list (list Z)) : rtree :=
  match t with OLeaf r => RLeaf (nth r vs []) | OIdent => RIdent | ONode a b => RNode (fill a vs) (fill b vs) end.

Section Array.
Variable A : Type.
(** Value of a value-initialised record, [T{}]. *)
Variable dflt : A.

(** arraymetadata.h: [local_count], [total_count] and the memory at [data] ([None] is
    nullptr).  The manager is a parameter of collect. *)
Record meta := { m_local : nat; m_total : Z; m_data : option (list A) }.
(** What one rank passes to [allocate]: [record_count], [segment], and whether the
    [new] on that rank succeeds. *)
Record arg := { a_count : nat; a_seg : option (list A); a_mem : bool }.

(** array.h:549-556: contribution of rank [r] of [n]. *)
Definition contrib (n r c : nat) : list Z := map (fun i => if r <=? i then Z.of_nat c else 0%Z) (seq 0 n).

(** array.h:566-581 after the reduction gave [sums]. *)
Definition local_work (n : nat) (sums : list Z) (a : arg) : res (meta * Z) :=
  do total <- nth_res sums (n - 1);
  match a_seg a with
  | Some s => Ok ({| m_local := a_count a; m_total := total; m_data := Some s |}, kSuccess)
  | None =>
      if a_count a =? 0 then Ok ({| m_local := 0; m_total := total; m_data := None |}, kSuccess)
      else if a_mem a then Ok ({| m_local := a_count a; m_total := total; m_data := Some (repeat dflt (a_count a)) |}, kSuccess)
      else Ok ({| m_local := a_count a; m_total := total; m_data := None |}, kAllocationError)
  end.

(** array.h:137-164 on all ranks together: the state is [data_] ([None] is HPX_NULL, else
    the metadata of every rank), [meta_ok] tells whether the collective allocation works
    (497-526), [t1] and [t2] are the orders of the two reductions.  The result is the code
    each rank returns and the new state. *)
Definition allocate (st : option (list meta)) (meta_ok : bool) (args : list arg) (t1 t2 : otree) : res (list Z * option (list meta)) :=
  match st with
  | Some _ => Ok (map (fun _ => kDomainError) args, st)
  | None =>
      if negb meta_ok then Ok (map (fun _ => kAllocationError) args, None) else
      let n := length args in
      let cs := map (fun ra => contrib n (fst ra) (a_count (snd ra))) (combine (seq 0 n) args) in
      do sums <- reduce size_sum_op (size_sum_ident n) (fill t1 cs);
      do ms <- mapM (local_work n sums) args;
      do code <- reduce int_max_op (int_max_ident 1) (fill t2 (map (fun m => [snd m]) ms));
      do c <- nth_res code 0;
      Ok (map (fun _ => if (c =? kSuccess)%Z then kSuccess else kAllocationError) args, Some (map fst ms))
  end.

(** Range copy out of and into a segment, [std::copy]. *)
Definition read_range (d : list A) (first last : nat) : res (list A) :=
  if (first <=? last) && (last <=? length d) then Ok (firstn (last - first) (skipn first d)) else Fail Oob.
Definition write_range (d : list A) (off : nat) (v : list A) : res (list A) :=
  if off + length v <=? length d then Ok (firstn off d ++ v ++ skipn (off + length v) d) else Fail Oob.

(** array.h:678-700: one rank; [out] is the memory at [out_data]. *)
Definition get_local (m : meta) (first last : nat) (out : list A) : res (Z * list A) :=
  if (m_local m <? last) || (last <? first) then Ok (kDomainError, out)
  else if m_local m =? 0 then Ok (kSuccess, out)
  else match m_data m with
       | None => Fail AssertFail
       | Some d => do src <- read_range d first last; do out' <- write_range out 0 src; Ok (kSuccess, out')
       end.

(** array.h:722-745: one rank; [inp] is the memory at [in_data].  The copied range is
    [in_data, in_data + last). *)
Definition put_local (m : meta) (first last : nat) (inp : list A) : res (Z * meta) :=
  if (m_local m <? last) || (last <? first) then Ok (kDomainError, m)
  else if m_local m =? 0 then Ok (kSuccess, m)
  else match m_data m with
       | None => Fail AssertFail
       | Some d => do src <- read_range inp 0 last; do d' <- write_range d first src;
           Ok (kSuccess, {| m_local := m_local m; m_total := m_total m; m_data := Some d' |})
       end.

(** array.h:201-214, 703-707: every rank runs the handler and returns the maximum code. *)
Definition collective {B C} (f : B -> res (Z * C)) (ranks : list B) (t : otree) : res (list Z * list C) :=
  do rs <- mapM f ranks;
  do code <- reduce int_max_op (int_max_ident 1) (fill t (map (fun r => [fst r]) rs));
  do c <- nth_res code 0;
  Ok (map (fun _ => c) ranks, map snd rs).

(** serializer.h: [m_size], the bytes [serialize] writes, and what [deserialize] reads:
    the record and the number of bytes used ([None] when it runs off the buffer). *)
Record manager := { s_size : A -> nat; s_ser : A -> list Z; s_de : list Z -> option (A * nat) }.
Variable mgr : manager.

(** Reads of [local->data + i] for i < local_count. *)
Definition local_records (m : meta) : res (list A) :=
  if m_local m =? 0 then Ok [] else
  match m_data m with None => Fail NullDeref | Some d => read_range d 0 (m_local m) end.

(** array.h:834-869: the parcel built for a request; pointers are 8 bytes, [location] is
    counted in records from the start of the result. *)
Definition request_msg (m : meta) (data : Z) (location : nat) : res (list Z) :=
  do recs <- local_records m;
  let arrsize := fold_left (fun a r => a + s_size mgr r) recs 0 in
  let msg := repeat 0%Z (8 + 8 + arrsize) in
  do msg <- store msg 0 (le_enc 8 data);
  do msg <- store msg 8 (le_enc 8 (Z.of_nat location));
  do r <- foldM (fun '(msg, at_) rec => do msg' <- store msg at_ (s_ser mgr rec); Ok (msg', at_ + length (s_ser mgr rec))) recs (msg, 16);
  Ok (fst r).

(** array.h:898-900: [while (incoming != final)]. *)
Fixpoint recv_loop (fuel : nat) (incoming : list Z) : res (list A) :=
  match incoming with
  | [] => Ok []
  | _ :: _ =>
      match fuel with
      | O => Fail OutOfFuel
      | S fuel' =>
          match s_de mgr incoming with
          | None => Fail Oob
          | Some (a, n) =>
              if n <=? length incoming then do r <- recv_loop fuel' (skipn n incoming); Ok (a :: r) else Fail Oob
          end
      end
  end.

(** array.h:884-905: the writes to the result made by one reply. *)
Definition receive_writes (msg : list Z) : res (list (nat * A)) :=
  do loc <- load msg 8 8;
  do recs <- recv_loop (length msg) (skipn 16 msg);
  Ok (combine (seq (Z.to_nat (le_dec loc)) (length recs)) recs).

(** array.h:798-803 *)
Fixpoint offsets (at_ : nat) (counts : list nat) : list nat :=
  match counts with [] => [] | c :: cs => at_ :: offsets (at_ + c) cs end.

(** array.h:783-831 up to the wait: the writes made by all replies.  The replies run
    concurrently, so the writes happen in any order. *)
Definition collect_writes (ms : list meta) (data : Z) : res (list (nat * A)) :=
  do ws <- mapM (fun mo => do msg <- request_msg (fst mo) data (snd mo); receive_writes msg) (combine ms (offsets 0 (map m_local ms)));
  Ok (concat ws).

(** The result: [init] is the fresh [new T[total_count]], [sched] the order of the writes. *)
Definition run_writes (init : list A) (sched : list (nat * A)) : res (list A) :=
  foldM (fun out w => set_res out (fst w) (snd w)) sched init.
End Array.

Arguments m_local {A} m. Arguments m_total {A} m. Arguments m_data {A} m.
Arguments a_count {A} a. Arguments a_seg {A} a. Arguments a_mem {A} a.
Arguments s_size {A} m a. Arguments s_ser {A} m a. Arguments s_de {A} m l.
