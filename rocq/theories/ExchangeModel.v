(** The messages that move points to the rank owning their uniform cell.
    Byte conventions as in MessageModel.  The [int] arrays [count] and [offset]
    have one entry per cell and are functions here; sizes are naturals. *)
From Coq Require Import ZArith List Bool Arith.
From Verif Require Import Base BufferModel ViewSetModel ArrayModel MessageModel.
Import ListNotations.
Open Scope nat_scope.

Section Exchange.
Variables A B : Type.
(** The cells, the shared rank map and [same_sandt_] of the dual tree; the
    serializers of the source and target arrays. *)
Variable dim3 : nat.
Variable rank_map : nat -> nat.
Variable same : bool.
Variable zs : serializer A.
Variable zt : serializer B.

(** [for (i < dim3_) if (rank_of_unif_grid(i) == r)] *)
Definition for_cells {T} (r : nat) (f : T -> nat -> res T) (s : T) : res T :=
  foldM (fun s i => if rank_map i =? r then f s i else Ok s) (seq 0 dim3) s.
(** [for (j < n)] with [&recs[off + j]] *)
Definition for_recs {X T} (recs : list X) (off n : nat) (f : T -> X -> res T) (s : T) : res T :=
  foldM (fun s j => do x <- nth_res recs (off + j); f s x) (seq 0 n) s.

(** dualtree.h:1021-1035: [range], [send_ns], [send_nt]. *)
Definition send_totals (rank : nat) (count_s count_t : nat -> nat) : res (nat * nat * nat) :=
  do t <- for_cells rank (fun t i => let '(range, ns, nt) := t in Ok (range + 1, ns + count_s i, nt + count_t i)) (0, 0, 0);
  let '(range, ns, nt) := t in
  Ok (range, ns, if same then 0 else nt).

(** dualtree.h:1047-1073: the parcel's size.  [bytes_source] is never reset, so
    every cell adds the sizes of all the cells before it again. *)
Definition send_bytes (rank range ns nt : nat) (count_s count_t offset_s offset_t : nat -> nat) (sources : list A) (targets : list B) : res nat :=
  let bytes := 8 * 3 + 4 * 3 in
  do bytes <- (if ns =? 0 then Ok bytes else
    do r <- for_cells rank (fun r i => let '(bytes, bs) := r in
        do bs <- for_recs sources (offset_s i) (count_s i) (fun bs x => Ok (bs + z_size zs x)) bs;
        Ok (bytes + bs, bs)) (bytes + 4 * range, 0);
    Ok (fst r));
  if nt =? 0 then Ok bytes else
  for_cells rank (fun bytes i => for_recs targets (offset_t i) (count_t i) (fun b x => Ok (b + z_size zt x)) bytes) (bytes + 4 * range).

(** dualtree.h:1009-1136 [send_points_handler]: the contents of the parcel. *)
Definition send_points (junk : nat -> Z) (rwaddr smeta tmeta : Z) (rank : nat) (count_s count_t offset_s offset_t : nat -> nat)
    (sources : list A) (targets : list B) : res (list Z) :=
  do t <- send_totals rank count_s count_t;
  let '(range, ns, nt) := t in
  do bytes <- send_bytes rank range ns nt count_s count_t offset_s offset_t sources targets;
  do m <- store (fill junk bytes) 0 (le_enc 8 rwaddr);
  do m <- store m 8 (le_enc 8 smeta);
  do m <- store m 16 (le_enc 8 tmeta);
  do m <- store m 24 (le_enc 4 (Z.of_nat range));
  do m <- store m 28 (le_enc 4 (Z.of_nat ns));
  do m <- store m 32 (le_enc 4 (Z.of_nat nt));
  do s <- (if ns =? 0 then Ok (m, 36) else for_cells rank (fun s i => put_at s (le_enc 4 (Z.of_nat (count_s i)))) (m, 36));
  do s <- (if nt =? 0 then Ok s else for_cells rank (fun s i => put_at s (le_enc 4 (Z.of_nat (count_t i)))) s);
  let s := (fst s, 24 + 4 * (3 + (if ns =? 0 then 0 else range) + (if nt =? 0 then 0 else range))) in
  do s <- (if ns =? 0 then Ok s else for_cells rank (fun s i => for_recs sources (offset_s i) (count_s i) (ser_at zs) s) s);
  do s <- (if nt =? 0 then Ok s else for_cells rank (fun s i => for_recs targets (offset_t i) (count_t i) (ser_at zt) s) s);
  Ok (fst s).

(** What the receiver starts: [mergePoints] on the source or target tree,
    [mergePointsSameSAndT], or setting [done] directly [n] times.  Each of the
    first three sets [done] once when it completes. *)
Inductive event := MergeS (i : nat) (recs : list A) | MergeT (i : nat) (recs : list B) | MergeSame (i n : nat) | Signal (n : nat).

(** An [int] used as a size or count; a negative one is an error here. *)
Definition get_count (mem : list Z) (off : nat) : res nat :=
  do c <- get_i32 mem off; if (c <? 0)%Z then Fail Oob else Ok (Z.to_nat c).

(** dualtree.h:898-920, 926-948: one tree's share of the message; [at_] is the
    address of its counts. *)
Definition merge_cells {X} (me range : nat) (msg : list Z) (at_ : nat) (recs : list X) (mk : nat -> list X -> event) (log : list event) : res (list event) :=
  do r <- for_cells me (fun st i => let '(offset, box, log) := st in
      do n <- get_count msg (at_ + 4 * box);
      if n =? 0 then Ok (offset, box + 1, log ++ [Signal 1])
      else do batch <- read_range X recs offset (offset + n); Ok (offset + n, box + 1, log ++ [mk i batch])) (0, 0, log);
  let '(_, box, log) := r in
  do _ <- assert_ (box =? range);
  Ok log.

(** dualtree.h:951-968: S == T. *)
Definition merge_same (me range : nat) (msg : list Z) (at_ : nat) (log : list event) : res (list event) :=
  do r <- for_cells me (fun st i => let '(box, log) := st in
      do n <- get_count msg (at_ + 4 * box);
      Ok (box + 1, log ++ [if n =? 0 then Signal 1 else MergeSame i n])) (0, log);
  do _ <- assert_ (fst r =? range);
  Ok (snd r).

Definition signal_range (range : nat) (log : list event) : list event := if range =? 0 then log else log ++ [Signal range].

(** dualtree.h:853-990 [recv_points_handler] on rank [me] *)
Definition recv_points (me : nat) (msg : list Z) : res (list event) :=
  do range <- get_count msg 24;
  do ns <- get_count msg 28;
  do nt <- get_count msg 32;
  let count_s := 36 in
  let count_t := count_s + 4 * (if ns =? 0 then 0 else range) in
  let body := 12 + 24 + 4 * (if ns =? 0 then 0 else range) + 4 * (if nt =? 0 then 0 else range) in
  do s <- foldM (fun s (_ : nat) => deser_at zs msg s) (seq 0 ns) ([], body);
  do t <- (if nt =? 0 then Ok ([], snd s) else foldM (fun s (_ : nat) => deser_at zt msg s) (seq 0 nt) ([], snd s));
  do log <- (if ns =? 0 then Ok (signal_range range []) else merge_cells me range msg count_s (fst s) MergeS []);
  if negb (nt =? 0) then merge_cells me range msg count_t (fst t) MergeT log
  else if same && negb (ns =? 0) then merge_same me range msg count_s log
  else Ok (signal_range range log).
End Exchange.
Arguments MergeS {A B}. Arguments MergeT {A B}. Arguments MergeSame {A B}. Arguments Signal {A B}.
