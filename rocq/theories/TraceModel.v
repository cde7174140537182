(** The trace reader: window queries, coverage and segments.
    Models trace/readtrace/worker.cc, trace.cc and segment.h.
    Stamps are integers; the wrap-around of uint64_t is not modelled.  Event classes,
    files, the database and the maps over localities and workers are not modelled. *)
From Coq Require Import ZArith List Bool.
From Verif Require Import Base.
Import ListNotations.
Open Scope Z_scope.

(** trace/readtrace/traceevent.h:34-79, class Event: stamp(), segment_type(), start(), end(). *)
Record event := mkE { stamp : Z; sty : Z; estart : bool; eend : bool }.

(** std::partition_point: on a list the test splits in two, the length of the first part. *)
Definition point_contract (pp : (Z -> bool) -> list Z -> nat) : Prop :=
  forall t a b, (forall x, In x a -> t x = true) -> (forall x, In x b -> t x = false) -> pp t (a ++ b) = length a.

(** worker.cc:81-118, Worker::range on a locked worker: the two positions.
    [Fail BadOp] is the exception for start > end; the access to events_[0] comes after it. *)
Definition range (pp : (Z -> bool) -> list Z -> nat) (evs : list Z) (start end_ : Z) : res (nat * nat) :=
  if end_ <? start then Fail BadOp
  else
    do low <- nth_res evs 0;
    do high <- nth_res evs (length evs - 1);
    if end_ <? low then Ok (0, 0)%nat
    else if high <=? start then Ok (length evs, length evs)
    else
      let start' := Z.max start low in
      let end' := Z.min end_ high in
      Ok (pp (fun s => s <? start') evs, pp (fun s => s <? end') evs).

(** trace.cc:134-166, range_coverage: the covered time (the code divides it by
    end - start).  State: cover, previous_start, previous_end, type_count. *)
Definition cover_step (ty : Z) (st : Z * Z * Z * Z) (e : event) : res (Z * Z * Z * Z) :=
  let '(cover, ps, pe, n) := st in
  if sty e =? ty then
    if estart e then
      do _ <- assert_ (pe <? stamp e);
      Ok (cover, stamp e, pe, n + 1)
    else
      do _ <- assert_ (eend e);
      do _ <- assert_ (ps <=? stamp e);
      Ok (cover + (stamp e - ps), ps, stamp e, n + 1)
  else Ok st.
Definition coverage (ty start end_ : Z) (evs : list event) : res Z :=
  match evs with
  | [] => Ok 0
  | _ =>
    do st <- foldM (cover_step ty) evs (0, start, start - 1, 0);
    let '(cover, ps, pe, n) := st in
    Ok (if negb (n =? 0) && (pe <? ps) then cover + (end_ - ps) else cover)
  end.

(** segment.h:15-86, class Segment.  The field id_ is set even if the claim fails. *)
Record segment := mkSeg { g_id : Z; g_begin : Z; g_end : Z; g_loc : Z; g_worker : Z; g_start : Z; g_finish : Z; g_hb : bool; g_he : bool }.
Definition new_segment : segment := mkSeg (-1) (-1) (-1) (-1) (-1) 0 0 false false.
Definition full (g : segment) : bool := g_hb g && g_he g.
(** segment.h:28-64 *)
Definition claim (g : segment) (e : event) (eid loc worker : Z) : bool * segment :=
  if full g then (false, g)
  else if negb (g_hb g) then
    let g1 := mkSeg (sty e) (g_begin g) (g_end g) (g_loc g) (g_worker g) (g_start g) (g_finish g) (g_hb g) (g_he g) in
    if negb (estart e) then (false, g1)
    else (true, mkSeg (sty e) eid (g_end g) loc worker (stamp e) (g_finish g) true (g_he g))
  else if negb (g_he g) then
    if negb (sty e =? g_id g) then (false, g)
    else if negb (loc =? g_loc g) || negb (g_worker g =? worker) then (false, g)
    else if negb (eend e) then (false, g)
    else (true, mkSeg (g_id g) (g_begin g) eid (g_loc g) (g_worker g) (g_start g) (stamp e) (g_hb g) true)
  else (true, g).

(** segment.h:89-134, class SegmentCollator.  A missing key and a null pointer in the map
    partial_ are the same [None]: the code turns the one into the other (96-98). *)
Record collator := mkC { partial : Z -> option segment; done : list segment }.
Definition new_collator : collator := mkC (fun _ => None) [].
Definition set_partial (p : Z -> option segment) (s : Z) (g : option segment) : Z -> option segment :=
  fun s' => if s' =? s then g else p s'.
(** segment.h:93-118 *)
Definition collate (c : collator) (e : event) (eid loc worker : Z) : bool * collator :=
  let sid := sty e in
  if sid =? 0 then (true, c)
  else
    let g := match partial c sid with Some g => g | None => new_segment end in
    let '(ok, g') := claim g e eid loc worker in
    if negb ok then (false, mkC (set_partial (partial c) sid (Some g')) (done c))
    else if full g' then (true, mkC (set_partial (partial c) sid None) (done c ++ [g']))
    else (true, mkC (set_partial (partial c) sid (Some g')) (done c)).
(** segment.h:121-125 *)
Definition combine (c other : collator) : collator := mkC (partial c) (done c ++ done other).

(** sqlite3out.cc:347-379: the events of one worker with consecutive ids; the first
    refused event throws.  Result: number of accepted events and the collator. *)
Fixpoint collate_all (c : collator) (eid loc worker : Z) (evs : list event) : nat * collator :=
  match evs with
  | [] => (O, c)
  | e :: evs' =>
    let '(ok, c') := collate c e eid loc worker in
    if ok then let '(n, c2) := collate_all c' (eid + 1) loc worker evs' in (S n, c2) else (O, c')
  end.
