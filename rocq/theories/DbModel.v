(** The database that the trace reader writes.
    Models trace/readtrace/sqlite3out.{h,cc}, counter.h, segmentids.cc and the numbers of
    workers (worker.h:26-27, 67-73, worker.cc:12-19, locality.cc:10-14, 35-50).
    Of SQLite, a table is the list of its rows; a row whose primary key is taken is refused; a
    row is kept at once unless a transaction is open, and then when the transaction ends.  A
    table not yet made is an empty one.  References between tables are not checked, as SQLite
    does not unless asked to.  Full disks and files that cannot be opened are not modelled. *)
From Coq Require Import String Ascii ZArith List Bool.
From Verif Require Import Base TraceModel ReadModel.
Import ListNotations.
Open Scope Z_scope.

(** ** Tables: sqlite3out.cc:119, 150-155, 192-194, 227-230, 266-273, 309-318, 393-406 *)
Record worker_row := mkWR { wr_id : Z; wr_worker : Z; wr_loc : Z }.
Record name_row := mkNR { nr_id : Z; nr_name : text }.
Record type_row := mkTR { tr_id : Z; tr_class : Z; tr_name : text; tr_segment : Z }.
Record event_row := mkER { er_id : Z; er_type : Z; er_loc : Z; er_worker : Z; er_time : Z }.
Record segment_row := mkSR { sr_id : Z; sr_segment : Z; sr_start : Z; sr_end : Z; sr_from : Z; sr_to : Z; sr_loc : Z; sr_worker : Z }.
Record tables := mkTables {
  localities : list Z; workers : list worker_row; segment_types : list name_row; classes : list name_row;
  types : list type_row; events : list event_row; segments : list segment_row }.
Definition no_tables : tables := mkTables [] [] [] [] [] [] [].
Definition set_localities (t : tables) l := mkTables l (workers t) (segment_types t) (classes t) (types t) (events t) (segments t).
Definition set_workers (t : tables) l := mkTables (localities t) l (segment_types t) (classes t) (types t) (events t) (segments t).
Definition set_segment_types (t : tables) l := mkTables (localities t) (workers t) l (classes t) (types t) (events t) (segments t).
Definition set_classes (t : tables) l := mkTables (localities t) (workers t) (segment_types t) l (types t) (events t) (segments t).
Definition set_types (t : tables) l := mkTables (localities t) (workers t) (segment_types t) (classes t) l (events t) (segments t).
Definition set_events (t : tables) l := mkTables (localities t) (workers t) (segment_types t) (classes t) (types t) l (segments t).
Definition set_segments (t : tables) l := mkTables (localities t) (workers t) (segment_types t) (classes t) (types t) (events t) l.

(** What the connection sees, what stays in the file, and whether a transaction is open.  When
    an exception leaves the writer its destructor closes the connection (sqlite3out.cc:99-103),
    and what was done in an open transaction is gone. *)
Record db := mkDb { now : tables; kept : tables; open : bool }.
Definition new_db : db := mkDb no_tables no_tables false.

Definition io (A : Type) : Type := db -> db * res A.
Definition ret {A} (a : A) : io A := fun d => (d, Ok a).
Definition stop {A} (e : err) : io A := fun d => (d, Fail e).
Definition andthen {A B} (m : io A) (f : A -> io B) : io B := fun d => match m d with (d', Ok a) => f a d' | (d', Fail e) => (d', Fail e) end.
Fixpoint each {A S} (f : S -> A -> io S) (l : list A) (s : S) : io S :=
  match l with [] => ret s | a :: l' => andthen (f s a) (each f l') end.

(** Step of an insertion: sqlite3out.cc:29-39 *)
Definition insert {A} (key : A -> Z) (get : tables -> list A) (set : tables -> list A -> tables) (r : A) : io unit := fun d =>
  if existsb (fun r' => key r' =? key r) (get (now d)) then (d, Fail BadOp)
  else let t := set (now d) (get (now d) ++ [r]) in (mkDb t (if open d then kept d else t) (open d), Ok tt).
(** BEGIN TRANSACTION and END TRANSACTION *)
Definition begin_transaction : io unit := fun d => if open d then (d, Fail BadOp) else (mkDb (now d) (kept d) true, Ok tt).
Definition end_transaction : io unit := fun d => if open d then (mkDb (now d) (now d) false, Ok tt) else (d, Fail BadOp).

(** sqlite3out.cc:72-77: the byte behind the text is stored with it *)
Definition bind_text (s : text) : text := s ++ [zero].
(** Conversions of uint64_t to sqlite3_int64 and to int *)
Definition int64 (z : Z) : Z := let z := z mod 2 ^ 64 in if z <? 2 ^ 63 then z else z - 2 ^ 64.
Definition int32 (z : Z) : Z := let z := z mod 2 ^ 32 in if z <? 2 ^ 31 then z else z - 2 ^ 32.

(** ** Names *)
(** segmentids.cc:7-52 *)
Definition segment_name (s : Z) : text :=
  match s with
  | 0 => str "NoSeg" | 1 => str "NetProg" | 2 => str "StoT" | 3 => str "MtoT" | 4 => str "LtoT" | 5 => str "StoM" | 6 => str "StoL" | 7 => str "ELCO"
  | 8 => str "MtoM" | 9 => str "MtoL" | 10 => str "LtoL" | 11 => str "MtoI" | 12 => str "ItoI" | 13 => str "ItoL" | _ => str "Unknown"
  end.
(** dashmmevents.cc:13 and networkevents.cc:12 *)
Definition event_class (k : kind) : text := match k with Begin Progress | End Progress => str "network" | _ => str "trace" end.
(** dashmmevents.cc:16-39 and networkevents.cc:15-16 *)
Definition event_type (k : kind) : text :=
  str match k with
  | Begin StoT => "dashmm stot begin" | End StoT => "dashmm stot end" | Begin MtoT => "dashmm mtot begin" | End MtoT => "dashmm mtot end"
  | Begin LtoT => "dashmm ltot begin" | End LtoT => "dashmm ltot end" | Begin StoM => "dashmm stom begin" | End StoM => "dashmm stom end"
  | Begin StoL => "dashmm stol begin" | End StoL => "dashmm stol end" | Begin ELCO => "dashmm elco begin" | End ELCO => "dashmm elco end"
  | Begin MtoM => "dashmm mtom begin" | End MtoM => "dashmm mtom end" | Begin MtoL => "dashmm mtol begin" | End MtoL => "dashmm mtol end"
  | Begin LtoL => "dashmm ltol begin" | End LtoL => "dashmm ltol end" | Begin MtoI => "dashmm mtoi begin" | End MtoI => "dashmm mtoi end"
  | Begin ItoI => "dashmm itoi begin" | End ItoI => "dashmm itoi end" | Begin ItoL => "dashmm itol begin" | End ItoL => "dashmm itol end"
  | ZeroRef => "dashmm zero ref" | Begin Progress => "progress begin" | End Progress => "progress end"
  end%string.
Definition segment_of (e : entry) : Z := sty (event_of (e_kind e) (e_stamp e)).

(** std::map with texts for keys: the entries, in the order of std::string *)
Fixpoint before (a b : text) : bool :=
  match a, b with
  | [], [] => false | [], _ => true | _, [] => false
  | x :: a', y :: b' => if (nat_of_ascii x <? nat_of_ascii y)%nat then true else if (nat_of_ascii y <? nat_of_ascii x)%nat then false else before a' b'
  end.
Fixpoint find_text {A} (k : text) (m : list (text * A)) : option A :=
  match m with [] => None | (k', a) :: m' => if same_text k' k then Some a else find_text k m' end.
Fixpoint store_text {A} (k : text) (a : A) (m : list (text * A)) : list (text * A) :=
  match m with
  | [] => [(k, a)]
  | (k', a') :: m' => if same_text k' k then (k, a) :: m' else if before k k' then (k, a) :: m else (k', a') :: store_text k a m'
  end.

(** ** Workers and their numbers *)
(** trace.h:53-66, locality.h:54-67, worker.h:58-63: apply_to_workers and apply come past the localities, their
    workers and the events of these in the order of the maps *)
Definition workers_of (t : trace) : list worker := flat_map (fun '(_, l) => map snd (l_workers l)) (t_locs t).
Definition events_in (t : trace) : list entry := flat_map w_events (workers_of t).
(** worker.h:26-27, 70-73, worker.cc:12-19: every worker that is made takes the next number.
    For a worker not known before, locality.cc:12-13 and 47-48 make one from the file, which
    keeps its number, and one more as the place in the map that it is moved to.  The numbers
    are int; that they may run out is not modelled. *)
Fixpoint number_workers (next : Z) (known : list (Z * Z * Z)) (fs : list file) : list (Z * Z * Z) :=
  match fs with
  | [] => known
  | f :: fs' =>
    if existsb (fun '(l, w, _) => (l =? f_loc f) && (w =? f_worker f)) known then number_workers next known fs'
    else number_workers (next + 2) (known ++ [(f_loc f, f_worker f, next)]) fs'
  end.
Fixpoint number_of (l w : Z) (known : list (Z * Z * Z)) : Z :=
  match known with [] => -1 | (l', w', n) :: k => if (l' =? l) && (w' =? w) then n else number_of l w k end.
(** The number of a worker after reading the files *)
Definition gid (fs : list file) (l w : Z) : Z := number_of l w (number_workers 0 [] fs).

Section Writer.
  Context (t : trace) (gid : Z -> Z -> Z).

  (** trace.h:22-23; the last key of an empty map does not exist *)
  Definition max_locality : res Z := match rev (t_locs t) with [] => Fail Oob | (k, _) :: _ => Ok k end.
  Definition has_locality (i : Z) : bool := match lookup i (t_locs t) with Some _ => true | None => false end.
  Definition insert_locality := insert (fun i : Z => i) localities set_localities.
  (** sqlite3out.cc:115-144; ++i beyond the largest int is undefined *)
  Definition locality_table : io unit :=
    match max_locality with
    | Fail e => stop e
    | Ok m =>
      andthen (each (fun _ i => if has_locality i then insert_locality i else ret tt) (zseq 0 (Z.to_nat (m + 1))) tt)
              (fun _ => if m =? 2147483647 then stop Overflow else ret tt)
    end.
  (** sqlite3out.cc:146-177 *)
  Definition insert_worker := insert wr_id workers set_workers.
  Definition worker_table : io unit :=
    each (fun _ w => insert_worker (mkWR (gid (w_loc w) (w_id w)) (w_id w) (w_loc w))) (workers_of t) tt.
  (** sqlite3out.cc:183-188, 257-262 *)
  Definition note {A} (name : entry -> text) (val : entry -> A) (m : list (text * A)) (e : entry) : list (text * A) :=
    match find_text (name e) m with Some _ => m | None => store_text (name e) (val e) m end.
  (** sqlite3out.cc:179-212 *)
  Definition segtyp : list (text * Z) := fold_left (note (fun e => segment_name (segment_of e)) segment_of) (events_in t) [].
  Definition insert_segment_type := insert nr_id segment_types set_segment_types.
  Definition segment_type_table : io unit := each (fun _ '(n, i) => insert_segment_type (mkNR i (bind_text n))) segtyp tt.
  (** sqlite3out.cc:217-223, counter.h:8-17 *)
  Definition note_class (s : list (text * Z) * Z) (e : entry) : list (text * Z) * Z :=
    let '(m, next) := s in
    match find_text (event_class (e_kind e)) m with Some _ => s | None => (store_text (event_class (e_kind e)) next m, next + 1) end.
  Definition evtcls : list (text * Z) := fst (fold_left note_class (events_in t) ([], 0)).
  (** sqlite3out.cc:214-251 *)
  Definition insert_class := insert nr_id classes set_classes.
  Definition class_table : io unit := each (fun _ '(n, i) => insert_class (mkNR i (bind_text n))) evtcls tt.
  (** sqlite3out.cc:253-301; find()->second of a key that is not there is undefined *)
  Definition evttyp : list (text * entry) := fold_left (note (fun e => event_type (e_kind e)) (fun e => e)) (events_in t) [].
  Definition insert_type := insert tr_id types set_types.
  Definition type_step (s : list (text * Z) * Z) (a : text * entry) : io (list (text * Z) * Z) :=
    let '(m, eid) := s in
    let '(n, e) := a in
    match find_text (event_class (e_kind e)) evtcls with
    | None => stop Oob
    | Some c => andthen (insert_type (mkTR eid c (bind_text n) (segment_of e))) (fun _ => ret (store_text n eid m, eid + 1))
    end.
  Definition type_table : io (list (text * Z)) := andthen (each type_step evttyp ([], 0)) (fun s => ret (fst s)).

  (** sqlite3out.cc:349-352 and 368-372, 426-429 and 444-448 *)
  Definition begin_batch (tcounter : Z) : io unit := if tcounter =? 0 then begin_transaction else ret tt.
  Definition end_batch (tcounter : Z) : io Z := if tcounter + 1 =? 10000 then andthen end_transaction (fun _ => ret 0) else ret (tcounter + 1).
  (** sqlite3out.cc:378-380, 451-453 *)
  Definition last_batch (tcounter : Z) : io unit := if (0 <? tcounter) && (tcounter <? 10000) then end_transaction else ret tt.

  (** sqlite3out.cc:347-373: one event; the state is the next id, the counter of the
      transaction and the segments of this worker *)
  Definition insert_event := insert er_id events set_events.
  Definition event_step (typ : list (text * Z)) (g loc : Z) (s : Z * Z * collator) (e : entry) : io (Z * Z * collator) :=
    let '(genid, tcounter, work) := s in
    andthen (begin_batch tcounter) (fun _ =>
    let '(ok, work') := collate work (event_of (e_kind e) (e_stamp e)) (int32 genid) loc g in
    if negb ok then stop BadOp else
    match find_text (event_type (e_kind e)) typ with
    | None => stop Oob
    | Some i =>
      andthen (insert_event (mkER (int64 genid) i loc g (int64 (e_stamp e)))) (fun _ =>
      andthen (end_batch tcounter) (fun tcounter' => ret (genid + 1, tcounter', work')))
    end).
  (** sqlite3out.cc:339-376: one worker *)
  Definition worker_step (typ : list (text * Z)) (s : Z * Z * collator) (w : worker) : io (Z * Z * collator) :=
    let '(genid, tcounter, segs) := s in
    andthen (each (event_step typ (gid (w_loc w) (w_id w)) (w_loc w)) (w_events w) (genid, tcounter, new_collator)) (fun s' =>
    let '(genid', tcounter', work) := s' in ret (genid', tcounter', combine segs work)).
  (** sqlite3out.cc:303-386 *)
  Definition event_table (typ : list (text * Z)) : io collator :=
    andthen (each (worker_step typ) (workers_of t) (0, 0, new_collator)) (fun s =>
    let '(_, tcounter, segs) := s in
    andthen (last_batch tcounter) (fun _ => ret segs)).

  (** sqlite3out.cc:425-449 *)
  Definition insert_segment := insert sr_id segments set_segments.
  Definition segment_step (s : Z * Z) (g : segment) : io (Z * Z) :=
    let '(i, tcounter) := s in
    andthen (begin_batch tcounter) (fun _ =>
    andthen (insert_segment (mkSR (int64 i) (g_id g) (g_begin g) (g_end g) (int64 (g_start g)) (int64 (g_finish g)) (g_loc g) (g_worker g))) (fun _ =>
    andthen (end_batch tcounter) (fun tcounter' => ret (i + 1, tcounter')))).
  (** sqlite3out.cc:388-457 *)
  Definition segment_table (segs : collator) : io unit :=
    andthen (each segment_step (done segs) (0, 0)) (fun s => last_batch (snd s)).

  (** sqlite3out.cc:105-113 *)
  Definition write : io unit :=
    andthen locality_table (fun _ =>
    andthen worker_table (fun _ =>
    andthen segment_type_table (fun _ =>
    andthen class_table (fun _ =>
    andthen type_table (fun typ =>
    andthen (event_table typ) segment_table))))).
End Writer.

(** sqlite3out.cc:81-97: a file that is already there is left alone.  main.cc:87-88 writes the
    trace that was read. *)
Definition write_database (t : trace) (gid : Z -> Z -> Z) (there : option tables) : tables * res unit :=
  match there with
  | Some old => (old, Fail BadOp)
  | None => let '(d, r) := write t gid new_db in (kept d, r)
  end.
