(** Reading trace files: names, headers, records, and what is put together from them.
    Models trace/readtrace/{tracefile,dashmmevents,networkevents,worker,locality,trace}.cc and
    the reading part of main.cc.  A file is a list of bytes; errors of the system while reading
    are not modelled, nor is the output to the terminal.  An exception is [Fail BadOp]. *)
From Coq Require Import String Ascii ZArith List Bool.
From Verif Require Import Base TraceModel.
Import ListNotations.
Open Scope Z_scope.

Definition text : Type := list ascii.
Definition str (s : string) : text := list_ascii_of_string s.
Definition same_text (a b : text) : bool := if list_eq_dec ascii_dec a b then true else false.

(** std::string::find with one character, from a position on *)
Fixpoint find_from (c : ascii) (s : text) (at_ : nat) (from : nat) : option nat :=
  match s with
  | [] => None
  | x :: s' => if (from <=? at_)%nat && Ascii.eqb x c then Some at_ else find_from c s' (S at_) from
  end.
(** tracefile.cc:17-34, for a delimiter of one character, as used in 158 *)
Definition split_once (s : text) (c : ascii) : list text :=
  match find_from c s 0 0 with
  | Some O => [[]; skipn 1 s]
  | Some f => [firstn f s; skipn (f + 1) s]
  | None => [s; []]
  end.
(** tracefile.cc:37-59, for a delimiter of one character, as used in 134 and 137.  The loop
    comes past each place of the text at most once. *)
Fixpoint split_loop (fuel : nat) (s : text) (c : ascii) (iter : nat) : list text :=
  match fuel with
  | O => []
  | S fuel =>
    match find_from c s 0 iter with
    | Some f => if (f =? iter)%nat then split_loop fuel s c (f + 1) else firstn (f - iter) (skipn iter s) :: split_loop fuel s c (f + 1)
    | None => [skipn iter s]
    end
  end.
Definition split (s : text) (c : ascii) : list text := split_loop (S (length s)) s c 0.

(** std::stoi: white space, a sign, and as many digits as there are; what follows is ignored.
    std::invalid_argument without digits, std::out_of_range beyond an int; both are caught in
    tracefile.cc:142-156 and thrown again as a std::runtime_error. *)
Definition is_space (c : ascii) : bool := let n := nat_of_ascii c in ((n =? 32) || ((9 <=? n) && (n <=? 13)))%nat.
Definition digit (c : ascii) : option Z :=
  let n := nat_of_ascii c in if ((48 <=? n) && (n <=? 57))%nat then Some (Z.of_nat n - 48) else None.
Fixpoint skip_space (s : text) : text := match s with c :: s' => if is_space c then skip_space s' else s | [] => [] end.
Fixpoint digits (s : text) (v : Z) : Z := match s with c :: s' => match digit c with Some d => digits s' (10 * v + d) | None => v end | [] => v end.
Definition stoi (s : text) : res Z :=
  let s := skip_space s in
  let '(neg, s) := match s with c :: s' => if Ascii.eqb c "-"%char then (true, s') else if Ascii.eqb c "+"%char then (false, s') else (false, s) | [] => (false, s) end in
  match s with
  | c :: _ =>
    match digit c with
    | Some _ =>
      let v := if neg then - digits s 0 else digits s 0 in
      if (-2147483648 <=? v) && (v <=? 2147483647) then Ok v else Fail BadOp
    | None => Fail BadOp
    end
  | [] => Fail BadOp
  end.

(** dashmmevents.h, networkevents.h: the classes of events *)
Inductive work := StoT | MtoT | LtoT | StoM | StoL | ELCO | MtoM | MtoL | LtoL | MtoI | ItoI | ItoL | Progress.
Inductive kind := Begin (w : work) | End (w : work) | ZeroRef.
(** segmentids.h:15-32 *)
Definition segment_id (w : work) : Z :=
  match w with
  | Progress => 1 | StoT => 2 | MtoT => 3 | LtoT => 4 | StoM => 5 | StoL => 6 | ELCO => 7
  | MtoM => 8 | MtoL => 9 | LtoL => 10 | MtoI => 11 | ItoI => 12 | ItoL => 13
  end.
(** dashmmevents.h:48-356, networkevents.h:28-60: segment_type(), start() and end() *)
Definition event_of (k : kind) (s : Z) : event :=
  match k with
  | Begin w => mkE s (segment_id w) true false
  | End w => mkE s (segment_id w) false true
  | ZeroRef => mkE s 0 false false
  end.
(** dashmmevents.cc:41-95 (type_from_name) and 99-183 (prototype_from_name) *)
Definition dashmm_names : list (text * kind) :=
  [(str "DASHMM_STOT_BEGIN", Begin StoT); (str "DASHMM_STOT_END", End StoT);
   (str "DASHMM_MTOT_BEGIN", Begin MtoT); (str "DASHMM_MTOT_END", End MtoT);
   (str "DASHMM_LTOT_BEGIN", Begin LtoT); (str "DASHMM_LTOT_END", End LtoT);
   (str "DASHMM_STOM_BEGIN", Begin StoM); (str "DASHMM_STOM_END", End StoM);
   (str "DASHMM_STOL_BEGIN", Begin StoL); (str "DASHMM_STOL_END", End StoL);
   (str "DASHMM_ELCO_BEGIN", Begin ELCO); (str "DASHMM_ELCO_END", End ELCO);
   (str "DASHMM_MTOM_BEGIN", Begin MtoM); (str "DASHMM_MTOM_END", End MtoM);
   (str "DASHMM_MTOL_BEGIN", Begin MtoL); (str "DASHMM_MTOL_END", End MtoL);
   (str "DASHMM_LTOL_BEGIN", Begin LtoL); (str "DASHMM_LTOL_END", End LtoL);
   (str "DASHMM_MTOI_BEGIN", Begin MtoI); (str "DASHMM_MTOI_END", End MtoI);
   (str "DASHMM_ITOI_BEGIN", Begin ItoI); (str "DASHMM_ITOI_END", End ItoI);
   (str "DASHMM_ITOL_BEGIN", Begin ItoL); (str "DASHMM_ITOL_END", End ItoL);
   (str "DASHMM_ZEROREF", ZeroRef)].
(** networkevents.cc:20-28, 33-49 *)
Definition network_names : list (text * kind) := [(str "PROGRESS_BEGIN", Begin Progress); (str "PROGRESS_END", End Progress)].
Fixpoint from_name (l : list (text * kind)) (s : text) : option kind :=
  match l with [] => None | (n, k) :: l' => if same_text s n then Some k else from_name l' s end.
(** traceevent.cc:7-29 and tracefile.cc:62-86: the classes that have no events of their own
    share those of DASHMM *)
Definition proto (cls ename : text) : option kind :=
  if same_text cls (str "NETWORK") then from_name network_names ename
  else if same_text cls (str "SCHED") || same_text cls (str "LCO") || same_text cls (str "PROCESS") || same_text cls (str "MEMORY") || same_text cls (str "TRACE")
  then from_name dashmm_names ename else None.

(** tracefile.cc:133-168 *)
Definition interpret_filename (fname : text) : res (Z * Z * kind) :=
  let path := split fname "/"%char in
  do final <- nth_res path (length path - 1);
  let parts := split final "."%char in
  if negb (length parts =? 6)%nat then Fail BadOp
  else
    do p0 <- nth_res parts 0; do loc <- stoi p0;
    do p1 <- nth_res parts 1; do worker <- stoi p1;
    do p4 <- nth_res parts 4;
    let ce := split_once p4 "_"%char in
    do c <- nth_res ce 0; do e <- nth_res ce 1;
    match c, e with
    | [], _ => Fail BadOp
    | _, [] => Fail BadOp
    | _, _ => match proto c e with Some k => Ok (loc, worker, k) | None => Fail BadOp end
    end.

(** tracefile.cc:171-190.  Moving the position behind the end of a file is no error. *)
Definition magic : list Z := [72; 80; 88; 110; 112; 121].
Definition check_and_skip_header (file : list Z) : res (list Z) :=
  if (length file <? 6)%nat then Fail BadOp
  else if negb (if list_eq_dec Z.eq_dec (firstn 6 file) magic then true else false) then Fail BadOp
  else
    match skipn 8 file with
    | a :: b :: rest => Ok (skipn (Z.to_nat (a + 256 * b)) rest)
    | _ => Fail BadOp
    end.
(** read_from_file of each event, e.g. dashmmevents.cc:293-309, and the loops around it
    (worker.cc:21-25, 49-52): stamps of eight bytes to the end of the file *)
Fixpoint number (l : list Z) : Z := match l with [] => 0 | a :: l' => a + 256 * number l' end.
Fixpoint read_stamps (file : list Z) : res (list Z) :=
  match file with
  | [] => Ok []
  | a :: b :: c :: d :: e :: f :: g :: h :: rest => do l <- read_stamps rest; Ok (number [a; b; c; d; e; f; g; h] :: l)
  | _ => Fail BadOp
  end.

(** Where a file belongs, and what was read from it *)
Record file := mkFile { f_loc : Z; f_worker : Z; f_kind : kind; f_stamps : list Z }.
(** tracefile.cc:92-110, and reading it to the end *)
Definition open_file (fname : text) (bytes : list Z) : res file :=
  do (loc, worker, k) <- interpret_filename fname;
  do rest <- check_and_skip_header bytes;
  do l <- read_stamps rest;
  Ok (mkFile loc worker k l).

(** worker.h:67-73, locality.h:72-75, trace.h:68-70; a std::map is its list of entries with
    growing keys *)
Record entry := mkEntry { e_kind : kind; e_stamp : Z }.
Record worker := mkWorker { w_id : Z; w_loc : Z; w_events : list entry; w_locked : bool }.
Record locality := mkLoc { l_id : Z; l_workers : list (Z * worker); l_locked : bool }.
Record trace := mkTrace { t_locked : bool; t_locs : list (Z * locality) }.
Fixpoint lookup {A} (k : Z) (m : list (Z * A)) : option A :=
  match m with [] => None | (k', a) :: m' => if k' =? k then Some a else lookup k m' end.
Fixpoint store {A} (k : Z) (a : A) (m : list (Z * A)) : list (Z * A) :=
  match m with
  | [] => [(k, a)]
  | (k', a') :: m' => if k' =? k then (k, a) :: m' else if k <? k' then (k, a) :: m else (k', a') :: store k a m'
  end.

Definition entries (f : file) : list entry := map (mkEntry (f_kind f)) (f_stamps f).
(** worker.cc:15-35 *)
Definition new_worker (f : file) : worker := mkWorker (f_worker f) (f_loc f) (entries f) false.
(** worker.cc:37-60 *)
Definition worker_add (w : worker) (f : file) : res worker :=
  if w_locked w then Fail BadOp
  else if negb (f_worker f =? w_id w) || negb (f_loc f =? w_loc w) then Fail BadOp
  else Ok (mkWorker (w_id w) (w_loc w) (w_events w ++ entries f) false).
(** locality.cc:10-14 *)
Definition new_locality (f : file) : locality := mkLoc (f_loc f) [(f_worker f, new_worker f)] false.
(** locality.cc:35-50 *)
Definition locality_add (l : locality) (f : file) : res locality :=
  if l_locked l then Fail BadOp
  else if negb (f_loc f =? l_id l) then Fail BadOp
  else
    match lookup (f_worker f) (l_workers l) with
    | Some w => do w' <- worker_add w f; Ok (mkLoc (l_id l) (store (f_worker f) w' (l_workers l)) false)
    | None => Ok (mkLoc (l_id l) (store (f_worker f) (new_worker f) (l_workers l)) false)
    end.
(** trace.cc:68-80 *)
Definition trace_add (t : trace) (f : file) : res trace :=
  if t_locked t then Fail BadOp
  else
    match lookup (f_loc f) (t_locs t) with
    | Some l => do l' <- locality_add l f; Ok (mkTrace false (store (f_loc f) l' (t_locs t)))
    | None => Ok (mkTrace false (store (f_loc f) (new_locality f) (t_locs t)))
    end.
Definition new_trace : trace := mkTrace false [].

(** worker.cc:121-127 *)
Definition no_zero : Z := 2 ^ 64 - 1.
Definition get_zeroref (w : worker) : res Z :=
  do e <- nth_res (w_events w) 0;
  Ok (match e_kind e with ZeroRef => e_stamp e | _ => no_zero end).
(** worker.cc:130-134: differences of unsigned numbers of 64 bits *)
Definition reset_zero (zero : Z) (w : worker) : worker :=
  mkWorker (w_id w) (w_loc w) (map (fun e => mkEntry (e_kind e) ((e_stamp e - zero) mod 2 ^ 64)) (w_events w)) (w_locked w).
(** locality.cc:53-75 *)
Fixpoint find_zero (zero : Z) (ws : list (Z * worker)) : res Z :=
  match ws with
  | [] => Ok zero
  | (_, w) :: ws' => do z <- get_zeroref w; if z =? no_zero then find_zero z ws' else Ok z
  end.
Definition zero_reset (l : locality) : res locality :=
  do zero <- find_zero 0 (l_workers l);
  if negb (zero =? no_zero) && negb (zero =? 0)
  then Ok (mkLoc (l_id l) (map (fun '(k, w) => (k, reset_zero zero w)) (l_workers l)) (l_locked l)) else Ok l.
(** trace.cc:83-87 *)
Definition find_and_reset_zero (t : trace) : res trace :=
  do ls <- mapM (fun '(k, l) => do l' <- zero_reset l; Ok (k, l')) (t_locs t); Ok (mkTrace (t_locked t) ls).

(** worker.cc:72-78, locality.cc:87-102, trace.cc:102-117 *)
Definition worker_max (w : worker) : res Z := do e <- nth_res (w_events w) (length (w_events w) - 1); Ok (e_stamp e).
Definition worker_min (w : worker) : res Z := do e <- nth_res (w_events w) 0; Ok (e_stamp e).
Definition locality_max (l : locality) : res Z := foldM (fun r '(_, w) => do m <- worker_max w; Ok (Z.max r m)) (l_workers l) 0.
Definition locality_min (l : locality) : res Z := foldM (fun r '(_, w) => do m <- worker_min w; Ok (Z.min r m)) (l_workers l) (2 ^ 64 - 1).
Definition trace_max (t : trace) : res Z := foldM (fun r '(_, l) => do m <- locality_max l; Ok (Z.max r m)) (t_locs t) 0.
Definition trace_min (t : trace) : res Z := foldM (fun r '(_, l) => do m <- locality_min l; Ok (Z.min r m)) (t_locs t) (2 ^ 64 - 1).

(** worker.cc:63-67: std::sort, which orders by stamps and may leave equal ones in any order *)
Definition worker_finalize (sort : list entry -> list entry) (w : worker) : worker :=
  if w_locked w then w else mkWorker (w_id w) (w_loc w) (sort (w_events w)) true.
(** locality.cc:77-84; the two times are not used *)
Definition locality_finalize (sort : list entry -> list entry) (l : locality) : locality :=
  if l_locked l then l else mkLoc (l_id l) (map (fun '(k, w) => (k, worker_finalize sort w)) (l_workers l)) true.
(** trace.cc:90-99 *)
Definition finalize (sort : list entry -> list entry) (t : trace) : res trace :=
  if t_locked t then Ok t
  else
    do _ <- trace_min t; do _ <- trace_max t;
    Ok (mkTrace true (map (fun '(k, l) => (k, locality_finalize sort l)) (t_locs t))).
(** locality.cc:26-32, trace.cc:59-65 *)
Definition locality_events (l : locality) : nat := fold_left (fun n '(_, w) => n + length (w_events w))%nat (l_workers l) 0%nat.
Definition num_events (t : trace) : nat := fold_left (fun n '(_, l) => n + locality_events l)%nat (t_locs t) 0%nat.

(** main.cc:58-69 *)
Definition load (sort : list entry -> list entry) (args : list (text * list Z)) : res (trace * Z * Z * nat) :=
  do t <- foldM (fun t '(n, b) => do f <- open_file n b; trace_add t f) args new_trace;
  do t <- find_and_reset_zero t;
  do t <- finalize sort t;
  do lo <- trace_min t; do hi <- trace_max t;
  Ok (t, lo, hi, num_events t).
