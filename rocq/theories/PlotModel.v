(** The picture of a trace and the table of utilisation.
    Models trace/readtrace/{plotter,utilization}.cc and the maps over localities and workers of
    trace.cc and locality.cc that they use.  Doubles are those of [DoubleModel].  Times are
    taken to be below 2^63: range_coverage keeps them in an int64_t.  What the library pngwriter
    does with a square is not modelled, nor is the output to the file of the table. *)
From Coq Require Import ZArith List Bool.
From Flocq Require Import Core BinarySingleNaN.
From Verif Require Import Base TraceModel ReadModel DoubleModel.
Import ListNotations.
Open Scope Z_scope.

Definition uint64 (z : Z) : Z := z mod 2 ^ 64.
(** Sums and products of int; beyond their range they are undefined. *)
Definition int_ (z : Z) : res Z := if (- 2 ^ 31 <=? z) && (z <? 2 ^ 31) then Ok z else Fail Overflow.
(** A double made a uint64_t: undefined beyond the range. *)
Definition duint (x : double) : res Z :=
  if is_finite x then let t := Btrunc x in if (0 <=? t) && (t <? 2 ^ 64) then Ok t else Fail Overflow else Fail DivZero.

Section Reader.
  (** std::partition_point *)
  Variable pp : (Z -> bool) -> list Z -> nat.

  (** worker.cc:81-118; the events between the two iterators *)
  Definition worker_range (w : worker) (start end_ : Z) : res (list event) :=
    if negb (w_locked w) then Fail BadOp
    else
      do (a, b) <- range pp (map e_stamp (w_events w)) start end_;
      Ok (firstn (b - a) (skipn a (map (fun e => event_of (e_kind e) (e_stamp e)) (w_events w)))).
  (** locality.cc:105-116 *)
  Definition span (l : locality) (start end_ : Z) : res (list (Z * list event)) :=
    if negb (l_locked l) then Fail BadOp
    else mapM (fun '(j, w) => do r <- worker_range w start end_; Ok (j, r)) (l_workers l).
  (** trace.cc:120-130 *)
  Definition window (t : trace) (start end_ : Z) : res (list (Z * list (Z * list event))) :=
    if negb (t_locked t) then Fail BadOp
    else mapM (fun '(i, l) => do r <- span l start end_; Ok (i, r)) (t_locs t).

  (** trace.cc:134-166 *)
  Definition range_coverage (ty start end_ : Z) (evs : list event) : res double :=
    match evs with
    | [] => Ok (of_int 0)
    | _ => do cover <- coverage ty start end_ evs; Ok (ddiv (of_int (uint64 cover)) (of_int (uint64 (end_ - start))))
    end.
  (** trace.cc:168-175 *)
  Definition span_coverage (s : list (Z * list event)) (ty start end_ : Z) : res (list (Z * double)) :=
    mapM (fun '(j, evs) => do c <- range_coverage ty start end_ evs; Ok (j, c)) s.
  (** trace.cc:179-186 *)
  Definition coverage_of_segment_type (win : list (Z * list (Z * list event))) (ty start end_ : Z) : res (list (Z * list (Z * double))) :=
    mapM (fun '(i, s) => do c <- span_coverage s ty start end_; Ok (i, c)) win.

  (** trace.cc:31-37 with locality.h:33 *)
  Definition total_workers (t : trace) : Z := fold_left (fun n '(_, l) => n + Z.of_nat (length (l_workers l))) (t_locs t) 0.
  (** trace.cc:40-46, locality.cc:17-23 *)
  Definition worker_map (t : trace) : list (Z * list (Z * Z)) :=
    map (fun '(i, l) => (i, map (fun '(j, _) => (j, 0)) (l_workers l))) (t_locs t).

  (** plotter.h:32-49, without the file *)
  Record image := mkIm { px : Z; py : Z; padding : Z; bar_height : Z; n_bars : Z; t0 : Z; t1 : Z }.
  (** plotter.cc:31-37: the height of a bar and the new height of the picture *)
  Definition set_bar_height (py padding n : Z) : res (Z * Z) :=
    do gaps <- int_ (padding * (n - 1));
    do top <- int_ (py - gaps);
    do h <- dint (dadd (ddiv (of_int top) (of_int n)) dhalf);
    do bars <- int_ (h * n);
    do py' <- int_ (bars + gaps);
    Ok (h, py').
  (** plotter.cc:16-28 *)
  Definition new_image (x y p ti tf nwork : Z) : res image :=
    do (h, y') <- set_bar_height y p nwork;
    Ok (mkIm x y' p h nwork ti tf).
  (** plotter.cc:40-42 *)
  Definition bar_bottom (im : image) (idx : Z) : res Z := do s <- int_ (padding im + bar_height im); int_ (idx * s).
  (** plotter.cc:45-47 *)
  Definition bar_top (im : image) (idx : Z) : res Z := do b <- bar_bottom im idx; int_ (b + bar_height im).

  (** plotter.cc:53-59: the bars of the workers, from the top *)
  Fixpoint number_row (index : Z) (m : list (Z * Z)) : Z * list (Z * Z) :=
    match m with
    | [] => (index, [])
    | (j, _) :: m' => let '(i, r) := number_row (index - 1) m' in (i, (j, index - 1) :: r)
    end.
  Fixpoint number_bars (index : Z) (wmap : list (Z * list (Z * Z))) : list (Z * list (Z * Z)) :=
    match wmap with
    | [] => []
    | (k, m) :: wmap' => let '(i, r) := number_row index m in (k, r) :: number_bars i wmap'
    end.
  (** plotter.cc:70: operator[] of a map, which gives 0 for what it does not have *)
  Definition bar_of (wmap : list (Z * list (Z * Z))) (i j : Z) : Z :=
    match lookup i wmap with Some m => match lookup j m with Some x => x | None => 0 end | None => 0 end.

  (** plotter.cc:52, 63-64, utilization.cc:41, 44-45: the time at which column [ix] of [n] begins *)
  Definition step_of (ti tf n : Z) : double := ddiv (of_int (uint64 (tf - ti))) (of_int n).
  Definition edge (dx : double) (ti ix : Z) : res Z := do k <- duint (dadd (dmul dx (of_int ix)) dhalf); Ok (uint64 (k + ti)).

  (** plotter.cc:71-72: a call of filledsquare *)
  Record square := mkSq { sq_x1 : Z; sq_y1 : Z; sq_x2 : Z; sq_y2 : Z; sq_red : double; sq_green : double; sq_blue : double }.
  Definition draw (im : image) (wmap : list (Z * list (Z * Z))) (ix i : Z) (jc : Z * double) : res square :=
    let '(j, c) := jc in
    let idx := bar_of wmap i j in
    do b <- bar_bottom im idx;
    do b1 <- int_ (b + 1);
    do t <- bar_top im idx;
    Ok (mkSq (ix + 1) b1 (ix + 1) t (of_int 1) (dsub (of_int 1) c) (dsub (of_int 1) c)).
  (** plotter.cc:63-74 *)
  Definition column (im : image) (t : trace) (wmap : list (Z * list (Z * Z))) (segment : Z) (dx : double) (ix : Z) : res (list square) :=
    do tstart <- edge dx (t0 im) ix;
    do tend <- edge dx (t0 im) (ix + 1);
    do win <- window t tstart tend;
    do cov <- coverage_of_segment_type win segment tstart tend;
    do rows <- mapM (fun '(i, cs) => mapM (draw im wmap ix i) cs) cov;
    Ok (concat rows).
  (** plotter.cc:50-78 *)
  Definition plot (im : image) (t : trace) (segment : Z) : res (list square) :=
    let dx := step_of (t0 im) (t1 im) (px im) in
    let wmap := number_bars (n_bars im) (worker_map t) in
    do cols <- mapM (column im t wmap segment dx) (zseq 0 (Z.to_nat (px im)));
    Ok (concat cols).
  (** plotter.cc:7-12: the size of the picture and what is drawn in it *)
  Definition plotter (t : trace) (x y p ti tf segment : Z) : res (Z * Z * list square) :=
    do im <- new_image x y p ti tf (total_workers t);
    do sqs <- plot im t segment;
    Ok (px im, py im, sqs).

  (** utilization.cc:12-26 *)
  Definition sum_of_cover (c : list (Z * list (Z * double))) : res double :=
    let '(s, count) := fold_left (fun st '(_, m) => fold_left (fun '(s, count) '(_, v) => (dadd s v, count + 1)) m st) c (of_int 0, 0) in
    do _ <- assert_ (negb (count =? 0));
    Ok (ddiv s (of_int count)).
  (** output[s][i] = v *)
  Definition put (out : list (list double)) (s i : nat) (v : double) : res (list (list double)) :=
    do row <- nth_res out s; do row' <- set_res row i v; set_res out s row'.
  (** utilization.cc:44-54 *)
  Definition sample (t : trace) (ti : Z) (dx : double) (segments : list Z) (out : list (list double)) (s : Z) : res (list (list double)) :=
    do tend <- edge dx ti (s + 1);
    do tstart <- edge dx ti s;
    do out <- put out (Z.to_nat s) 0 (dmul dx (dadd (of_int s) dhalf));
    do win <- window t tstart tend;
    foldM (fun out '(i, seg) =>
      do cov <- coverage_of_segment_type win seg tstart tend;
      do v <- sum_of_cover cov;
      put out (Z.to_nat s) (i + 1) v) (List.combine (seq 0 (length segments)) segments) out.
  (** utilization.cc:58-62 *)
  Definition total (nseg : nat) (out : list (list double)) (s : Z) : res (list (list double)) :=
    do row <- nth_res out (Z.to_nat s);
    do tot <- foldM (fun tot i => do v <- nth_res row (i + 1); Ok (dadd tot v)) (seq 0 nseg) (of_int 0);
    put out (Z.to_nat s) (nseg + 1) tot.
  (** utilization.cc:31-77: the rows that are printed.  A vector of negative length is refused by
      an exception; reserve (37) adds no elements, so every row is empty. *)
  Definition utilization (t : trace) (ti tf samples : Z) (segments : list Z) : res (list (list double)) :=
    if samples <? 0 then Fail BadOp
    else
      let output := repeat [] (Z.to_nat samples) in
      let dx := step_of ti tf samples in
      do out <- foldM (sample t ti dx segments) (zseq 0 (Z.to_nat samples)) output;
      do out <- foldM (total (length segments)) (zseq 0 (Z.to_nat samples)) out;
      do _ <- mapM (fun s => do row <- nth_res out (Z.to_nat s); mapM (nth_res row) (seq 0 (length segments + 2))) (zseq 0 (Z.to_nat samples));
      Ok out.
End Reader.
