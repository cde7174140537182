(** What the picture of a trace has to show. *)
From Coq Require Import ZArith Reals List Bool Sorting.Sorted.
From Flocq Require Import Core BinarySingleNaN.
From Verif Require Import Base TraceModel TraceSpec ReadModel ReadSpec DbModel DbSpec DoubleModel PlotModel.
Import ListNotations.
Open Scope Z_scope.

(** What a worker did, in order of time *)
Definition did (w : worker) : list event := as_events (w_events w).
Definition last_time (w : worker) : Z := last (map stamp (did w)) 0.
(** The worker without its events at its last time: those no query finds *)
Definition found (w : worker) : list event := filter (fun e => stamp e <? last_time w) (did w).
(** Work of type [ty] begins or ends in the window, as far as queries find it. *)
Definition touched (w : worker) (ty a b : Z) : Prop := exists e, In e (found w) /\ sty e = ty /\ a <= stamp e < b.

(** A trace ready for queries in which every worker does one thing of type [ty] after another *)
Definition worker_in_order (ty : Z) (w : worker) : Prop :=
  w_locked w = true /\ w_events w <> [] /\ StronglySorted Z.le (map stamp (did w)) /\ (forall e, In e (did w) -> 0 <= stamp e < 2 ^ 63) /\
  alternate false (of_type ty (did w)) /\ separated (of_type ty (did w)).
Definition in_order_trace (ty : Z) (t : trace) : Prop :=
  t_locked t = true /\ NoDup (map fst (t_locs t)) /\
  forall i l, In (i, l) (t_locs t) -> l_locked l = true /\ NoDup (map fst (l_workers l)) /\ forall j w, In (j, w) (l_workers l) -> worker_in_order ty w.

(** [n] columns share the time from [a] to [b] between them: they follow one another, and no
    edge is further than one unit from where it should be. *)
Definition shared_out (edge : Z -> Z) (a b n : Z) : Prop :=
  edge 0 = a /\ edge n = b /\ (forall i, 0 <= i < n -> edge i <= edge (i + 1)) /\
  forall i, 0 <= i <= n -> Z.abs (n * (edge i - a) - i * (b - a)) <= n.
(** A square one column wide that covers the rows from [low] to [high] *)
Definition stands (s : square) (col low high : Z) : Prop := sq_x1 s = col /\ sq_x2 s = col /\ sq_y1 s = low /\ sq_y2 s = high.
(** Red, the paler the smaller the share *)
Definition redness (s : square) (share : R) : Prop :=
  is_finite (sq_red s) = true /\ is_finite (sq_green s) = true /\ is_finite (sq_blue s) = true /\ B2R (sq_red s) = 1%R /\
  (Rabs (B2R (sq_green s) - (1 - share)) <= 1 / IZR (2 ^ 52))%R /\ sq_blue s = sq_green s.
(** The share of the window from [a] to [b] in which the events say the worker is busy *)
Definition share (evs : list event) (ty a b : Z) : R := (IZR (busy_time false (of_type ty evs) a b) / IZR (b - a))%R.
