(** What the database of a trace has to hold. *)
From Coq Require Import String Ascii ZArith List Bool.
From Verif Require Import Base TraceModel TraceSpec ReadModel ReadSpec DbModel.
Import ListNotations.
Open Scope Z_scope.

(** ** Names *)
Definition lower (c : ascii) : ascii := let n := nat_of_ascii c in if ((65 <=? n) && (n <=? 90))%nat then ascii_of_nat (n + 32) else c.
Definition in_lower (s : string) : text := map lower (list_ascii_of_string s).
(** [dashmm mtol begin] for [DASHMM_MTOL_BEGIN] *)
Definition spoken (k : kind) : text :=
  match k with
  | ZeroRef => in_lower "DASHMM ZERO REF"
  | _ => map (fun c => if Ascii.eqb c "_" then " "%char else c) (in_lower (event_name k))
  end.
Definition work_of (k : kind) : option work := match k with Begin w | End w => Some w | ZeroRef => None end.
Definition work_name (w : option work) : text :=
  list_ascii_of_string match w with
  | None => "NoSeg" | Some Progress => "NetProg" | Some StoT => "StoT" | Some MtoT => "MtoT" | Some LtoT => "LtoT" | Some StoM => "StoM" | Some StoL => "StoL"
  | Some ELCO => "ELCO" | Some MtoM => "MtoM" | Some MtoL => "MtoL" | Some LtoL => "LtoL" | Some MtoI => "MtoI" | Some ItoI => "ItoI" | Some ItoL => "ItoL"
  end%string.
(** As a text stands in the database: with one more byte *)
Definition as_stored (s stored : text) : Prop := stored = s ++ [ascii_of_nat 0].

(** ** Events *)
Definition as_events (l : list entry) : list event := map (fun e => event_of (e_kind e) (e_stamp e)) l.
(** The time of an event as a signed number of 64 bits *)
Definition signed_time (s v : Z) : Prop := - 2 ^ 63 <= v < 2 ^ 63 /\ exists k, s = v + k * 2 ^ 64.
(** Row [r] is about event [e] of worker [w] of locality [l]. *)
Definition tells (d : tables) (l w : Z) (e : entry) (r : event_row) : Prop :=
  er_loc r = l /\ In l (localities d) /\ signed_time (e_stamp e) (er_time r) /\
  In (mkWR (er_worker r) w l) (workers d) /\
  exists ty cl sg, In ty (types d) /\ In cl (classes d) /\ In sg (segment_types d) /\
    tr_id ty = er_type r /\ as_stored (spoken (e_kind e)) (tr_name ty) /\
    nr_id cl = tr_class ty /\ as_stored (in_lower (class_name (e_kind e))) (nr_name cl) /\
    nr_id sg = tr_segment ty /\ as_stored (work_name (work_of (e_kind e))) (nr_name sg).
(** Row [g] is about what worker [w] of locality [l] did from its event [i] to its event [j]. *)
Definition spans (d : tables) (first : Z -> Z -> Z) (l w : Z) (evs : list entry) (i j : nat) (g : segment_row) : Prop :=
  exists a b, nth_error evs i = Some a /\ nth_error evs j = Some b /\
    just_before (as_events evs) i j (sr_segment g) /\ closes (as_events evs) j /\
    sr_start g = first l w + Z.of_nat i /\ sr_end g = first l w + Z.of_nat j /\
    signed_time (e_stamp a) (sr_from g) /\ signed_time (e_stamp b) (sr_to g) /\
    sr_loc g = l /\ In (mkWR (sr_worker g) w l) (workers d) /\
    exists sg, In sg (segment_types d) /\ nr_id sg = sr_segment g /\ as_stored (work_name (work_of (e_kind b))) (nr_name sg).

(** No two rows of a table have one id. *)
Definition keys_differ (d : tables) : Prop :=
  NoDup (localities d) /\ NoDup (map wr_id (workers d)) /\ NoDup (map nr_id (segment_types d)) /\ NoDup (map nr_id (classes d)) /\
  NoDup (map tr_id (types d)) /\ NoDup (map er_id (events d)) /\ NoDup (map sr_id (segments d)).
(** Every locality and every worker of the trace has one row, and no other. *)
Definition lists_workers (t : trace) (d : tables) : Prop :=
  (forall l, In l (localities d) <-> exists w evs, events_of t l w = Some evs) /\
  (forall l w, (exists evs, events_of t l w = Some evs) <-> exists i, In (mkWR i w l) (workers d)) /\
  (forall i j l w, In (mkWR i w l) (workers d) -> In (mkWR j w l) (workers d) -> i = j).
(** The ids of the events of a worker follow one another from [first] on; ids of different
    events differ; they fill 0, 1, 2, ... *)
Definition numbered (t : trace) (first : Z -> Z -> Z) (n : nat) : Prop :=
  (forall l w evs j, events_of t l w = Some evs -> (j < length evs)%nat -> 0 <= first l w + Z.of_nat j < Z.of_nat n) /\
  (forall k, 0 <= k < Z.of_nat n -> exists l w evs j, events_of t l w = Some evs /\ (j < length evs)%nat /\ k = first l w + Z.of_nat j) /\
  (forall l w evs j l' w' evs' j', events_of t l w = Some evs -> (j < length evs)%nat -> events_of t l' w' = Some evs' -> (j' < length evs')%nat ->
     first l w + Z.of_nat j = first l' w' + Z.of_nat j' -> l = l' /\ w = w' /\ j = j').
(** The first [m] events have a row each, and no other has. *)
Definition lists_events (t : trace) (d : tables) (first : Z -> Z -> Z) (m : nat) : Prop :=
  map er_id (events d) = zseq 0 m /\
  (forall r, In r (events d) -> exists l w evs j e, events_of t l w = Some evs /\ nth_error evs j = Some e /\ er_id r = first l w + Z.of_nat j /\ tells d l w e r) /\
  (forall l w evs j e, events_of t l w = Some evs -> nth_error evs j = Some e -> first l w + Z.of_nat j < Z.of_nat m -> exists r, In r (events d) /\ er_id r = first l w + Z.of_nat j /\ tells d l w e r).
(** Every end of work has one row, and there is no other. *)
Definition lists_segments (t : trace) (d : tables) (first : Z -> Z -> Z) : Prop :=
  map sr_id (segments d) = zseq 0 (length (segments d)) /\ NoDup (map sr_end (segments d)) /\
  (forall g, In g (segments d) -> exists l w evs i j, events_of t l w = Some evs /\ spans d first l w evs i j g) /\
  (forall l w evs j, events_of t l w = Some evs -> closes (as_events evs) j -> exists g i, In g (segments d) /\ spans d first l w evs i j g).
