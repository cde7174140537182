(** Property C91: the database of a trace. *)
From Coq Require Import String Ascii ZArith List Bool Arith Lia Permutation Sorted.
From Verif Require Import Base ListFacts TraceModel TraceSpec ReadModel ReadSpec ReadProofs ReadTrace ReadLoad ReadProps DbModel DbSpec DbProofs DbLoops DbContents DbLoaded.
Import ListNotations.
Open Scope Z_scope.

(** C91.  Let a trace be read from files, for localities that are not negative, with at most
    2^31 events.  The ids of the events are 0, 1, 2, ..., those of one worker in a row.  If all
    events are in turn, the writer ends well and the file holds a row for every locality,
    worker, event and finished piece of work, and all references lead to the right rows.
    Otherwise the first event out of turn makes it throw, and the file keeps the events before
    it in full batches of 10000, and no segment. *)
Theorem C91_database : forall sort args fs t lo hi n,
  Forall2 (fun a f => open_file (fst a) (snd a) = Ok f) args fs -> load sort args = Ok (t, lo, hi, n) -> fs <> [] ->
  (forall f, In f fs -> 0 <= f_loc f < 2 ^ 31 - 1) -> Z.of_nat n <= 2 ^ 31 ->
  exists first, numbered t first n /\
    ((forall l w evs j, events_of t l w = Some evs -> in_turn (as_events evs) j) ->
     exists d, write_database t (gid fs) None = (d, Ok tt) /\ keys_differ d /\ lists_workers t d /\ lists_events t d first n /\ lists_segments t d first) /\
    (forall l w evs j, events_of t l w = Some evs -> ~ in_turn (as_events evs) j ->
     (forall l' w' evs' j', events_of t l' w' = Some evs' -> (j' < length evs')%nat -> first l' w' + Z.of_nat j' < first l w + Z.of_nat j -> in_turn (as_events evs') j') ->
     exists d, write_database t (gid fs) None = (d, Fail BadOp) /\ keys_differ d /\ lists_workers t d /\
       lists_events t d first (Z.to_nat (10000 * ((first l w + Z.of_nat j) / 10000))) /\ segments d = []).
Proof.
  intros sort args fs t lo hi n Op Ld Nf Rg Sm. destruct (loaded_shape sort args fs t lo hi n Op Ld) as (z & Et & En). destruct (loaded_fit sort z fs Nf Rg) as (m & Fit). rewrite <- Et in Fit. rewrite events_total in En. subst n. exists (first t). split; [apply (numbers_ok t (gid fs) m Fit)|]. split.
  - intros Tn. apply (written t (gid fs) m Fit Sm Tn).
  - intros l w evs j H Nt Be. apply (stopped t (gid fs) m Fit l w evs j Sm H Nt Be).
Qed.
Print Assumptions C91_database.

(** Times are those before and after the zero of the locality, with their sign. *)
Theorem C91_times : forall s z v, 0 <= s < 2 ^ 64 -> 0 <= z < 2 ^ 64 -> - 2 ^ 63 <= s - z < 2 ^ 63 -> signed_time ((s - z) mod 2 ^ 64) v -> v = s - z.
Proof.
  intros s z v Hs Hz Hd [Hv [k E]]. pose proof (Z.div_mod (s - z) (2 ^ 64) ltac:(lia)) as D. rewrite E in D. set (q := (s - z) / 2 ^ 64) in *. clearbody q. change (2 ^ 64) with 18446744073709551616 in *. change (2 ^ 63) with 9223372036854775808 in *. lia.
Qed.
Print Assumptions C91_times.
Example C91_times_nonvacuous : signed_time ((90 - 100) mod 2 ^ 64) (-10) /\ - 2 ^ 63 <= 90 - 100 < 2 ^ 63.
Proof. split; [split; [lia|exists 1; reflexivity]|lia]. Qed.

(** An example: two localities, a zero, two pieces of work, and one that never ends *)
Definition ex_args : list (text * list Z) := [ex_other; ex_zero; ex_begin; ex_end].
Definition ex_fs : list file := [mkFile 1 0 (Begin Progress) [7]; mkFile 0 2 ZeroRef [100]; mkFile 0 2 (Begin StoT) [120; 110]; mkFile 0 2 (End StoT) [115; 130]].
Definition ex_trace : trace := match load isort ex_args with Ok (t, _, _, _) => t | Fail _ => new_trace end.
Definition in_turn_check (evs : list event) (j : nat) : bool :=
  match nth_error evs j with Some e => (sty e =? 0) || (if Nat.even (earlier evs j (sty e)) then estart e else eend e) | None => true end.
Lemma in_turn_checked evs : forallb (in_turn_check evs) (seq 0 (length evs)) = true -> forall j, in_turn evs j.
Proof.
  intros H j e E N. rewrite forallb_forall in H. assert (L : (j < length evs)%nat) by (apply nth_error_Some; congruence). specialize (H j (proj2 (in_seq _ _ _) (conj (Nat.le_0_l j) L))). unfold in_turn_check in H. rewrite E in H. rewrite (proj2 (Z.eqb_neq (sty e) 0) N) in H. cbn [orb] in H. destruct (Nat.even _); exact H.
Qed.
Lemma ex_events l w evs : events_of ex_trace l w = Some evs -> (l = 0 /\ w = 2) \/ (l = 1 /\ w = 0).
Proof.
  unfold events_of. change (t_locs ex_trace) with [(0, mkLoc 0 [(2, mkWorker 2 0 [mkEntry ZeroRef 0; mkEntry (Begin StoT) 10; mkEntry (End StoT) 15; mkEntry (Begin StoT) 20; mkEntry (End StoT) 30] true)] true); (1, mkLoc 1 [(0, mkWorker 0 1 [mkEntry (Begin Progress) 7] true)] true)].
  cbn [lookup]. destruct (0 =? l) eqn:E0; [apply Z.eqb_eq in E0; cbn [l_workers lookup]; destruct (2 =? w) eqn:E2; [apply Z.eqb_eq in E2; intros _; left; split; congruence|discriminate]|]. destruct (1 =? l) eqn:E1; [|discriminate]. apply Z.eqb_eq in E1. cbn [l_workers lookup]. destruct (0 =? w) eqn:E2; [apply Z.eqb_eq in E2; intros _; right; split; congruence|discriminate].
Qed.
Example C91_nonvacuous : Forall2 (fun a f => open_file (fst a) (snd a) = Ok f) ex_args ex_fs /\ (exists lo hi, load isort ex_args = Ok (ex_trace, lo, hi, 6%nat)) /\ (forall f, In f ex_fs -> 0 <= f_loc f < 2 ^ 31 - 1) /\
  (forall l w evs j, events_of ex_trace l w = Some evs -> in_turn (as_events evs) j) /\
  exists d, write_database ex_trace (gid ex_fs) None = (d, Ok tt) /\ localities d = [0; 1] /\ workers d = [mkWR 2 2 0; mkWR 0 0 1] /\ map er_time (events d) = [0; 10; 15; 20; 30; 7] /\
    segments d = [mkSR 0 2 1 2 10 15 0 2; mkSR 1 2 3 4 20 30 0 2].
Proof.
  split; [repeat constructor|]. split; [eexists; eexists; reflexivity|]. split; [intros f I; repeat (destruct I as [<-|I]; [cbn; lia|]); destruct I|]. split.
  - intros l w evs j H. destruct (ex_events l w evs H) as [[-> ->]|[-> ->]]; injection H as <-; apply in_turn_checked; reflexivity.
  - eexists. split; [vm_compute; reflexivity|]. split; [reflexivity|]. split; [reflexivity|]. split; reflexivity.
Qed.
(** Two starts on end: the second is refused, and no event is kept. *)
Definition ex_bad : trace := match load isort [ex_begin] with Ok (t, _, _, _) => t | Fail _ => new_trace end.
Example C91_stopped_nonvacuous : (exists lo hi, load isort [ex_begin] = Ok (ex_bad, lo, hi, 2%nat)) /\ (exists evs, events_of ex_bad 0 2 = Some evs /\ in_turn (as_events evs) 0 /\ ~ in_turn (as_events evs) 1) /\
  exists d, write_database ex_bad (gid [mkFile 0 2 (Begin StoT) [120; 110]]) None = (d, Fail BadOp) /\ workers d = [mkWR 0 2 0] /\ length (types d) = 1%nat /\ events d = [].
Proof.
  split; [eexists; eexists; reflexivity|]. split.
  - eexists. split; [reflexivity|]. split; [intros e E _; injection E as <-; reflexivity|]. intros H. specialize (H _ eq_refl). cbn in H. discriminate H. discriminate.
  - eexists. split; [vm_compute; reflexivity|]. split; [reflexivity|]. split; reflexivity.
Qed.

(** A locality with a negative number, which std::stoi accepts (C85), has events but no row of
    its own: the loop over localities starts at 0. *)
Definition ex_minus : text * list Z := ex_file "-1.0.a.b.TRACE_DASHMM_ZEROREF.npy" [5].
Theorem C91_negative_locality_refuted : exists f t lo hi d, open_file (fst ex_minus) (snd ex_minus) = Ok f /\ load isort [ex_minus] = Ok (t, lo, hi, 1%nat) /\ write_database t (gid [f]) None = (d, Ok tt) /\
  (exists r, In r (events d) /\ er_loc r = -1) /\ localities d = [].
Proof.
  eexists; eexists; eexists; eexists; eexists. split; [reflexivity|]. split; [reflexivity|]. split; [vm_compute; reflexivity|]. split; [eexists; split; [left; reflexivity|reflexivity]|reflexivity].
Qed.
Print Assumptions C91_negative_locality_refuted.
(** No name is stored as it is: each has one byte too many, which scripts/utilization.py cuts
    off again. *)
Theorem C91_names_refuted : exists d, write_database ex_trace (gid ex_fs) None = (d, Ok tt) /\ types d <> [] /\ (forall r k, In r (types d) -> tr_name r <> spoken k) /\
  exists r, In r (types d) /\ tr_name r = spoken (Begin StoT) ++ [zero].
Proof.
  eexists. split; [vm_compute; reflexivity|]. cbn [types]. split; [discriminate|]. split.
  - intros r k I. assert (Z : In zero (tr_name r)) by (repeat (destruct I as [<-|I]; [cbn; tauto|]); destruct I). intros Q. rewrite Q in Z. clear - Z. destruct k as [[]|[]|]; cbn in Z; repeat (destruct Z as [Z|Z]; [discriminate Z|]); destruct Z.
  - eexists. split; [left; reflexivity|vm_compute; reflexivity].
Qed.
Print Assumptions C91_names_refuted.
(** The ids that segments keep are int: that of event number 2^31 becomes negative. *)
Theorem C91_many_events_refuted : forall typ g loc w s i tc d, open d = true -> 0 < tc < 9999 -> find_text (event_type (Begin w)) typ = Some i ->
  (forall r, In r (events (now d)) -> er_id r < 2 ^ 31) ->
  exists d' c p, event_step typ g loc (2 ^ 31, tc, new_collator) (mkEntry (Begin w) s) d = (d', Ok (2 ^ 31 + 1, tc + 1, c)) /\
    (exists r, In r (events (now d')) /\ er_id r = 2 ^ 31) /\ partial c (segment_id w) = Some p /\ g_begin p = - 2 ^ 31.
Proof.
  intros typ g loc w s i tc d Op Tc Ft Fr. unfold event_step, begin_batch. rewrite (proj2 (Z.eqb_neq tc 0)) by lia. unfold andthen at 1, ret at 1. cbn [e_kind e_stamp event_of]. unfold collate. cbn [sty]. assert (Nz : segment_id w <> 0) by (destruct w; discriminate). rewrite (proj2 (Z.eqb_neq _ _) Nz). cbn [partial new_collator claim full new_segment g_hb g_he andb negb estart]. cbn [e_kind] in Ft. rewrite Ft.
  unfold andthen at 1, insert_event, insert. cbn [er_id]. change (int64 (2 ^ 31)) with (2 ^ 31). destruct (existsb _ (events (now d))) eqn:Ex; [exfalso; apply existsb_exists in Ex; destruct Ex as (r & I & Q); apply Z.eqb_eq in Q; specialize (Fr r I); lia|]. unfold andthen, end_batch. rewrite (proj2 (Z.eqb_neq (tc + 1) 10000)) by lia. unfold ret.
  eexists; eexists; eexists. split; [reflexivity|]. split; [|cbn [partial set_partial]; unfold set_partial; rewrite Z.eqb_refl; split; [reflexivity|reflexivity]]. eexists. split; [cbn [now set_events events]; apply in_or_app; right; left; reflexivity|reflexivity].
Qed.
Print Assumptions C91_many_events_refuted.
