(** C45, C49, C51: the trace reader. *)
From Coq Require Import ZArith List Bool Lia Sorting.Sorted.
From Verif Require Import Base ListFacts TraceModel TraceSpec TraceProofs.
Import ListNotations.
Open Scope Z_scope.

(** C45.  The window query returns the events in [start, end) except those at the last
    stamp of the trace. *)
Theorem C45_window : forall pp evs start end_ low high, point_contract pp -> StronglySorted Z.le evs -> start <= end_ ->
  nth_error evs 0 = Some low -> nth_error evs (length evs - 1) = Some high ->
  exists a b, range pp evs start end_ = Ok (a, b) /\ (a <= b <= length evs)%nat /\
    slice_of evs a b = filter (fun s => (start <=? s) && (s <? end_) && negb (s =? high)) evs.
Proof.
  intros pp evs start end_ low high Hp Hs Hse El Eh. destruct (range_ok pp evs start end_ low high Hp Hs Hse El Eh) as (a & b & E & B & S).
  exists a, b. split; [assumption|]. split; [assumption|]. rewrite S. apply filter_ext_in. intros x Hx. pose proof (sorted_high evs high Hs Eh x Hx).
  destruct (Z.leb_spec start x), (Z.ltb_spec x (Z.min end_ high)), (Z.ltb_spec x end_), (Z.eqb_spec x high); try reflexivity; lia.
Qed.
Print Assumptions C45_window.

(** Exact precisely if the window does not reach beyond the last stamp. *)
Theorem C45_exact_iff : forall pp evs start end_ low high, point_contract pp -> StronglySorted Z.le evs -> start <= end_ ->
  nth_error evs 0 = Some low -> nth_error evs (length evs - 1) = Some high ->
  exists a b, range pp evs start end_ = Ok (a, b) /\
    (slice_of evs a b = filter (fun s => (start <=? s) && (s <? end_)) evs <-> ~ (start <= high < end_)).
Proof.
  intros pp evs start end_ low high Hp Hs Hse El Eh. destruct (C45_window pp evs start end_ low high Hp Hs Hse El Eh) as (a & b & E & B & S).
  exists a, b. split; [assumption|]. rewrite S. split.
  - intros F W. assert (I : In high (filter (fun s => (start <=? s) && (s <? end_)) evs)) by (apply filter_In; split; [eapply nth_error_In; exact Eh|lia]).
    rewrite <- F in I. apply filter_In in I. destruct I as [_ I]. rewrite Z.eqb_refl in I. rewrite andb_false_r in I. discriminate.
  - intros W. apply filter_ext. intros x. destruct (Z.leb_spec start x), (Z.ltb_spec x end_), (Z.eqb_spec x high); try reflexivity. exfalso. lia.
Qed.
Print Assumptions C45_exact_iff.

Theorem C45_last_events_lost_refuted : forall pp, point_contract pp ->
  exists evs start end_ a b, StronglySorted Z.le evs /\ range pp evs start end_ = Ok (a, b) /\
    slice_of evs a b <> filter (fun s => (start <=? s) && (s <? end_)) evs.
Proof.
  intros pp Hp. assert (S : StronglySorted Z.le [1; 5; 9; 9]) by (repeat constructor; lia).
  destruct (C45_exact_iff pp [1; 5; 9; 9] 2 100 1 9 Hp S ltac:(lia) eq_refl eq_refl) as (a & b & E & F).
  exists [1; 5; 9; 9], 2, 100, a, b. split; [assumption|]. split; [assumption|]. intros X. apply F in X. apply X. lia.
Qed.
Print Assumptions C45_last_events_lost_refuted.

Definition ex_pp (t : Z -> bool) (l : list Z) : nat := length (filter t l).
Example C45_nonvacuous : point_contract ex_pp /\ range ex_pp [1; 5; 5; 9; 9] 2 9 = Ok (1, 3)%nat /\ slice_of [1; 5; 5; 9; 9] 1 3 = [5; 5] /\ range ex_pp [] 2 3 = Fail Oob.
Proof.
  split; [|repeat split; reflexivity]. intros t a b Ha Hb. unfold ex_pp. rewrite filter_app, (filter_all _ _ _ Ha), (proj2 (filter_none _ _ _) Hb), app_nil_r. reflexivity.
Qed.

(** C49.  The collator accepts events exactly up to the first one that is out of turn;
    what it has then are the pairs of the accepted events, in the order of their ends,
    with the right ids, times, locality and worker. *)
Theorem C49_pairs : forall base loc w evs, exists n c,
  collate_all new_collator base loc w evs = (n, c) /\ (n <= length evs)%nat /\
  (forall j, (j < n)%nat -> in_turn evs j) /\ ((n < length evs)%nat -> ~ in_turn evs n) /\
  exists js, StronglySorted lt js /\ (forall j, In j js <-> closes (firstn n evs) j) /\
    Forall2 (fun g j => exists i ei ej, nth_error (firstn n evs) i = Some ei /\ nth_error (firstn n evs) j = Some ej /\ just_before (firstn n evs) i j (sty ej) /\
       g = mkSeg (sty ej) (base + Z.of_nat i) (base + Z.of_nat j) loc w (stamp ei) (stamp ej) true true) (done c) js.
Proof.
  intros base loc w evs. destruct (all_ok base loc w evs [] new_collator) as (n & c & E & L & H1 & H2 & H3 & _).
  - split; [intros s _; reflexivity|]. exists []. split; [constructor|]. split; [|constructor]. intros j. split; [intros []|]. intros (e & N & _). destruct j; discriminate.
  - exists n, c. cbn [length app] in *. change (Z.of_nat 0) with 0 in E. rewrite Z.add_0_r in E. auto.
Qed.
Print Assumptions C49_pairs.

(** After a stream in turn the collator holds, for each type, the start that has no end
    yet and nothing else. *)
Theorem C49_no_stale : forall base loc w evs, (forall j, in_turn evs j) ->
  exists c, collate_all new_collator base loc w evs = (length evs, c) /\
  forall s, s <> 0 -> if Nat.even (length (of_type s evs)) then partial c s = None
    else exists i e, nth_error evs i = Some e /\ just_before evs i (length evs) s /\ partial c s = Some (mkSeg (sty e) (base + Z.of_nat i) (-1) loc w (stamp e) 0 true false).
Proof.
  intros base loc w evs T. destruct (all_ok base loc w evs [] new_collator) as (n & c & E & L & H1 & H2 & _ & H4).
  - split; [intros s _; reflexivity|]. exists []. split; [constructor|]. split; [|constructor]. intros j. split; [intros []|]. intros (e & N & _). destruct j; discriminate.
  - cbn [length app] in *. change (Z.of_nat 0) with 0 in E. rewrite Z.add_0_r in E. destruct (Nat.eq_dec n (length evs)) as [->|D]; [|exfalso; apply H2; [lia|apply T]].
    exists c. split; [assumption|]. intros s Hs. specialize (H4 eq_refl s Hs). rewrite earlier_all in H4. exact H4.
Qed.
Print Assumptions C49_no_stale.

(** Combining the collators of the workers keeps every segment. *)
Theorem C49_combine : forall c d g, In g (done (combine c d)) <-> In g (done c) \/ In g (done d).
Proof. intros. apply in_app_iff. Qed.
Print Assumptions C49_combine.

(** Whatever is fed to a collator, in whatever order and by whichever workers, no
    segment pairs events of different types, localities or workers, or an end with
    an end. *)
Theorem C49_any_calls : forall calls g, In g (done (feed calls)) -> made_of calls g.
Proof. intros calls. apply fed_all. Qed.
Print Assumptions C49_any_calls.

(** An event while a segment of its type is open: taken if it is an end from the
    same locality and worker, and then it makes one segment; otherwise refused
    and nothing changes. *)
Theorem C49_mismatch_refused : forall c e eid loc w g, sty e <> 0 -> partial c (sty e) = Some g ->
  g_hb g = true -> g_he g = false -> g_id g = sty e ->
  (eend e = true /\ loc = g_loc g /\ w = g_worker g ->
     fst (collate c e eid loc w) = true /\
     done (snd (collate c e eid loc w)) = done c ++ [mkSeg (sty e) (g_begin g) eid (g_loc g) (g_worker g) (g_start g) (stamp e) true true]) /\
  (~ (eend e = true /\ loc = g_loc g /\ w = g_worker g) ->
     fst (collate c e eid loc w) = false /\ done (snd (collate c e eid loc w)) = done c /\
     forall s, partial (snd (collate c e eid loc w)) s = partial c s).
Proof.
  intros c e eid loc w g N P B F I. unfold collate. destruct (Z.eqb_spec (sty e) 0); [contradiction|]. rewrite P.
  unfold claim, full at 1 3 5 7 9. rewrite B, F, I, Z.eqb_refl. cbn [andb negb].
  assert (K : forall s, set_partial (partial c) (sty e) (Some g) s = partial c s).
  { intros s. unfold set_partial. destruct (Z.eqb_spec s (sty e)) as [->|]; [symmetry|]; auto. }
  destruct (Z.eqb_spec loc (g_loc g)), (Z.eqb_spec (g_worker g) w), (eend e) eqn:E; cbn [negb orb andb full g_hb g_he fst snd done partial];
    (split; [intros (X1 & X2 & X3); try discriminate; try congruence; auto|intros X; try (exfalso; apply X; auto; fail); auto]).
Qed.
Print Assumptions C49_mismatch_refused.

Example C49_nonvacuous_mixed :
  let c := feed [(mkE 1 3 true false, 0, 0, 7); (mkE 2 3 false true, 1, 0, 8); (mkE 3 3 true false, 2, 0, 7); (mkE 4 3 false true, 3, 0, 7)] in
  done c = [mkSeg 3 0 3 0 7 1 4 true true] /\
  fst (collate (feed [(mkE 1 3 true false, 0, 0, 7)]) (mkE 2 3 false true) 1 0 8) = false.
Proof. vm_compute. auto. Qed.

Definition ex_evs : list event := [mkE 1 3 true false; mkE 2 0 false false; mkE 4 5 true false; mkE 6 3 false true; mkE 7 3 true false; mkE 9 5 false true].
Example C49_nonvacuous :
  (let '(n, c) := collate_all new_collator 10 0 7 ex_evs in
   n = 6%nat /\ done c = [mkSeg 3 10 13 0 7 1 6 true true; mkSeg 5 12 15 0 7 4 9 true true] /\ partial c 5 = None /\ partial c 3 = Some (mkSeg 3 14 (-1) 0 7 7 0 true false)) /\
  (let '(n, c) := collate_all new_collator 10 0 7 (ex_evs ++ [mkE 10 3 true false]) in n = 6%nat /\ length (done c) = 2%nat).
Proof. vm_compute. repeat split. Qed.

(** C51.  The coverage is the number of time units inside a segment, provided an event of
    the type lies in the window and ends and following starts have different stamps. *)
Theorem C51_coverage : forall ty start end_ evs b, StronglySorted Z.le (map stamp evs) -> (forall e, In e evs -> start <= stamp e <= end_) -> start <= end_ ->
  alternate b (of_type ty evs) -> of_type ty evs <> [] ->
  (separated (of_type ty evs) -> coverage ty start end_ evs = Ok (busy_time b (of_type ty evs) start end_)) /\
  (~ separated (of_type ty evs) -> coverage ty start end_ evs = Fail AssertFail).
Proof. intros. apply coverage_ok; auto. intros; contradiction. Qed.
Print Assumptions C51_coverage.

(** A window that lies inside a segment is reported as not covered at all. *)
Theorem C51_inside_segment_refuted : exists all ty start end_,
  StronglySorted Z.le (map stamp all) /\ alternate false (of_type ty all) /\ separated (of_type ty all) /\
  coverage ty start end_ (filter (fun e => (start <=? stamp e) && (stamp e <? end_)) all) = Ok 0 /\
  busy_time false (of_type ty all) start end_ = end_ - start /\ 0 < end_ - start.
Proof.
  exists [mkE 1 2 true false; mkE 9 2 false true], 2, 4, 6. split; [repeat constructor; cbn; lia|]. split; [cbn; auto|]. split.
  - intros k e f N1 N2 S. destruct k as [|[|k]]; cbn in N1, N2; try (destruct k; discriminate); try discriminate. injection N2 as <-. discriminate.
  - vm_compute. auto.
Qed.
Print Assumptions C51_inside_segment_refuted.

(** Two segments that touch stop the program. *)
Theorem C51_touching_refuted : exists all, StronglySorted Z.le (map stamp all) /\ alternate false (of_type 2 all) /\ coverage 2 0 10 all = Fail AssertFail.
Proof.
  exists [mkE 1 2 true false; mkE 3 2 false true; mkE 3 2 true false; mkE 5 2 false true]. split; [repeat constructor; cbn; lia|]. split; [cbn; auto 20|reflexivity].
Qed.
Print Assumptions C51_touching_refuted.

Example C51_nonvacuous :
  let evs := [mkE 3 2 false true; mkE 4 7 true false; mkE 5 2 true false; mkE 5 2 false true; mkE 8 2 true false] in
  alternate true (of_type 2 evs) /\ coverage 2 1 10 evs = Ok 4 /\ busy_time true (of_type 2 evs) 1 10 = 4.
Proof. vm_compute. auto 20. Qed.
