(** C92: the picture of a trace and the table of utilisation. *)
From Coq Require Import ZArith Reals List Bool Lia Lra Psatz Sorting.Sorted.
From Flocq Require Import Core BinarySingleNaN.
From Verif Require Import Base ListFacts TraceModel TraceSpec TraceProofs TraceProps ReadModel ReadSpec ReadProofs ReadTrace ReadLoad DbModel DbSpec DbProofs DbLoops DbContents DbLoaded DoubleModel DoubleSpec DoubleProofs PlotModel PlotSpec PlotTimes PlotProofs PlotPicture.
Import ListNotations.
Open Scope Z_scope.

(** C92.  The picture is [x] columns wide; one bar of [h] rows for every worker, the first on top,
    [p] rows apart; the height is as near to [y] as whole rows allow.  The columns share the time
    between them.  In every column every worker has one square, red by the share of the column's
    time in which the events say it is busy; white if no event of the type was found there. *)
Theorem C92_plot : forall pp ty t x y p ti tf, let n := Z.of_nat (length (workers_of t)) in
  point_contract pp -> in_order_trace ty t -> 1 <= x < 2 ^ 31 -> 1 <= n -> 0 <= p -> p * (n - 1) <= y -> p + y + n < 2 ^ 31 ->
  0 <= ti -> 0 <= tf - ti <= 2 ^ 49 -> tf < 2 ^ 63 ->
  exists h y' sqs edge, plotter pp t x y p ti tf ty = Ok (x, y', sqs) /\
    y' = h * n + p * (n - 1) /\ 0 <= h /\ 2 * Z.abs (y' - y) <= n /\ shared_out edge ti tf x /\
    length sqs = (Z.to_nat x * length (workers_of t))%nat /\
    forall ix k w, 0 <= ix < x -> nth_error (workers_of t) k = Some w -> exists s,
      nth_error sqs (Z.to_nat ix * length (workers_of t) + k) = Some s /\
      stands s (ix + 1) ((n - 1 - Z.of_nat k) * (p + h) + 1) ((n - 1 - Z.of_nat k) * (p + h) + h) /\
      (touched w ty (edge ix) (edge (ix + 1)) -> redness s (share (found w) ty (edge ix) (edge (ix + 1)))) /\
      (~ touched w ty (edge ix) (edge (ix + 1)) -> redness s 0).
Proof.
  intros pp ty t x y p ti tf n Hp Ht Hx Hn Hpad Hy Hb T0 T1 T2. pose proof (total_keys t) as En. fold n in En.
  destruct (height_ok y p n Hn Hpad Hy Hb) as (h & Eh & H0 & Hh). rewrite <- En in *. assert (Tt : 0 <= ti /\ 0 <= tf - ti <= 2 ^ 49 /\ tf < 2 ^ 63) by auto.
  exists h, (h * total_workers t + p * (total_workers t - 1)), (concat (map (fun ix => map (sq ty t x p ti tf h ix) (keys_in (t_locs t))) (zseq 0 (Z.to_nat x)))), (at_ ti tf x). split; [|split; [reflexivity|split; [exact H0|split; [lia|split; [exact (shared ti tf x Hx Tt)|split]]]]].
  - unfold plotter, new_image. rewrite Eh. cbn [bind]. rewrite (plot_ok pp Hp ty t Ht x y p ti tf h Hx Hn Hpad Hb (conj H0 Hh) Tt). reflexivity.
  - rewrite (length_concat _ (length (keys_in (t_locs t)))); [|intros; apply map_length]. rewrite zseq_len. unfold workers_of. rewrite <- keys_workers, map_length. reflexivity.
  - intros ix k w Hi Ek. eapply square_ok; eassumption.
Qed.
Print Assumptions C92_plot.

(** Bars keep apart and inside the picture; they have at least one row if there is room. *)
Theorem C92_bars : forall n p h y', 1 <= n -> 0 <= p -> 1 <= h -> y' = h * n + p * (n - 1) ->
  (forall k, 0 <= k < n -> let low := (n - 1 - k) * (p + h) + 1 in let high := (n - 1 - k) * (p + h) + h in 1 <= low <= high /\ high <= y' /\ high - low + 1 = h) /\
  (forall k l, 0 <= k < l -> l < n -> (n - 1 - l) * (p + h) + h + p < (n - 1 - k) * (p + h) + 1).
Proof. intros n p h y' Hn Hp Hh ->. split; [intros k Hk; cbv zeta; repeat split; nia|intros k l Hk Hl; nia]. Qed.
Print Assumptions C92_bars.
Theorem C92_room : forall n p h y, 1 <= n -> 2 * Z.abs (h * n + p * (n - 1) - y) <= n -> n + p * (n - 1) <= y -> 1 <= h.
Proof. intros. nia. Qed.
Print Assumptions C92_room.
(** With more workers than rows nothing is drawn: the squares end below where they begin. *)
Theorem C92_many_workers_refuted : forall n p h y, 1 <= n -> 0 <= h -> 2 * Z.abs (h * n + p * (n - 1) - y) <= n -> 2 * (y - p * (n - 1)) < n ->
  h = 0 /\ forall k, 0 <= k < n -> (n - 1 - k) * (p + h) + h < (n - 1 - k) * (p + h) + 1.
Proof. intros n p h y Hn H0 H L. assert (h = 0) by nia. subst. split; [reflexivity|intros; lia]. Qed.
Print Assumptions C92_many_workers_refuted.

(** The share is the true one in a column that ends before the worker's last event. *)
Theorem C92_share : forall ty w a b, worker_in_order ty w -> a <= b -> b <= last_time w ->
  share (found w) ty a b = share (did w) ty a b /\ forall e, In e (did w) -> a <= stamp e < b -> In e (found w).
Proof.
  intros ty w a b (_ & _ & So & _) L H. split.
  - unfold share. do 2 f_equal. unfold busy_time. do 2 f_equal. apply filter_ext_in. intros t I. apply zseq_range in I. unfold found. rewrite of_type_filter. rewrite (split_at (last_time w) (of_type ty (did w)) (order_filter _ _ So)) at 2. rewrite busy_app. symmetry. apply busy_past. intros e J. apply filter_In in J. destruct J as [_ J]. apply Z.leb_le in J. lia.
  - intros e I R. apply filter_In. split; [exact I|]. apply Z.ltb_lt. lia.
Qed.
Print Assumptions C92_share.

(** A trace read from files is in order as soon as every worker does one thing after another. *)
Theorem C92_loaded : forall sort args fs t lo hi n ty, sort_contract sort -> Forall2 (fun a f => open_file (fst a) (snd a) = Ok f) args fs -> load sort args = Ok (t, lo, hi, n) ->
  (forall l w evs, events_of t l w = Some evs -> (forall e, In e evs -> 0 <= e_stamp e < 2 ^ 63) /\ alternate false (of_type ty (as_events evs)) /\ separated (of_type ty (as_events evs))) ->
  in_order_trace ty t.
Proof.
  intros sort args fs t lo hi n ty Sc Op Ld H. assert (Ne : forall l w, present fs l w -> belonging fs l w <> []) by (intros l w P Q; rewrite (empty_fails sort args fs l w Op P Q) in Ld; discriminate).
  destruct (loaded_shape sort args fs t lo hi n Op Ld) as (z & -> & _). split; [reflexivity|]. split; [unfold whole; cbn [t_locs]; unfold keyed; rewrite map_map, map_id; apply sorted_nodup, lkeys_sorted|].
  intros i l I. unfold whole in I. cbn [t_locs] in I. unfold keyed in I at 1. apply in_map_iff in I. destruct I as (i' & Q & I). injection Q as -> <-. cbn [l_locked l_workers]. split; [reflexivity|]. split; [unfold keyed; rewrite map_map, map_id; apply sorted_nodup, wkeys_sorted|].
  intros j w J. unfold keyed in J. apply in_map_iff in J. destruct J as (j' & Q & J). injection Q as -> <-. assert (P : present fs i j) by (apply wkeys_in, J). pose proof (whole_present true fs (sorted_worker sort z fs) i j P) as Ev. destruct (H i j _ Ev) as (H1 & H2 & H3). destruct (Sc (map (since (z i)) (belonging fs i j))) as [Pm So].
  split; [reflexivity|]. split; [|split; [|split; [|split; [exact H2|exact H3]]]].
  - unfold sorted_worker. cbn [w_events]. intros Q. rewrite Q in Pm. apply Permutation.Permutation_nil in Pm. apply map_eq_nil in Pm. exact (Ne i j P Pm).
  - rewrite <- stamps_did. unfold sorted_worker. cbn [w_events]. clear - So. induction So as [|e l S IH F]; [constructor|]. cbn [map]. constructor; [exact IH|]. rewrite Forall_forall in *. intros x Hx. apply in_map_iff in Hx. destruct Hx as (y & <- & Hy). exact (F y Hy).
  - intros e He. unfold did, as_events in He. apply in_map_iff in He. destruct He as (y & <- & Hy). specialize (H1 y Hy). destruct (e_kind y); exact H1.
Qed.
Print Assumptions C92_loaded.

(** Three workers on two localities *)
Definition ex_worker (j i : Z) (l : list (kind * Z)) : Z * worker := (j, mkWorker j i (map (fun '(k, s) => mkEntry k s) l) true).
Definition ex_picture : trace := mkTrace true
  [(0, mkLoc 0 [ex_worker 2 0 [(Begin StoT, 10); (End StoT, 30); (Begin StoT, 40); (End StoT, 45); (Begin MtoL, 90)]; ex_worker 5 0 [(Begin StoT, 0); (End StoT, 80)]] true);
   (1, mkLoc 1 [ex_worker 0 1 [(Begin MtoL, 20); (End MtoL, 21)]] true)].
Lemma ex_in_order : in_order_trace 2 ex_picture.
Proof.
  split; [reflexivity|]. split; [repeat constructor; cbn; intuition discriminate|]. intros i l [E|[E|[]]]; injection E as <- <-; (split; [reflexivity|]; split; [repeat constructor; cbn; intuition discriminate|]);
  intros j w I; cbn in I; (repeat (destruct I as [I|I]; [injection I as <- <-|])); try contradiction;
  (split; [reflexivity|]; split; [discriminate|]; split; [cbn; repeat constructor; lia|]; split; [cbn; intros e H; repeat (destruct H as [<-|H]; [cbn; lia|]); contradiction|]; split; [cbn; tauto|]);
  intros k e f N1 N2 Sf; destruct k as [|[|[|[|k]]]]; cbn in N1, N2; try discriminate; try (injection N1 as <-; injection N2 as <-; cbn in *; (lia || discriminate)); destruct k; discriminate.
Qed.
Definition corners (r : res (Z * Z * list square)) : option (Z * Z * list (Z * Z * Z * Z * SpecFloat.spec_float)) :=
  match r with Ok (a, b, l) => Some (a, b, map (fun s => (sq_x1 s, sq_y1 s, sq_x2 s, sq_y2 s, B2SF (sq_green s))) l) | Fail _ => None end.
Notation white := (SpecFloat.S754_finite false 4503599627370496 (-52)).
Example C92_nonvacuous : point_contract ex_pp /\ in_order_trace 2 ex_picture /\
  corners (plotter ex_pp ex_picture 4 10 1 0 80 2) = Some (4, 11,
    [(1, 9, 1, 11, SpecFloat.S754_finite false 4503599627370496 (-53)); (1, 5, 1, 7, SpecFloat.S754_zero false); (1, 1, 1, 3, white);
     (2, 9, 2, 11, SpecFloat.S754_finite false 4503599627370496 (-53)); (2, 5, 2, 7, white); (2, 1, 2, 3, white);
     (3, 9, 3, 11, SpecFloat.S754_finite false 6755399441055744 (-53)); (3, 5, 3, 7, white); (3, 1, 3, 3, white);
     (4, 9, 4, 11, white); (4, 5, 4, 7, white); (4, 1, 4, 3, white)]).
Proof. split; [apply C45_nonvacuous|]. split; [exact ex_in_order|]. vm_compute. reflexivity. Qed.

(** A worker busy all the time is white where it neither begins nor ends anything. *)
Theorem C92_inside_refuted : forall pp, point_contract pp -> exists sqs w s,
  plotter pp ex_picture 4 10 1 0 80 2 = Ok (4, 11, sqs) /\ nth_error (workers_of ex_picture) 1 = Some w /\ share (did w) 2 20 40 = 1%R /\
  nth_error sqs 4 = Some s /\ stands s 2 5 7 /\ redness s 0.
Proof.
  intros pp Hp. destruct (C92_plot pp 2 ex_picture 4 10 1 0 80 Hp ex_in_order) as (h & y' & sqs & edge & P & Ey & H0 & Hh & (S1 & S2 & S3 & S4) & _ & Q); [cbn; lia..|].
  change (Z.of_nat (length (workers_of ex_picture))) with 3 in *. change (length (workers_of ex_picture)) with 3%nat in *. assert (h = 3) by lia. subst h. change (3 * 3 + 1 * (3 - 1)) with 11 in Ey. subst y'.
  assert (E1 : 20 - 1 <= edge 1 <= 20 + 1) by (specialize (S4 1 ltac:(lia)); lia). assert (E2 : 40 - 1 <= edge 2 <= 40 + 1) by (specialize (S4 2 ltac:(lia)); lia).
  destruct (Q 1 1%nat (snd (ex_worker 5 0 [(Begin StoT, 0); (End StoT, 80)])) ltac:(lia) eq_refl) as (s & Es & St & _ & Un). exists sqs, (snd (ex_worker 5 0 [(Begin StoT, 0); (End StoT, 80)])), s. split; [exact P|]. split; [reflexivity|]. split; [|split; [exact Es|split; [exact St|]]].
  - unfold share. replace (busy_time _ _ _ _) with 20 by (vm_compute; reflexivity). change (40 - 20) with 20. field.
  - apply Un. intros (e & I & _ & R). cbn in I. destruct I as [<-|[]]. cbn in R. lia.
Qed.
Print Assumptions C92_inside_refuted.

(** The last event of a worker is not found: what it ended is drawn to the end of the column. *)
Definition ex_short : trace := mkTrace true [(0, mkLoc 0 [ex_worker 0 0 [(Begin StoT, 0); (End StoT, 5)]] true)].
Theorem C92_last_event_refuted : forall pp, point_contract pp -> exists sqs w s,
  plotter pp ex_short 1 10 0 0 80 2 = Ok (1, 10, sqs) /\ nth_error (workers_of ex_short) 0 = Some w /\ share (did w) 2 0 80 = (1 / 16)%R /\
  nth_error sqs 0 = Some s /\ redness s 1.
Proof.
  assert (O : in_order_trace 2 ex_short).
  { split; [reflexivity|]. split; [repeat constructor; cbn; intuition discriminate|]. intros i l [E|[]]. injection E as <- <-. split; [reflexivity|]. split; [repeat constructor; cbn; intuition discriminate|]. intros j w [I|[]]. injection I as <- <-. split; [reflexivity|]. split; [discriminate|]. split; [cbn; repeat constructor; lia|]. split; [cbn; intros e H; repeat (destruct H as [<-|H]; [cbn; lia|]); contradiction|]. split; [cbn; tauto|].
    intros k e f N1 N2 Sf; destruct k as [|[|k]]; cbn in N1, N2; try discriminate; try (injection N1 as <-; injection N2 as <-; cbn in *; (lia || discriminate)); destruct k; discriminate. }
  intros pp Hp. destruct (C92_plot pp 2 ex_short 1 10 0 0 80 Hp O) as (h & y' & sqs & edge & P & Ey & H0 & Hh & (S1 & S2 & S3 & S4) & _ & Q); [cbn; lia..|].
  change (Z.of_nat (length (workers_of ex_short))) with 1 in *. change (length (workers_of ex_short)) with 1%nat in *. assert (h = 10) by lia. subst h. change (10 * 1 + 0 * (1 - 1)) with 10 in Ey. subst y'. destruct (Q 0 0%nat (snd (ex_worker 0 0 [(Begin StoT, 0); (End StoT, 5)])) ltac:(lia) eq_refl) as (s & Es & St & To & _). exists sqs, (snd (ex_worker 0 0 [(Begin StoT, 0); (End StoT, 5)])), s. split; [exact P|]. split; [reflexivity|]. split; [|split; [exact Es|]].
  - unfold share. replace (busy_time _ _ _ _) with 5 by (vm_compute; reflexivity). change (80 - 0) with 80. field.
  - cbn [Z.add] in To. rewrite S1, S2 in To. replace 1%R with (share (found (snd (ex_worker 0 0 [(Begin StoT, 0); (End StoT, 5)]))) 2 0 80); [apply To; exists (mkE 0 2 true false); split; [left; reflexivity|split; [reflexivity|cbn; lia]]|].
    unfold share. replace (busy_time _ _ _ _) with 80 by (vm_compute; reflexivity). change (80 - 0) with 80. field.
Qed.
Print Assumptions C92_last_event_refuted.

(** Without workers there is no height of a bar. *)
Theorem C92_no_workers_refuted : forall pp ty t x y p ti tf, workers_of t = [] -> 0 <= p < 2 ^ 31 -> - 2 ^ 31 <= y + p < 2 ^ 31 -> plotter pp t x y p ti tf ty = Fail DivZero.
Proof.
  intros pp ty t x y p ti tf W Hp Hy. unfold plotter, new_image. rewrite total_keys, W. cbn [length Z.of_nat]. unfold set_bar_height. rewrite (int_ok (p * (0 - 1))) by lia. cbn [bind]. rewrite (int_ok (y - p * (0 - 1))) by lia. cbn [bind].
  set (a := of_int (y - p * (0 - 1))). clearbody a. assert (Z0 : of_int 0 = B754_zero false) by reflexivity. rewrite Z0. assert (Hh : is_finite dhalf = true) by (vm_compute; reflexivity). generalize dependent dhalf. intros d Hh.
  assert (D : dint (dadd (ddiv a (B754_zero false)) d) = Fail DivZero); [|rewrite D; reflexivity]. destruct d as [[]|[]| |[]]; try discriminate; destruct a as [[]|[]| |[]]; reflexivity.
Qed.
Print Assumptions C92_no_workers_refuted.

(** The table of utilisation: its rows have room but no elements, so the first number written is
    written outside. *)
Theorem C92_utilization_refuted : forall pp t ti tf samples segments, 1 <= samples < 2 ^ 31 -> 0 <= ti -> 0 <= tf - ti <= 2 ^ 49 -> tf < 2 ^ 63 ->
  utilization pp t ti tf samples segments = Fail Oob.
Proof.
  intros pp t ti tf samples segments Hs T0 T1 T2. assert (Tt : 0 <= ti /\ 0 <= tf - ti <= 2 ^ 49 /\ tf < 2 ^ 63) by auto. unfold utilization. destruct (Z.ltb_spec samples 0); [lia|]. cbv zeta. destruct (Z.to_nat samples) as [|m] eqn:Em; [lia|]. cbn [zseq seq map foldM]. change (0 + Z.of_nat 0) with 0. unfold sample.
  rewrite (edge_at ti tf samples Hs Tt (0 + 1)) by lia. cbn [bind]. rewrite (edge_at ti tf samples Hs Tt 0) by lia. cbn [bind Z.to_nat repeat]. reflexivity.
Qed.
Print Assumptions C92_utilization_refuted.
Theorem C92_utilization_empty : forall pp t ti tf segments, utilization pp t ti tf 0 segments = Ok [].
Proof. reflexivity. Qed.
Print Assumptions C92_utilization_empty.
