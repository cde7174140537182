(** The whole of loading a trace. *)
From Coq Require Import String Ascii ZArith List Bool Arith Lia Permutation Sorted.
From Verif Require Import Base ListFacts TraceModel ReadModel ReadSpec ReadProofs ReadTrace.
Import ListNotations.
Open Scope Z_scope.

(** ** Smallest and largest *)
Lemma fold_min {A} (f : A -> res Z) (g : Z -> A) ks : (forall k, In k ks -> exists v, f (g k) = Ok v) -> forall r, exists v, foldM (fun r '(_, a) => do m <- f a; Ok (Z.min r m)) (keyed g ks) r = Ok v /\ v <= r /\
  (forall k x, In k ks -> f (g k) = Ok x -> v <= x) /\ (v = r \/ exists k, In k ks /\ f (g k) = Ok v).
Proof.
  induction ks as [|k ks IH]; intros H r; [exists r; split; [reflexivity|]; split; [lia|]; split; [intros k x []|left; reflexivity]|]. destruct (H k (or_introl eq_refl)) as [x Ex]. destruct (IH (fun y Hy => H y (or_intror Hy)) (Z.min r x)) as (v & E & L & B & At). exists v. cbn [keyed map foldM]. rewrite Ex. cbn [bind]. split; [exact E|]. split; [lia|]. split.
  - intros y z [<-|I] Ez; [rewrite Ex in Ez; injection Ez as <-; lia|eapply B; eassumption].
  - destruct At as [->|(y & I & Ey)]; [|right; exists y; split; [right; exact I|exact Ey]]. destruct (Z.min_spec r x) as [[_ Q]|[_ Q]]; rewrite Q; [left; reflexivity|right; exists k; split; [left; reflexivity|exact Ex]].
Qed.
Lemma fold_max {A} (f : A -> res Z) (g : Z -> A) ks : (forall k, In k ks -> exists v, f (g k) = Ok v) -> forall r, exists v, foldM (fun r '(_, a) => do m <- f a; Ok (Z.max r m)) (keyed g ks) r = Ok v /\ r <= v /\
  (forall k x, In k ks -> f (g k) = Ok x -> x <= v) /\ (v = r \/ exists k, In k ks /\ f (g k) = Ok v).
Proof.
  induction ks as [|k ks IH]; intros H r; [exists r; split; [reflexivity|]; split; [lia|]; split; [intros k x []|left; reflexivity]|]. destruct (H k (or_introl eq_refl)) as [x Ex]. destruct (IH (fun y Hy => H y (or_intror Hy)) (Z.max r x)) as (v & E & L & B & At). exists v. cbn [keyed map foldM]. rewrite Ex. cbn [bind]. split; [exact E|]. split; [lia|]. split.
  - intros y z [<-|I] Ez; [rewrite Ex in Ez; injection Ez as <-; lia|eapply B; eassumption].
  - destruct At as [->|(y & I & Ey)]; [|right; exists y; split; [right; exact I|exact Ey]]. destruct (Z.max_spec r x) as [[_ Q]|[_ Q]]; rewrite Q; [right; exists k; split; [left; reflexivity|exact Ex]|left; reflexivity].
Qed.
Lemma fold_fails {A} (f : A -> res Z) (op : Z -> Z -> Z) (g : Z -> A) ks k0 : (forall k, In k ks -> f (g k) = Fail Oob \/ exists v, f (g k) = Ok v) -> In k0 ks -> f (g k0) = Fail Oob -> forall r, foldM (fun r '(_, a) => do m <- f a; Ok (op r m)) (keyed g ks) r = Fail Oob.
Proof.
  induction ks as [|k ks IH]; intros H I E r; [destruct I|]. cbn [keyed map foldM]. destruct I as [->|I]; [rewrite E; reflexivity|]. destruct (H k (or_introl eq_refl)) as [Ek|[v Ek]]; rewrite Ek; [reflexivity|]. cbn [bind]. apply IH; [intros y Hy; apply H; right; exact Hy|exact I|exact E].
Qed.

(** ** The trace, its workers given by a function *)
Section Whole.
  Context (locked : bool) (fs : list file) (g : Z -> Z -> worker).
  Definition whole : trace := mkTrace locked (keyed (fun l => mkLoc l (keyed (g l) (wkeys fs l)) locked) (lkeys fs)).
  Lemma whole_events l w : events_of whole l w = if in_dec Z.eq_dec l (lkeys fs) then if in_dec Z.eq_dec w (wkeys fs l) then Some (w_events (g l w)) else None else None.
  Proof. unfold events_of, whole. cbn [t_locs]. rewrite lookup_keyed. destruct (in_dec Z.eq_dec l (lkeys fs)); [|reflexivity]. cbn [l_workers]. rewrite lookup_keyed. destruct (in_dec Z.eq_dec w (wkeys fs l)); reflexivity. Qed.
  Lemma whole_present l w : present fs l w -> events_of whole l w = Some (w_events (g l w)).
  Proof. intros H. apply in_keys in H. destruct H as [H1 H2]. rewrite whole_events. destruct (in_dec Z.eq_dec l (lkeys fs)); [|contradiction]. destruct (in_dec Z.eq_dec w (wkeys fs l)); [reflexivity|contradiction]. Qed.
  Lemma whole_absent l w : ~ present fs l w -> events_of whole l w = None.
  Proof. intros H. rewrite <- in_keys in H. rewrite whole_events. destruct (in_dec Z.eq_dec l (lkeys fs)); [|reflexivity]. destruct (in_dec Z.eq_dec w (wkeys fs l)); [exfalso; apply H; split; assumption|reflexivity]. Qed.
  Lemma first_last w : w_events w <> [] -> (exists v, worker_min w = Ok v) /\ (exists v, worker_max w = Ok v).
  Proof.
    intros N. unfold worker_min, worker_max. destruct (w_events w) as [|e r] eqn:E; [contradiction|]. split; [eexists; reflexivity|]. destruct (nth_error (e :: r) (length (e :: r) - 1)) as [x|] eqn:Ex; [unfold nth_res; rewrite Ex; eexists; reflexivity|]. apply nth_error_None in Ex. cbn [length] in Ex. lia.
  Qed.
  Lemma whole_min : (forall l w, present fs l w -> w_events (g l w) <> []) -> exists v, trace_min whole = Ok v /\ (forall l w x, present fs l w -> worker_min (g l w) = Ok x -> v <= x) /\ (v = 2 ^ 64 - 1 \/ exists l w, present fs l w /\ worker_min (g l w) = Ok v).
  Proof.
    intros H. assert (L : forall l, exists v, locality_min (mkLoc l (keyed (g l) (wkeys fs l)) locked) = Ok v /\ (forall w x, In w (wkeys fs l) -> worker_min (g l w) = Ok x -> v <= x) /\ (v = 2 ^ 64 - 1 \/ exists w, In w (wkeys fs l) /\ worker_min (g l w) = Ok v)).
    { intros l. destruct (fold_min worker_min (g l) (wkeys fs l)) with (r := 2 ^ 64 - 1) as (v & E & _ & B & At); [intros w I; apply first_last, H, wkeys_in, I|]. exists v. split; [exact E|]. split; [exact B|exact At]. }
    destruct (fold_min locality_min (fun l => mkLoc l (keyed (g l) (wkeys fs l)) locked) (lkeys fs)) with (r := 2 ^ 64 - 1) as (v & E & _ & B & At); [intros l _; destruct (L l) as (v & E & _); exists v; exact E|]. exists v. split; [exact E|]. split.
    - intros l w x P Ex. destruct (L l) as (u & Eu & Bu & _). apply in_keys in P. destruct P as [P1 P2]. specialize (B l u P1 Eu). specialize (Bu w x P2 Ex). lia.
    - destruct At as [->|(l & I & El)]; [left; reflexivity|]. destruct (L l) as (u & Eu & _ & Au). rewrite El in Eu. injection Eu as <-. destruct Au as [->|(w & Iw & Ew)]; [left; reflexivity|]. right. exists l, w. split; [apply in_keys; split; assumption|exact Ew].
  Qed.
  Lemma whole_max : (forall l w, present fs l w -> w_events (g l w) <> []) -> exists v, trace_max whole = Ok v /\ (forall l w x, present fs l w -> worker_max (g l w) = Ok x -> x <= v) /\ (v = 0 \/ exists l w, present fs l w /\ worker_max (g l w) = Ok v) /\ 0 <= v.
  Proof.
    intros H. assert (L : forall l, exists v, locality_max (mkLoc l (keyed (g l) (wkeys fs l)) locked) = Ok v /\ (forall w x, In w (wkeys fs l) -> worker_max (g l w) = Ok x -> x <= v) /\ (v = 0 \/ exists w, In w (wkeys fs l) /\ worker_max (g l w) = Ok v)).
    { intros l. destruct (fold_max worker_max (g l) (wkeys fs l)) with (r := 0) as (v & E & _ & B & At); [intros w I; apply first_last, H, wkeys_in, I|]. exists v. split; [exact E|]. split; [exact B|exact At]. }
    destruct (fold_max locality_max (fun l => mkLoc l (keyed (g l) (wkeys fs l)) locked) (lkeys fs)) with (r := 0) as (v & E & Pv & B & At); [intros l _; destruct (L l) as (v & E & _); exists v; exact E|]. exists v. split; [exact E|]. split; [|split; [|exact Pv]].
    - intros l w x P Ex. destruct (L l) as (u & Eu & Bu & _). apply in_keys in P. destruct P as [P1 P2]. specialize (B l u P1 Eu). specialize (Bu w x P2 Ex). lia.
    - destruct At as [->|(l & I & El)]; [left; reflexivity|]. destruct (L l) as (u & Eu & _ & Au). rewrite El in Eu. injection Eu as <-. destruct Au as [->|(w & Iw & Ew)]; [left; reflexivity|]. right. exists l, w. split; [apply in_keys; split; assumption|exact Ew].
  Qed.
  Lemma whole_fails l0 w0 : present fs l0 w0 -> w_events (g l0 w0) = [] -> trace_min whole = Fail Oob.
  Proof.
    intros P E0. assert (W : forall l w, worker_min (g l w) = Fail Oob \/ exists v, worker_min (g l w) = Ok v) by (intros l w; destruct (w_events (g l w)) as [|e r] eqn:E; [left; unfold worker_min; rewrite E; reflexivity|right; apply first_last; rewrite E; discriminate]).
    assert (L : forall l, locality_min (mkLoc l (keyed (g l) (wkeys fs l)) locked) = Fail Oob \/ exists v, locality_min (mkLoc l (keyed (g l) (wkeys fs l)) locked) = Ok v).
    { intros l. unfold locality_min. cbn [l_workers]. generalize (2 ^ 64 - 1). induction (wkeys fs l) as [|w ks IH]; intros r; [right; eexists; reflexivity|]. cbn [keyed map foldM]. destruct (W l w) as [E|[v E]]; rewrite E; [left; reflexivity|]. cbn [bind]. apply IH. }
    apply in_keys in P. destruct P as [P1 P2]. unfold trace_min, whole. cbn [t_locs]. apply (fold_fails locality_min Z.min _ _ l0); [intros l _; apply L|exact P1|]. unfold locality_min. cbn [l_workers]. apply (fold_fails worker_min Z.min _ _ w0); [intros w _; apply W|exact P2|]. unfold worker_min. rewrite E0. reflexivity.
  Qed.
End Whole.

(** ** Counting *)
Lemma fold_sum {A} (f : A -> nat) (g : Z -> A) ks : forall n, fold_left (fun n '(_, a) => (n + f a)%nat) (keyed g ks) n = (n + list_sum (map (fun k => f (g k)) ks))%nat.
Proof. induction ks as [|k ks IH]; intros n; [cbn; lia|]. cbn [keyed map fold_left list_sum fold_right]. fold (keyed g ks). rewrite IH. unfold list_sum. cbn [map fold_right]. lia. Qed.
Lemma sum_ext (h h' : Z -> nat) ks : (forall k, In k ks -> h' k = h k) -> list_sum (map h' ks) = list_sum (map h ks).
Proof. intros H. f_equal. apply map_ext_in, H. Qed.
Lemma sum_ins (h h' : Z -> nat) k d ks : StronglySorted Z.lt ks -> (forall x, x <> k -> h' x = h x) -> (In k ks \/ h k = 0%nat) -> h' k = (h k + d)%nat -> list_sum (map h' (ins k ks)) = (list_sum (map h ks) + d)%nat.
Proof.
  intros S H In0 Hk. induction S as [|x ks S IH F]; [destruct In0 as [[]|Z0]; cbn; lia|]. cbn [ins]. assert (N : forall y, In y ks -> x < y) by (rewrite Forall_forall in F; exact F). destruct (x =? k) eqn:E.
  - apply Z.eqb_eq in E. subst x. cbn [map list_sum fold_right]. change (fold_right Nat.add 0%nat) with list_sum. rewrite (sum_ext h h') by (intros y Hy; apply H; specialize (N y Hy); lia). lia.
  - apply Z.eqb_neq in E. destruct (k <? x) eqn:L.
    + apply Z.ltb_lt in L. assert (Z0 : h k = 0%nat) by (destruct In0 as [[I|I]|Z0]; [congruence|specialize (N k I); lia|exact Z0]). cbn [map list_sum fold_right]. change (fold_right Nat.add 0%nat) with list_sum. rewrite (sum_ext h h') by (intros y Hy; apply H; specialize (N y Hy); lia). rewrite (H x E). lia.
    + cbn [map list_sum fold_right]. change (fold_right Nat.add 0%nat) with list_sum. rewrite IH by (destruct In0 as [[I|I]|Z0]; [congruence|left; exact I|right; exact Z0]). rewrite (H x E). lia.
Qed.
Definition sizes (fs : list file) (l : Z) : nat := list_sum (map (fun w => length (belonging fs l w)) (wkeys fs l)).
Lemma count_all fs : list_sum (map (sizes fs) (lkeys fs)) = list_sum (map (fun f => length (f_stamps f)) fs).
Proof.
  induction fs as [|f fs IH] using rev_ind; [reflexivity|]. rewrite lkeys_snoc, map_app, list_sum_app, <- IH. cbn [map list_sum fold_right]. rewrite Nat.add_0_r. apply sum_ins; [apply lkeys_sorted| | |].
  - intros l N. unfold sizes. rewrite wkeys_other by exact N. apply sum_ext. intros w _. rewrite belonging_other by (left; exact N). reflexivity.
  - destruct (in_dec Z.eq_dec (f_loc f) (lkeys fs)) as [I|N]; [left; exact I|right]. unfold sizes. replace (wkeys fs (f_loc f)) with (@nil Z); [reflexivity|]. destruct (wkeys fs (f_loc f)) as [|w ks] eqn:E; [reflexivity|]. exfalso. apply N. assert (P : present fs (f_loc f) w) by (apply wkeys_in; rewrite E; left; reflexivity). apply in_keys in P. apply P.
  - unfold sizes. rewrite wkeys_here. apply sum_ins; [apply wkeys_sorted| | |].
    + intros w N. rewrite belonging_other by (right; exact N). reflexivity.
    + destruct (in_dec Z.eq_dec (f_worker f) (wkeys fs (f_loc f))) as [I|N]; [left; exact I|right]. rewrite wkeys_in in N. rewrite (absent_belonging _ _ _ N). reflexivity.
    + rewrite belonging_snoc, !Z.eqb_refl, app_length. unfold entries. cbn [andb]. rewrite map_length. reflexivity.
Qed.

(** ** Everything *)
Definition sorted_worker (sort : list entry -> list entry) (z : Z -> Z) (fs : list file) (l w : Z) : worker := mkWorker w l (sort (map (since (z l)) (belonging fs l w))) true.
Lemma ready_whole z fs : ready z fs = whole false fs (shifted z fs).
Proof. reflexivity. Qed.
Lemma canon_whole fs : canon fs = whole false fs (canon_worker fs).
Proof. reflexivity. Qed.
Lemma finalize_ok sort z fs : (forall l w, present fs l w -> belonging fs l w <> []) -> finalize sort (ready z fs) = Ok (whole true fs (sorted_worker sort z fs)).
Proof.
  intros H. assert (N : forall l w, present fs l w -> w_events (shifted z fs l w) <> []) by (intros l w P; unfold shifted; cbn [w_events]; specialize (H l w P); destruct (belonging fs l w); [contradiction|discriminate]).
  unfold finalize. rewrite ready_whole. cbn [t_locked whole]. fold (whole false fs (shifted z fs)). destruct (whole_min false fs (shifted z fs) N) as (lo & E1 & _). destruct (whole_max false fs (shifted z fs) N) as (hi & E2 & _). rewrite E1, E2. cbn [bind]. f_equal. unfold whole. cbn [t_locs]. f_equal. unfold keyed. rewrite map_map. apply map_ext. intros l. f_equal. unfold locality_finalize. cbn [l_locked l_id l_workers]. f_equal. rewrite map_map. apply map_ext. intros w. reflexivity.
Qed.
Lemma count_whole sort z fs : sort_contract sort -> num_events (whole true fs (sorted_worker sort z fs)) = list_sum (map (fun f => length (f_stamps f)) fs).
Proof.
  intros S. unfold num_events, whole. cbn [t_locs]. rewrite (fold_sum locality_events). cbn [Nat.add]. rewrite <- count_all. apply sum_ext. intros l _. unfold locality_events, sizes. cbn [l_workers]. rewrite (fold_sum (fun w => length (w_events w))). cbn [Nat.add]. apply sum_ext. intros w _. unfold sorted_worker. cbn [w_events]. rewrite (Permutation_length (proj1 (S _))). apply map_length.
Qed.
Lemma sorted_ends (l : list entry) : StronglySorted (fun a b => e_stamp a <= e_stamp b) l -> forall w, w_events w = l -> forall e, In e l -> exists lo hi, worker_min w = Ok lo /\ worker_max w = Ok hi /\ lo <= e_stamp e <= hi.
Proof.
  intros So w Ew e He. unfold worker_min, worker_max. rewrite Ew. destruct l as [|a l]; [destruct He|]. exists (e_stamp a). destruct (nth_error (a :: l) (length (a :: l) - 1)) as [b|] eqn:Eb; [|apply nth_error_None in Eb; cbn [length] in Eb; lia]. exists (e_stamp b). split; [reflexivity|]. split; [unfold nth_res; rewrite Eb; reflexivity|]. split.
  - inversion So as [|? ? _ F]; subst. destruct He as [<-|He]; [lia|]. rewrite Forall_forall in F. apply F, He.
  - clear Ew w. revert a e b He Eb So. induction l as [|c l IH]; intros a e b He Eb So; [destruct He as [<-|[]]; cbn in Eb; injection Eb as <-; lia|]. assert (Eb' : nth_error (c :: l) (length (c :: l) - 1) = Some b) by (cbn [length] in *; replace (S (S (length l)) - 1)%nat with (S (S (length l) - 1)) in Eb by lia; exact Eb). inversion So as [|? ? S' F]; subst. destruct He as [<-|He]; [|exact (IH c e b He Eb' S')].
    rewrite Forall_forall in F. specialize (F c (or_introl eq_refl)). specialize (IH c c b (or_introl eq_refl) Eb' S'). lia.
Qed.
Lemma min_in w v : worker_min w = Ok v -> exists e, In e (w_events w) /\ e_stamp e = v.
Proof. unfold worker_min. destruct (w_events w) as [|e r]; [discriminate|]. cbn. intros E. injection E as <-. exists e. split; [left; reflexivity|reflexivity]. Qed.
Lemma max_in w v : worker_max w = Ok v -> exists e, In e (w_events w) /\ e_stamp e = v.
Proof. unfold worker_max, nth_res. destruct (nth_error (w_events w) (length (w_events w) - 1)) as [e|] eqn:Ee; [|discriminate]. cbn. intros E. injection E as <-. exists e. split; [eapply nth_error_In; exact Ee|reflexivity]. Qed.
Lemma stamps_range args fs : Forall (fun a => Forall byte (snd a)) args -> Forall2 (fun a f => open_file (fst a) (snd a) = Ok f) args fs -> Forall (fun f => Forall stamp64 (f_stamps f)) fs.
Proof.
  intros B F. induction F as [|[n b] f args fs H F IH]; [constructor|]. apply Forall_cons_iff in B. destruct B as [B1 B2]. constructor; [|apply IH, B2]. cbn [fst snd] in *. unfold open_file in H. destruct (interpret_filename n) as [[[loc wk] k]|]; [|discriminate]. cbn [bind] in H. destruct (check_and_skip_header b) as [rest|] eqn:Eh; [|discriminate]. cbn [bind] in H. destruct (read_stamps rest) as [l|] eqn:Er; [|discriminate]. injection H as <-. cbn [f_stamps].
  eapply (proj1 (read_range (length rest) rest l (le_n _) _ Er)). Unshelve. unfold check_and_skip_header in Eh. destruct (length b <? 6)%nat; [discriminate|]. destruct (list_eq_dec Z.eq_dec (firstn 6 b) magic); [|discriminate]. cbn [negb] in Eh. destruct (skipn 8 b) as [|x [|y r]] eqn:Es; try discriminate. injection Eh as <-.
  rewrite Forall_forall in *. intros z Hz. apply B1. rewrite <- (firstn_skipn 8 b), Es. apply in_or_app. right. right. right. rewrite <- (firstn_skipn (Z.to_nat (x + 256 * y)) r). apply in_or_app. right. exact Hz.
Qed.
Lemma belonging_range fs l w : Forall (fun f => Forall stamp64 (f_stamps f)) fs -> Forall (fun e => stamp64 (e_stamp e)) (belonging fs l w).
Proof.
  intros F. rewrite Forall_forall in *. intros e He. unfold belonging in He. apply in_concat in He. destruct He as (x & Hx & He). apply in_map_iff in Hx. destruct Hx as (f & <- & Hf). apply filter_In in Hf. destruct Hf as [Hf _]. apply in_map_iff in He. destruct He as (s & <- & Hs). cbn [e_stamp]. specialize (F f Hf). rewrite Forall_forall in F. apply F, Hs.
Qed.
Lemma since_range z e : stamp64 (e_stamp e) -> stamp64 (e_stamp (since z e)).
Proof. intros H. unfold since. destruct (z =? 0); [exact H|]. cbn [e_stamp]. unfold stamp64. apply Z.mod_pos_bound. lia. Qed.

Theorem loaded sort args fs : sort_contract sort -> Forall (fun a => Forall byte (snd a)) args -> Forall2 (fun a f => open_file (fst a) (snd a) = Ok f) args fs -> (forall l w, present fs l w -> belonging fs l w <> []) ->
  exists t lo hi, load sort args = Ok (t, lo, hi, list_sum (map (fun f => length (f_stamps f)) fs)) /\
    (forall l w, present fs l w -> exists z evs, zero_of fs l z /\ events_of t l w = Some evs /\ Permutation evs (map (since z) (belonging fs l w)) /\ StronglySorted (fun a b => e_stamp a <= e_stamp b) evs) /\
    (forall l w, ~ present fs l w -> events_of t l w = None) /\
    (forall l w evs e, events_of t l w = Some evs -> In e evs -> lo <= e_stamp e <= hi) /\
    (fs <> [] -> exists l w evs e l' w' evs' e', events_of t l w = Some evs /\ In e evs /\ e_stamp e = lo /\ events_of t l' w' = Some evs' /\ In e' evs' /\ e_stamp e' = hi) /\
    (forall f, trace_add t f = Fail BadOp).
Proof.
  intros S By Op Ne. pose proof (stamps_range args fs By Op) as Rg. unfold load. change new_trace with (canon []). rewrite (add_all args fs Op []). cbn [app bind]. destruct (reset_ok fs Ne) as (z & Z1 & Z2). rewrite Z2. cbn [bind]. rewrite (finalize_ok sort z fs Ne). cbn [bind]. set (g := sorted_worker sort z fs). set (t := whole true fs g).
  assert (Ev : forall l w, Permutation (w_events (g l w)) (map (since (z l)) (belonging fs l w)) /\ StronglySorted (fun a b => e_stamp a <= e_stamp b) (w_events (g l w))) by (intros l w; apply S).
  assert (N : forall l w, present fs l w -> w_events (g l w) <> []). { intros l w P C. destruct (Ev l w) as [Pm _]. rewrite C in Pm. apply Permutation_nil in Pm. apply (Ne l w P). destruct (belonging fs l w); [reflexivity|discriminate]. }
  assert (Rv : forall l w e, In e (w_events (g l w)) -> stamp64 (e_stamp e)). { intros l w e He. apply (Permutation_in _ (proj1 (Ev l w))) in He. apply in_map_iff in He. destruct He as (x & <- & Hx). apply since_range. pose proof (belonging_range fs l w Rg) as F. rewrite Forall_forall in F. apply F, Hx. }
  destruct (whole_min true fs g N) as (lo & E1 & B1 & A1). destruct (whole_max true fs g N) as (hi & E2 & B2 & A2 & P2). fold t in E1, E2. rewrite E1, E2. cbn [bind]. exists t, lo, hi. split; [do 2 f_equal; apply (count_whole sort z fs S)|]. split; [|split; [|split; [|split]]].
  - intros l w P. exists (z l), (w_events (g l w)). split; [apply Z1; apply in_keys in P; apply P|]. split; [apply whole_present, P|apply Ev].
  - intros l w P. apply whole_absent, P.
  - intros l w evs e Ee He. assert (P : present fs l w). { apply in_keys. unfold t in Ee. rewrite whole_events in Ee. destruct (in_dec Z.eq_dec l (lkeys fs)); [|discriminate]. destruct (in_dec Z.eq_dec w (wkeys fs l)); [split; assumption|discriminate]. }
    unfold t in Ee. rewrite (whole_present true fs g l w P) in Ee. injection Ee as <-. destruct (sorted_ends _ (proj2 (Ev l w)) (g l w) eq_refl e He) as (a & b & Ea & Eb & L). specialize (B1 l w a P Ea). specialize (B2 l w b P Eb). lia.
  - intros Nf. assert (Q : exists l w, present fs l w) by (destruct fs as [|f fs']; [contradiction|]; exists (f_loc f), (f_worker f), f; split; [left; reflexivity|split; reflexivity]). destruct Q as (l0 & w0 & P0).
    assert (Lo : exists l w, present fs l w /\ worker_min (g l w) = Ok lo). { destruct A1 as [->|A]; [|exact A]. exists l0, w0. split; [exact P0|]. destruct (first_last (g l0 w0) (N _ _ P0)) as [[v Ev0] _]. rewrite Ev0. f_equal. pose proof (B1 _ _ _ P0 Ev0). apply min_in in Ev0. destruct Ev0 as (e & He & <-). specialize (Rv _ _ _ He). unfold stamp64 in Rv. lia. }
    assert (Hi : exists l w, present fs l w /\ worker_max (g l w) = Ok hi). { destruct A2 as [->|A]; [|exact A]. exists l0, w0. split; [exact P0|]. destruct (first_last (g l0 w0) (N _ _ P0)) as [_ [v Ev0]]. rewrite Ev0. f_equal. pose proof (B2 _ _ _ P0 Ev0). apply max_in in Ev0. destruct Ev0 as (e & He & <-). specialize (Rv _ _ _ He). unfold stamp64 in Rv. lia. }
    destruct Lo as (l & w & P & E). destruct Hi as (l' & w' & P' & E'). apply min_in in E. apply max_in in E'. destruct E as (e & He & Ee), E' as (e' & He' & Ee'). exists l, w, (w_events (g l w)), e, l', w', (w_events (g l' w')), e'. split; [apply whole_present, P|]. split; [exact He|]. split; [exact Ee|]. split; [apply whole_present, P'|]. split; [exact He'|exact Ee'].
  - intros f. reflexivity.
Qed.
(** A worker none of whose files holds an event *)
Theorem empty_fails sort args fs l w : Forall2 (fun a f => open_file (fst a) (snd a) = Ok f) args fs -> present fs l w -> belonging fs l w = [] -> load sort args = Fail Oob.
Proof.
  intros Op P E. unfold load. change new_trace with (canon []). rewrite (add_all args fs Op []). cbn [app bind].
  (* the reference events *)
  assert (Zr : forall l w, get_zeroref (canon_worker fs l w) = Fail Oob \/ exists z, get_zeroref (canon_worker fs l w) = Ok z) by (intros l' w'; unfold get_zeroref, canon_worker; cbn [w_events]; destruct (belonging fs l' w'); [left; reflexivity|right; eexists; reflexivity]).
  assert (Fz : forall l ks z0, find_zero z0 (keyed (canon_worker fs l) ks) = Fail Oob \/ exists z, find_zero z0 (keyed (canon_worker fs l) ks) = Ok z). { intros l' ks. induction ks as [|k ks IH]; intros z0; [right; eexists; reflexivity|]. cbn [keyed map find_zero]. destruct (Zr l' k) as [Q|[z Q]]; rewrite Q; [left; reflexivity|]. cbn [bind]. destruct (z =? no_zero); [apply IH|right; eexists; reflexivity]. }
  assert (One : forall k, zero_reset (canon_loc fs k) = Fail Oob \/ exists h, zero_reset (canon_loc fs k) = Ok (mkLoc k (keyed (fun w => mkWorker w k (map h (belonging fs k w)) false) (wkeys fs k)) false)).
  { intros k. unfold zero_reset, canon_loc. cbn [l_workers l_id l_locked]. destruct (Fz k (wkeys fs k) 0) as [Q|[z Q]]; rewrite Q; [left; reflexivity|]. cbn [bind]. right. destruct (negb (z =? no_zero) && negb (z =? 0)).
    - exists (fun e => mkEntry (e_kind e) ((e_stamp e - z) mod 2 ^ 64)). do 2 f_equal. unfold keyed. rewrite map_map. apply map_ext. intros v. reflexivity.
    - exists (fun e => e). do 2 f_equal. unfold keyed. apply map_ext. intros v. unfold canon_worker. rewrite map_id. reflexivity. }
  assert (Rs : forall ks, StronglySorted Z.lt ks -> mapM (fun '(k, l) => do l' <- zero_reset l; Ok (k, l')) (keyed (canon_loc fs) ks) = Fail Oob \/ exists z : Z -> entry -> entry, mapM (fun '(k, l) => do l' <- zero_reset l; Ok (k, l')) (keyed (canon_loc fs) ks) = Ok (keyed (fun l => mkLoc l (keyed (fun w => mkWorker w l (map (z l) (belonging fs l w)) false) (wkeys fs l)) false) ks)).
  { intros ks S. induction S as [|k ks S IH F]; [right; exists (fun _ e => e); reflexivity|].
    cbn [keyed map mapM]. destruct (One k) as [Q|[h Q]]; rewrite Q; [left; reflexivity|]. cbn [bind]. fold (keyed (canon_loc fs) ks). destruct IH as [Hr|[z Hr]]; rewrite Hr; [left; reflexivity|]. right.
    exists (fun x => if x =? k then h else z x). cbn [bind]. do 2 f_equal; [f_equal; rewrite Z.eqb_refl; reflexivity|]. unfold keyed. apply map_ext_in. intros x I. rewrite Forall_forall in F. specialize (F x I). rewrite (proj2 (Z.eqb_neq x k)) by lia. reflexivity. }
  unfold find_and_reset_zero. unfold canon at 1. cbn [t_locs]. destruct (Rs _ (lkeys_sorted fs)) as [Q|[z Q]]; rewrite Q; [reflexivity|]. cbn [bind]. unfold finalize. cbn [canon t_locked].
  match goal with |- context [trace_min ?t] => change t with (whole false fs (fun l w => mkWorker w l (map (z l) (belonging fs l w)) false)) end.
  rewrite (whole_fails false fs _ l w P); [reflexivity|]. cbn [w_events]. rewrite E. reflexivity.
Qed.
