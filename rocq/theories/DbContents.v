(** What the tables hold. *)
From Coq Require Import String Ascii ZArith List Bool Arith Lia Permutation Sorted.
From Verif Require Import Base ListFacts TraceModel TraceSpec TraceProofs TraceProps ReadModel ReadSpec DbModel DbSpec DbProofs DbLoops.
Import ListNotations.
Open Scope Z_scope.

Definition home (w : worker) : Z * Z := (w_loc w, w_id w).
Record fit (t : trace) (gid : Z -> Z -> Z) (m : Z) : Prop := mkFit {
  fit_once : NoDup (map home (workers_of t));
  fit_events : forall l w evs, events_of t l w = Some evs <-> exists x, In x (workers_of t) /\ w_loc x = l /\ w_id x = w /\ w_events x = evs;
  fit_has : forall l, has_locality t l = true <-> exists w evs, events_of t l w = Some evs;
  fit_max : max_locality t = Ok m;
  fit_int : m < 2147483647;
  fit_range : forall l, has_locality t l = true -> 0 <= l <= m;
  fit_gid : NoDup (map (number gid) (workers_of t)) }.

(** ** Places *)
Lemma total_app a b : total (a ++ b) = (total a + total b)%nat.
Proof. unfold total. rewrite map_app, list_sum_app. reflexivity. Qed.
Lemma total_cons w b : total (w :: b) = (length (w_events w) + total b)%nat.
Proof. reflexivity. Qed.
Lemma place_exists ws : forall k, (k < total ws)%nat -> exists pre x post j, ws = pre ++ x :: post /\ (j < length (w_events x))%nat /\ k = (total pre + j)%nat.
Proof.
  induction ws as [|x ws IH]; intros k H; [cbn in H; lia|]. rewrite total_cons in H. destruct (lt_dec k (length (w_events x))) as [L|L]; [exists [], x, ws, k; split; [reflexivity|split; [exact L|reflexivity]]|]. destruct (IH (k - length (w_events x))%nat) as (pre & y & post & j & E & Lj & Ek); [lia|]. exists (x :: pre), y, post, j. subst ws. split; [reflexivity|]. split; [exact Lj|]. rewrite total_cons. lia.
Qed.
Lemma place_unique pre : forall x post j pre' x' post' j', pre ++ x :: post = pre' ++ x' :: post' -> (j < length (w_events x))%nat -> (j' < length (w_events x'))%nat -> (total pre + j = total pre' + j')%nat -> pre = pre' /\ x = x' /\ j = j'.
Proof.
  induction pre as [|y pre IH]; intros x post j pre' x' post' j' E L L' T.
  - destruct pre' as [|y' pre']; cbn [app] in E; injection E as E1 E2; [subst; cbn in T; split; [reflexivity|split; [reflexivity|exact T]]|]. subst. rewrite total_cons in T. change (total []) with O in T. lia.
  - destruct pre' as [|y' pre']; cbn [app] in E; injection E as E1 E2; [subst; rewrite total_cons in T; change (total []) with O in T; lia|]. subst y'. rewrite !total_cons in T. destruct (IH x post j pre' x' post' j' E2 L L') as (A & B & C); [lia|]. subst. split; [reflexivity|split; reflexivity].
Qed.
Fixpoint first_of (ws : list worker) (l w : Z) : nat :=
  match ws with [] => O | x :: ws' => if (w_loc x =? l) && (w_id x =? w) then O else (length (w_events x) + first_of ws' l w)%nat end.
Lemma first_split pre : forall x post, NoDup (map home (pre ++ x :: post)) -> first_of (pre ++ x :: post) (w_loc x) (w_id x) = total pre.
Proof.
  induction pre as [|y pre IH]; intros x post D; cbn [app first_of]; [rewrite !Z.eqb_refl; reflexivity|]. cbn [app map] in D. apply NoDup_cons_iff in D. destruct D as [D1 D2]. rewrite total_cons, IH by exact D2. destruct ((w_loc y =? w_loc x) && (w_id y =? w_id x)) eqn:E; [|reflexivity]. exfalso. apply andb_true_iff in E. destruct E as [E1 E2]. apply Z.eqb_eq in E1, E2. apply D1. rewrite map_app. apply in_or_app. right. left. unfold home. congruence.
Qed.

Lemma rows_nth typ gid pre x post j e : nth_error (w_events x) j = Some e ->
  nth_error (all_rows typ gid 0 (pre ++ x :: post)) (total pre + j) = Some (mkER (Z.of_nat (total pre + j)) (type_number typ e) (w_loc x) (number gid x) (int64 (e_stamp e))).
Proof.
  intros E. rewrite all_rows_app. rewrite nth_error_app2 by (rewrite all_rows_length; lia). rewrite all_rows_length. replace (total pre + j - total pre)%nat with j by lia. cbn [all_rows]. rewrite nth_error_app1 by (rewrite event_rows_length; apply nth_error_Some; congruence). cbn [Nat.add]. rewrite (event_rows_nth typ (number gid x) (w_loc x) (w_events x) (total pre) j e E). reflexivity.
Qed.

(** ** Segments *)
Lemma segments_in gid ws : forall k g, In g (all_segments gid k ws) <-> exists pre x post, ws = pre ++ x :: post /\ In g (done (snd (collated gid (k + total pre) x))).
Proof.
  induction ws as [|x ws IH]; intros k g.
  - split; [intros []|intros (pre & x & post & E & _); destruct pre; discriminate].
  - cbn [all_segments]. rewrite in_app_iff, IH. split.
    + intros [H|(pre & y & post & E & H)]; [exists [], x, ws; split; [reflexivity|]; change (total []) with O; rewrite Nat.add_0_r; exact H|]. exists (x :: pre), y, post. subst ws. split; [reflexivity|]. rewrite total_cons. replace (k + (length (w_events x) + total pre))%nat with (k + length (w_events x) + total pre)%nat by lia. exact H.
    + intros (pre & y & post & E & H). destruct pre as [|z pre]; cbn [app] in E; injection E as <- ->; [left; change (total []) with O in H; rewrite Nat.add_0_r in H; exact H|]. right. exists pre, y, post. split; [reflexivity|]. rewrite total_cons in H. replace (k + length (w_events x) + total pre)%nat with (k + (length (w_events x) + total pre))%nat by lia. exact H.
Qed.
(** The segments of one worker *)
Lemma collated_ok gid k x : (forall j, in_turn (as_events (w_events x)) j) -> exists c, collated gid k x = (length (w_events x), c) /\
  exists js, StronglySorted lt js /\ (forall j, In j js <-> closes (as_events (w_events x)) j) /\
    Forall2 (fun g j => exists i a b, nth_error (w_events x) i = Some a /\ nth_error (w_events x) j = Some b /\ just_before (as_events (w_events x)) i j (segment_of b) /\
      g = mkSeg (segment_of b) (Z.of_nat (k + i)) (Z.of_nat (k + j)) (w_loc x) (number gid x) (e_stamp a) (e_stamp b) true true) (done c) js.
Proof.
  intros Tn. unfold collated. destruct (C49_pairs (Z.of_nat k) (w_loc x) (number gid x) (as_events (w_events x))) as (n & c & E & Ln & _ & Nt & js & J1 & J2 & J3). rewrite E.
  assert (Len : length (as_events (w_events x)) = length (w_events x)) by apply map_length. assert (En : n = length (as_events (w_events x))) by (destruct (Nat.eq_dec n (length (as_events (w_events x)))) as [Q|Q]; [exact Q|exfalso; apply Nt; [lia|apply Tn]]). subst n. rewrite firstn_all in J2, J3. exists c. split; [rewrite Len; reflexivity|]. exists js. split; [exact J1|]. split; [exact J2|].
  clear - J3. induction J3 as [|g j gs js H J3 IH]; [constructor|]. constructor; [|exact IH]. destruct H as (i & ei & ej & Ei & Ej & B & ->). unfold as_events in Ei, Ej. rewrite nth_error_map in Ei, Ej. destruct (nth_error (w_events x) i) as [a|] eqn:Ea; [|discriminate]. destruct (nth_error (w_events x) j) as [b|] eqn:Eb; [|discriminate]. injection Ei as <-. injection Ej as <-. exists i, a, b. split; [first [exact Ea|reflexivity]|]. split; [first [exact Eb|reflexivity]|]. split; [exact B|]. f_equal; try lia; [destruct a as [[]]|destruct b as [[]]]; reflexivity.
Qed.
Lemma Forall2_left {A B} (P : A -> B -> Prop) l m : Forall2 P l m -> forall a, In a l -> exists b, In b m /\ P a b.
Proof. induction 1 as [|a b l m H F IH]; intros x I; [destruct I|]. destruct I as [<-|I]; [exists b; split; [left; reflexivity|exact H]|]. destruct (IH x I) as (y & J & Q). exists y. split; [right; exact J|exact Q]. Qed.
Lemma Forall2_right {A B} (P : A -> B -> Prop) l m : Forall2 P l m -> forall b, In b m -> exists a, In a l /\ P a b.
Proof. induction 1 as [|a b l m H F IH]; intros x I; [destruct I|]. destruct I as [<-|I]; [exists a; split; [left; reflexivity|exact H]|]. destruct (IH x I) as (y & J & Q). exists y. split; [right; exact J|exact Q]. Qed.
Lemma sorted_lt_nodup js : StronglySorted lt js -> NoDup js.
Proof. induction 1 as [|j js S IH F]; [constructor|]. constructor; [|exact IH]. rewrite Forall_forall in F. intros I. specialize (F j I). lia. Qed.
Lemma NoDup_join {A} (l m : list A) : NoDup l -> NoDup m -> (forall a, In a l -> In a m -> False) -> NoDup (l ++ m).
Proof.
  intros D E. induction D as [|a l N D IH]; intros X; [exact E|]. cbn [app]. constructor; [|apply IH; intros b I; apply X; right; exact I]. intros I. apply in_app_or in I. destruct I as [I|I]; [apply N, I|apply (X a); [left; reflexivity|exact I]].
Qed.
Lemma segment_ends gid ws : (forall x j, In x ws -> in_turn (as_events (w_events x)) j) -> forall k, NoDup (map g_end (all_segments gid k ws)) /\ forall g, In g (all_segments gid k ws) -> Z.of_nat k <= g_end g < Z.of_nat (k + total ws).
Proof.
  induction ws as [|x ws IH]; intros Tn k; [split; [constructor|intros g []]|]. cbn [all_segments]. destruct (IH (fun y j I => Tn y j (or_intror I)) (k + length (w_events x))%nat) as [N R]. destruct (collated_ok gid k x (fun j => Tn x j (or_introl eq_refl))) as (c & Ec & js & J1 & J2 & J3). rewrite Ec. cbn [snd].
  assert (Rx : forall g, In g (done c) -> Z.of_nat k <= g_end g < Z.of_nat (k + length (w_events x))). { intros g I. destruct (Forall2_left _ _ _ J3 g I) as (j & _ & i & a & b & _ & Eb & _ & ->). cbn [g_end]. assert (j < length (w_events x))%nat by (apply nth_error_Some; congruence). lia. }
  assert (Ex : map g_end (done c) = map (fun j => Z.of_nat (k + j)) js). { clear - J3. induction J3 as [|g j gs js H J3 IH]; [reflexivity|]. cbn [map]. rewrite IH. destruct H as (i & a & b & _ & _ & _ & ->). reflexivity. }
  split.
  - rewrite map_app. apply NoDup_join; [|exact N|].
    + rewrite Ex. apply FinFun.Injective_map_NoDup; [intros a b H; lia|apply sorted_lt_nodup, J1].
    + intros z I J. apply in_map_iff in I, J. destruct I as (g & <- & I), J as (h & E & J). specialize (Rx g I). specialize (R h J). lia.
  - rewrite total_cons. intros g I. apply in_app_or in I. destruct I as [I|I]; [specialize (Rx g I)|specialize (R g I)]; lia.
Qed.
Lemma segments_few gid ws : (forall x j, In x ws -> in_turn (as_events (w_events x)) j) -> (length (all_segments gid 0 ws) <= total ws)%nat.
Proof.
  intros Tn. destruct (segment_ends gid ws Tn 0) as [N R]. rewrite <- (map_length g_end). rewrite <- (zseq_len 0 (total ws)). apply NoDup_incl_length; [exact N|]. intros z I. apply in_map_iff in I. destruct I as (g & <- & I). apply zseq_in. specialize (R g I). lia.
Qed.
Lemma segment_rows_map k gs : map sr_end (segment_rows k gs) = map g_end gs.
Proof. revert k. induction gs as [|g gs IH]; intros k; [reflexivity|]. cbn [segment_rows map sr_end]. rewrite IH. reflexivity. Qed.
Definition about (g : segment) (r : segment_row) : Prop :=
  sr_segment r = g_id g /\ sr_start r = g_begin g /\ sr_end r = g_end g /\ sr_from r = int64 (g_start g) /\ sr_to r = int64 (g_finish g) /\ sr_loc r = g_loc g /\ sr_worker r = g_worker g.
Lemma segment_rows_in gs : forall k, (forall r, In r (segment_rows k gs) -> exists g, In g gs /\ about g r) /\ (forall g, In g gs -> exists r, In r (segment_rows k gs) /\ about g r).
Proof.
  induction gs as [|g gs IH]; intros k; [split; [intros r []|intros g []]|]. destruct (IH (S k)) as [A B]. cbn [segment_rows]. split.
  - intros r [<-|I]; [exists g; split; [left; reflexivity|repeat split]|]. destruct (A r I) as (h & J & Q). exists h. split; [right; exact J|exact Q].
  - intros h [<-|I]; [eexists; split; [left; reflexivity|repeat split]|]. destruct (B h I) as (r & J & Q). exists r. split; [right; exact J|exact Q].
Qed.

(** ** Everything *)
Section All.
  Context (t : trace) (gid : Z -> Z -> Z) (m : Z) (Fit : fit t gid m).
  Let ws := workers_of t.
  Definition base : tables := mkTables (filter (has_locality t) (zseq 0 (Z.to_nat (m + 1)))) (map (fun w => mkWR (gid (w_loc w) (w_id w)) (w_id w) (w_loc w)) (workers_of t))
    (map (fun '(n, i) => mkNR i (bind_text n)) (segtyp t)) (map (fun '(n, i) => mkNR i (bind_text n)) (evtcls t)) (type_rows t 0 (evttyp t)) [] [].
  Lemma in_events x e : In x ws -> In e (w_events x) -> In e (events_in t).
  Proof. intros I J. unfold events_in. apply in_flat_map. exists x. split; assumption. Qed.
  Lemma segtyp_ids : NoDup (map snd (segtyp t)).
  Proof.
    destruct (note_all (fun e => segment_name (segment_of e)) segment_of (events_in t)) as (D & F & _). fold (segtyp t) in D, F. apply (NoDup_map_inv segment_name). rewrite map_map. replace (map (fun x => segment_name (snd x)) (segtyp t)) with (map fst (segtyp t)); [exact D|]. apply map_ext_in. intros [n v] I. destruct (F n v I) as (e & _ & -> & ->). reflexivity.
  Qed.
  Lemma named_ids (l : list (text * Z)) : map nr_id (map (fun '(n, i) => mkNR i (bind_text n)) l) = map snd l.
  Proof. rewrite map_map. apply map_ext. intros []. reflexivity. Qed.
  Lemma each_pairs (f : text -> Z -> io unit) l : forall d, each (fun _ '(n, i) => f n i) l tt d = each (fun _ a => f (fst a) (snd a)) l tt d.
  Proof. induction l as [|[n i] l IH]; intros d; [reflexivity|]. cbn [each fst snd]. unfold andthen. destruct (f n i d) as [d' [[]|]]; [apply IH|reflexivity]. Qed.
  Lemma pairs_rows (l : list (text * Z)) : map (fun a => mkNR (snd a) (bind_text (fst a))) l = map (fun '(n, i) => mkNR i (bind_text n)) l.
  Proof. apply map_ext. intros []. reflexivity. Qed.
  Definition knows_type (typ : list (text * Z)) (e : entry) (r : type_row) : Prop :=
    In r (types base) /\ find_text (event_type (e_kind e)) typ = Some (tr_id r) /\ tr_name r = bind_text (event_type (e_kind e)) /\ tr_segment r = segment_of e /\ tr_class r = class_number t e.
  Lemma prepared : exists typ, write t gid new_db = andthen (event_table t gid typ) segment_table (saved base) /\ forall e, In e (events_in t) -> exists r, knows_type typ e r.
  Proof.
    destruct Fit as [F1 F2 F3 F4 F5 F6 F7].
    destruct (note_all (fun e => event_type (e_kind e)) (fun e => e) (events_in t)) as (D & N & C). fold (evttyp t) in D, N, C.
    destruct (note_classes (events_in t)) as (G1 & G2 & _ & G4). fold (evtcls t) in G1, G2, G4.
    set (T3 := mkTables (localities base) (workers base) (segment_types base) (classes base) [] [] []).
    destruct (type_loop t (evttyp t) 0 [] T3 D) as (typ & H1 & H2 & _ & H4).
    - intros n _ [].
    - constructor.
    - intros n e I. destruct (N n e I) as (e' & I' & _ & <-). destruct (G4 e I') as [v Iv]. intros E. apply find_none in E. apply E, (in_map fst _ _ Iv).
    - reflexivity.
    - exists typ. split.
      + unfold write. unfold andthen at 1. unfold locality_table. rewrite F4. unfold andthen at 1. change new_db with (saved no_tables). rewrite (insert_each (fun i : Z => i) localities set_localities lens_localities (has_locality t) (fun i => i)).
        2:{ cbn [localities no_tables app]. rewrite !map_id. apply NoDup_filter, zseq_nodup. }
        cbn [localities no_tables app]. rewrite map_id. rewrite (proj2 (Z.eqb_neq m 2147483647)) by lia. cbn [ret]. unfold andthen at 1, worker_table. unfold insert_worker. rewrite (insert_list wr_id workers set_workers lens_workers (fun w => mkWR (gid (w_loc w) (w_id w)) (w_id w) (w_loc w))).
        2:{ cbn [workers no_tables set_localities app]. rewrite map_map. exact F7. }
        unfold andthen at 1, segment_type_table. rewrite each_pairs. unfold insert_segment_type. rewrite (insert_list nr_id segment_types set_segment_types lens_segment_types (fun a => mkNR (snd a) (bind_text (fst a)))).
        2:{ cbn [segment_types no_tables set_localities set_workers app]. rewrite pairs_rows, named_ids. apply segtyp_ids. }
        unfold andthen at 1, class_table. rewrite each_pairs. unfold insert_class. rewrite (insert_list nr_id classes set_classes lens_classes (fun a => mkNR (snd a) (bind_text (fst a)))).
        2:{ cbn [classes no_tables set_localities set_workers set_segment_types app]. rewrite pairs_rows, named_ids. exact G2. }
        rewrite !pairs_rows. unfold type_table. unfold andthen at 1 2. match goal with |- context [saved ?T] => change T with T3 end. cbn [Z.of_nat] in H1. rewrite H1. cbn [fst ret]. reflexivity.
      + intros e I. destruct (C e I) as [e' I']. destruct (N _ _ I') as (e2 & _ & Q & <-). apply type_injective in Q. destruct (H4 _ _ I') as (r & R1 & R2 & R3 & R4 & R5). exists r. split; [exact R1|]. split; [apply find_some; [exact H2|exact R2]|]. split; [exact R3|].
        unfold segment_of, class_number in *. split; [rewrite R4; destruct e' as [k' s'], e as [k s]; cbn [e_kind] in Q; subst; destruct k' as [[]|[]|]; reflexivity|]. rewrite R5, Q. reflexivity.
  Qed.
  Lemma class_row e : In e (events_in t) -> exists r, In r (classes base) /\ nr_id r = class_number t e /\ as_stored (in_lower (class_name (e_kind e))) (nr_name r).
  Proof.
    intros I. destruct (note_classes (events_in t)) as (G1 & _ & _ & G4). fold (evtcls t) in G1, G4. destruct (G4 e I) as [v Iv]. exists (mkNR v (bind_text (event_class (e_kind e)))). split; [cbn [classes base]; apply in_map_iff; exists (event_class (e_kind e), v); split; [reflexivity|exact Iv]|]. cbn [nr_id nr_name]. split; [|rewrite class_spoken; apply stored]. unfold class_number. apply find_some in Iv; [|exact G1]. rewrite Iv. reflexivity.
  Qed.
  Lemma segment_row_of e : In e (events_in t) -> exists r, In r (segment_types base) /\ nr_id r = segment_of e /\ as_stored (work_name (work_of (e_kind e))) (nr_name r).
  Proof.
    intros I. destruct (note_all (fun e => segment_name (segment_of e)) segment_of (events_in t)) as (D & F & C). fold (segtyp t) in D, F, C. destruct (C e I) as [v Iv]. destruct (F _ _ Iv) as (e' & _ & Q & ->). exists (mkNR (segment_of e') (bind_text (segment_name (segment_of e)))). split; [cbn [segment_types base]; apply in_map_iff; eexists; split; [|exact Iv]; reflexivity|]. cbn [nr_id nr_name]. split; [|rewrite segment_spoken; apply stored].
    destruct e as [[[]|[]|] s], e' as [[[]|[]|] s']; try reflexivity; discriminate Q.
  Qed.
  (** Tables that differ from [base] in events and segments only *)
  Definition over_base (d : tables) : Prop := localities d = localities base /\ workers d = workers base /\ segment_types d = segment_types base /\ classes d = classes base /\ types d = types base.
  Lemma base_keys d : over_base d -> NoDup (map er_id (events d)) -> NoDup (map sr_id (segments d)) -> keys_differ d.
  Proof.
    intros (E1 & E2 & E3 & E4 & E5) N1 N2. destruct Fit as [F1 F2 F3 F4 F5 F6 F7]. unfold keys_differ. rewrite E1, E2, E3, E4, E5. split; [apply NoDup_filter, zseq_nodup|]. split; [cbn [workers base]; rewrite map_map; exact F7|]. split; [cbn [segment_types base]; rewrite named_ids; apply segtyp_ids|]. split; [cbn [classes base]; rewrite named_ids; apply note_classes|]. split; [cbn [types base]; rewrite type_rows_ids; apply zseq_nodup|]. split; assumption.
  Qed.
  Lemma base_localities l : In l (localities base) <-> exists w evs, events_of t l w = Some evs.
  Proof.
    destruct Fit as [F1 F2 F3 F4 F5 F6 F7]. cbn [localities base]. rewrite filter_In, zseq_in, F3. split; [intros [_ H]; exact H|]. intros H. split; [|exact H]. apply F3, F6 in H. lia.
  Qed.
  Lemma base_worker x : In x ws -> In (mkWR (number gid x) (w_id x) (w_loc x)) (workers base).
  Proof. intros I. cbn [workers base]. apply in_map_iff. exists x. split; [reflexivity|exact I]. Qed.
  Lemma base_workers d : over_base d -> lists_workers t d.
  Proof.
    intros (E1 & E2 & _). unfold lists_workers. rewrite E1, E2. destruct Fit as [F1 F2 F3 F4 F5 F6 F7]. split; [exact base_localities|]. split.
    - intros l w. split.
      + intros [evs H]. apply F2 in H. destruct H as (x & I & <- & <- & _). exists (number gid x). apply base_worker, I.
      + intros [i H]. cbn [workers base] in H. apply in_map_iff in H. destruct H as (x & Q & I). injection Q as _ <- <-. exists (w_events x). apply F2. exists x. split; [exact I|split; [reflexivity|split; reflexivity]].
    - intros i j l w H H'. cbn [workers base] in H, H'. apply in_map_iff in H, H'. destruct H as (x & Q & I), H' as (y & Q' & J). injection Q as <- <- <-. injection Q' as <- -> ->. reflexivity.
  Qed.
  Definition first (l w : Z) : Z := Z.of_nat (first_of ws l w).
  Lemma first_at pre x post : ws = pre ++ x :: post -> first (w_loc x) (w_id x) = Z.of_nat (total pre).
  Proof. intros E. unfold first. rewrite E, first_split; [reflexivity|]. rewrite <- E. apply (fit_once _ _ _ Fit). Qed.
  Lemma events_split l w evs : events_of t l w = Some evs -> exists pre x post, ws = pre ++ x :: post /\ w_loc x = l /\ w_id x = w /\ w_events x = evs /\ first l w = Z.of_nat (total pre).
  Proof.
    intros H. apply (fit_events _ _ _ Fit) in H. destruct H as (x & I & El & Ew & Ee). apply in_split in I. destruct I as (pre & post & E). exists pre, x, post. split; [exact E|]. split; [exact El|]. split; [exact Ew|]. split; [exact Ee|]. rewrite <- El, <- Ew. apply (first_at pre x post E).
  Qed.
  Lemma events_at pre x post : ws = pre ++ x :: post -> events_of t (w_loc x) (w_id x) = Some (w_events x).
  Proof. intros E. apply (fit_events _ _ _ Fit). exists x. split; [fold ws; rewrite E; apply in_elt|split; [reflexivity|split; reflexivity]]. Qed.
  Lemma numbers_ok : numbered t first (total ws).
  Proof.
    split; [|split].
    - intros l w evs j H L. destruct (events_split l w evs H) as (pre & x & post & E & _ & _ & <- & ->). assert (Tw : total ws = (total pre + (length (w_events x) + total post))%nat) by (rewrite E, total_app, total_cons; reflexivity). lia.
    - intros k [K0 K1]. destruct (place_exists ws (Z.to_nat k)) as (pre & x & post & j & E & L & Ek); [lia|]. exists (w_loc x), (w_id x), (w_events x), j. split; [apply (events_at pre x post E)|]. split; [exact L|]. rewrite (first_at pre x post E). lia.
    - intros l w evs j l' w' evs' j' H L H' L' Q. destruct (events_split l w evs H) as (pre & x & post & E & <- & <- & <- & Ef). destruct (events_split l' w' evs' H') as (pre' & x' & post' & E' & <- & <- & <- & Ef'). rewrite Ef, Ef' in Q. destruct (place_unique pre x post j pre' x' post' j') as (_ & -> & ->); [congruence|exact L|exact L'|lia|]. split; [reflexivity|split; reflexivity].
  Qed.
  Lemma row_tells typ d x e k : over_base d -> In x ws -> In e (w_events x) -> (exists r, knows_type typ e r) -> tells d (w_loc x) (w_id x) e (mkER k (type_number typ e) (w_loc x) (number gid x) (int64 (e_stamp e))).
  Proof.
    intros (E1 & E2 & E3 & E4 & E5) I J (r & R1 & R2 & R3 & R4 & R5). unfold tells. cbn [er_loc er_time er_worker er_type]. rewrite E1, E2, E3, E4, E5. split; [reflexivity|]. split; [apply base_localities; exists (w_id x), (w_events x); apply (fit_events _ _ _ Fit); exists x; split; [exact I|split; [reflexivity|split; reflexivity]]|]. split; [apply int64_time|]. split; [apply base_worker, I|].
    pose proof (in_events x e I J) as Ie. destruct (class_row e Ie) as (cl & C1 & C2 & C3). destruct (segment_row_of e Ie) as (sg & S1 & S2 & S3). exists r, cl, sg. split; [exact R1|]. split; [exact C1|]. split; [exact S1|]. split; [unfold type_number; rewrite R2; reflexivity|]. split; [rewrite R3, type_spoken; apply stored|]. split; [congruence|]. split; [exact C3|]. split; [congruence|exact S3].
  Qed.
  Lemma rows_ok typ d k : (forall e, In e (events_in t) -> exists r, knows_type typ e r) -> over_base d -> events d = firstn k (all_rows typ gid 0 ws) -> (k <= total ws)%nat -> lists_events t d first k.
  Proof.
    intros Ty Ob Ed Lk. unfold lists_events. rewrite Ed. split; [rewrite <- firstn_map, all_rows_ids, firstn_zseq by exact Lk; reflexivity|]. split.
    - intros r I. apply In_nth_error in I. destruct I as [i Ei]. assert (Li : (i < k)%nat). { assert (i < length (firstn k (all_rows typ gid 0 ws)))%nat by (apply nth_error_Some; congruence). rewrite firstn_length in H. lia. } rewrite nth_error_firstn_lt in Ei by exact Li.
      destruct (place_exists ws i) as (pre & x & post & j & E & L & ->); [lia|]. destruct (nth_error (w_events x) j) as [e|] eqn:Ee; [|apply nth_error_None in Ee; lia]. rewrite E, (rows_nth typ gid pre x post j e Ee) in Ei. injection Ei as <-. exists (w_loc x), (w_id x), (w_events x), j, e. split; [apply (events_at pre x post E)|]. split; [exact Ee|]. split; [cbn [er_id]; rewrite (first_at pre x post E); lia|]. assert (Ix : In x ws) by (rewrite E; apply in_elt). assert (Ie : In e (w_events x)) by (eapply nth_error_In; exact Ee). apply row_tells; [exact Ob|exact Ix|exact Ie|apply Ty, (in_events x e Ix Ie)].
    - intros l w evs j e H Ee Lj. destruct (events_split l w evs H) as (pre & x & post & E & <- & <- & <- & Ef). rewrite Ef in Lj |- *. pose proof (rows_nth typ gid pre x post j e Ee) as R. rewrite <- E in R. eexists. split; [|split]; [|cbn [er_id]|].
      + apply (nth_error_In _ (total pre + j)). rewrite nth_error_firstn_lt by lia. exact R.
      + cbn [er_id]. lia.
      + assert (Ix : In x ws) by (rewrite E; apply in_elt). assert (Ie : In e (w_events x)) by (eapply nth_error_In; exact Ee). apply row_tells; [exact Ob|exact Ix|exact Ie|apply Ty, (in_events x e Ix Ie)].
  Qed.
  Lemma spans_ok d pre x post i j a b g r : over_base d -> ws = pre ++ x :: post -> nth_error (w_events x) i = Some a -> nth_error (w_events x) j = Some b -> just_before (as_events (w_events x)) i j (segment_of b) -> closes (as_events (w_events x)) j ->
    g = mkSeg (segment_of b) (Z.of_nat (total pre + i)) (Z.of_nat (total pre + j)) (w_loc x) (number gid x) (e_stamp a) (e_stamp b) true true -> about g r -> spans d first (w_loc x) (w_id x) (w_events x) i j r.
  Proof.
    intros (E1 & E2 & E3 & E4 & E5) E Ea Eb B C -> (A1 & A2 & A3 & A4 & A5 & A6 & A7). cbn [g_id g_begin g_end g_start g_finish g_loc g_worker] in *. exists a, b. rewrite A1, A2, A3, A4, A5, A6, A7, E2, E3, (first_at pre x post E). split; [exact Ea|]. split; [exact Eb|]. split; [exact B|]. split; [exact C|]. split; [lia|]. split; [lia|]. split; [apply int64_time|]. split; [apply int64_time|]. split; [reflexivity|]. assert (Ix : In x ws) by (rewrite E; apply in_elt). split; [apply base_worker, Ix|]. apply segment_row_of, (in_events x b Ix). eapply nth_error_In. exact Eb.
  Qed.
  Lemma segments_ok d : (forall x j, In x ws -> in_turn (as_events (w_events x)) j) -> over_base d -> segments d = segment_rows 0 (all_segments gid 0 ws) -> lists_segments t d first.
  Proof.
    intros Tn Ob Ed. unfold lists_segments. rewrite Ed, segment_rows_ids, segment_rows_length, segment_rows_map. split; [reflexivity|]. split; [apply segment_ends, Tn|]. destruct (segment_rows_in (all_segments gid 0 ws) 0) as [A B]. split.
    - intros r I. destruct (A r I) as (g & Ig & Ab). apply segments_in in Ig. destruct Ig as (pre & x & post & E & Ig). cbn [Nat.add] in Ig. assert (Ix : In x ws) by (rewrite E; apply in_elt). destruct (collated_ok gid (total pre) x (fun j => Tn x j Ix)) as (c & Ec & js & J1 & J2 & J3). rewrite Ec in Ig. cbn [snd] in Ig. destruct (Forall2_left _ _ _ J3 g Ig) as (j & Ij & i & a & b & Ea & Eb & Jb & Eg). exists (w_loc x), (w_id x), (w_events x), i, j. split; [apply (events_at pre x post E)|]. apply (spans_ok d pre x post i j a b g r Ob E Ea Eb Jb); [apply J2, Ij|exact Eg|exact Ab].
    - intros l w evs j H Cl. destruct (events_split l w evs H) as (pre & x & post & E & <- & <- & <- & _). assert (Ix : In x ws) by (rewrite E; apply in_elt). destruct (collated_ok gid (total pre) x (fun j => Tn x j Ix)) as (c & Ec & js & J1 & J2 & J3). apply J2 in Cl. destruct (Forall2_right _ _ _ J3 j Cl) as (g & Ig & i & a & b & Ea & Eb & Jb & Eg). destruct (B g) as (r & Ir & Ab); [apply segments_in; exists pre, x, post; split; [exact E|]; cbn [Nat.add]; rewrite Ec; exact Ig|]. exists r, i. split; [exact Ir|]. apply (spans_ok d pre x post i j a b g r Ob E Ea Eb Jb); [apply J2, Cl|exact Eg|exact Ab].
  Qed.
  Lemma all_fine_ok vs : (forall x j, In x vs -> in_turn (as_events (w_events x)) j) -> forall k, all_fine gid k vs.
  Proof.
    induction vs as [|x vs IH]; intros Tn k; [exact I|]. cbn [all_fine]. split; [|apply IH; intros y j J; apply Tn; right; exact J]. destruct (collated_ok gid k x (fun j => Tn x j (or_introl eq_refl))) as (c & -> & _). reflexivity.
  Qed.

  Theorem written : Z.of_nat (total ws) <= 2 ^ 31 -> (forall l w evs j, events_of t l w = Some evs -> in_turn (as_events evs) j) ->
    exists d, write_database t gid None = (d, Ok tt) /\ keys_differ d /\ lists_workers t d /\ lists_events t d first (total ws) /\ lists_segments t d first.
  Proof.
    intros Sm Tn. assert (Tx : forall x j, In x ws -> in_turn (as_events (w_events x)) j). { intros x j I. apply (Tn (w_loc x) (w_id x)). apply (fit_events _ _ _ Fit). exists x. split; [exact I|split; [reflexivity|split; reflexivity]]. }
    destruct prepared as (typ & Ew & Ty). unfold write_database. rewrite Ew. unfold andthen.
    destruct (events_done typ base gid t ws eq_refl eq_refl) as (c & H1 & H2); [intros w e I J; destruct (Ty e (in_events w e I J)) as (r & _ & R & _); congruence|exact Sm|apply all_fine_ok, Tx|]. rewrite H1. rewrite segments_done; [|reflexivity|rewrite H2; pose proof (segments_few gid ws Tx); lia]. cbn [kept saved].
    set (d := set_segments _ _). assert (Ob : over_base d) by (repeat split). exists d. split; [reflexivity|].
    assert (Le : lists_events t d first (total ws)). { apply (rows_ok typ d); [exact Ty|exact Ob| |lia]. cbn [events d set_segments set_events]. rewrite <- (all_rows_length typ gid ws 0), firstn_all. reflexivity. }
    assert (Ls : lists_segments t d first) by (apply segments_ok; [exact Tx|exact Ob|cbn [segments d set_segments]; rewrite H2; reflexivity]).
    split; [|split; [apply base_workers, Ob|split; [exact Le|exact Ls]]]. apply base_keys; [exact Ob| |]; [destruct Le as [-> _]|destruct Ls as [-> _]]; apply zseq_nodup.
  Qed.
  Theorem stopped l w evs j : Z.of_nat (total ws) <= 2 ^ 31 -> events_of t l w = Some evs -> ~ in_turn (as_events evs) j ->
    (forall l' w' evs' j', events_of t l' w' = Some evs' -> (j' < length evs')%nat -> first l' w' + Z.of_nat j' < first l w + Z.of_nat j -> in_turn (as_events evs') j') ->
    exists d, write_database t gid None = (d, Fail BadOp) /\ keys_differ d /\ lists_workers t d /\ lists_events t d first (Z.to_nat (10000 * ((first l w + Z.of_nat j) / 10000))) /\ segments d = [].
  Proof.
    intros Sm H Nt Be. destruct (events_split l w evs H) as (pre & x & post & E & <- & <- & <- & Ef). rewrite Ef in Be |- *.
    assert (Out : forall es i, (length es <= i)%nat -> in_turn (as_events es) i). { intros es i L e He. exfalso. apply nth_error_None in L. unfold as_events in He. rewrite nth_error_map, L in He. discriminate. }
    assert (Lj : (j < length (w_events x))%nat) by (destruct (lt_dec j (length (w_events x))) as [L|L]; [exact L|exfalso; apply Nt, Out; lia]).
    assert (Tp : forall y i, In y pre -> in_turn (as_events (w_events y)) i). { intros y i I. destruct (lt_dec i (length (w_events y))) as [L|L]; [|apply Out; lia]. apply in_split in I. destruct I as (p1 & p2 & Ep). assert (E' : ws = p1 ++ y :: (p2 ++ x :: post)) by (rewrite E, Ep, <- app_assoc; reflexivity). apply (Be (w_loc y) (w_id y) (w_events y) i); [apply (events_at _ _ _ E')|exact L|]. rewrite (first_at _ _ _ E'). rewrite Ep, total_app, total_cons. lia. }
    assert (Tj : forall i, (i < j)%nat -> in_turn (as_events (w_events x)) i) by (intros i L; apply (Be (w_loc x) (w_id x) (w_events x) i); [apply (events_at pre x post E)|lia|rewrite Ef; lia]).
    destruct prepared as (typ & Ew & Ty). unfold write_database. rewrite Ew. unfold andthen.
    destruct (C49_pairs (Z.of_nat (total pre)) (w_loc x) (number gid x) (as_events (w_events x))) as (n & c & Ec & Ln & Hn & Nn & _). assert (Len : length (as_events (w_events x)) = length (w_events x)) by apply map_length.
    assert (n = j). { destruct (Nat.lt_trichotomy n j) as [L|[L|L]]; [|exact L|]; exfalso; [apply Nn; [lia|apply Tj, L]|apply Nt, Hn, L]. } subst n.
    destruct (events_refused typ base gid t pre x post j c E eq_refl) as (d' & H1 & H2); [intros v e I J; assert (Iv : In v ws) by (rewrite E; exact I); destruct (Ty e (in_events v e Iv J)) as (r & _ & R & _); congruence|rewrite <- E; exact Sm|apply all_fine_ok, Tp|exact Ec|exact Lj|]. rewrite H1. rewrite H2. set (d := set_events _ _). assert (Ob : over_base d) by (repeat split). exists d. split; [reflexivity|].
    replace (Z.of_nat (total pre) + Z.of_nat j) with (Z.of_nat (total pre + j)) by lia. fold (full_batches (Z.of_nat (total pre + j))).
    assert (Le : lists_events t d first (full_batches (Z.of_nat (total pre + j)))). { apply (rows_ok typ d); [exact Ty|exact Ob|cbn [events d set_events]; rewrite <- E; reflexivity|]. pose proof (full_le (Z.of_nat (total pre + j)) ltac:(lia)) as Fl. rewrite Nat2Z.id in Fl. rewrite E, total_app, total_cons. lia. }
    split; [|split; [apply base_workers, Ob|split; [exact Le|reflexivity]]]. apply base_keys; [exact Ob|destruct Le as [-> _]; apply zseq_nodup|constructor].
  Qed.
End All.
