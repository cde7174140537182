(** Windows of a worker, the bars of the workers, and the whole picture. *)
From Coq Require Import ZArith Reals List Bool Lia Lra Psatz Sorting.Sorted.
From Flocq Require Import Core BinarySingleNaN.
From Verif Require Import Base ListFacts TraceModel TraceSpec TraceProofs ReadModel ReadSpec DbModel DbSpec DbLoops DoubleModel DoubleSpec DoubleProofs PlotModel PlotSpec PlotTimes.
Import ListNotations.
Open Scope Z_scope.

(** ** Windows of sorted events *)
Lemma order_filter (f : event -> bool) l : in_order l -> in_order (filter f l).
Proof.
  unfold in_order. induction l as [|e l IH]; intros H; [constructor|]. cbn [map] in H. inversion H as [|? ? Hs Hf]; subst. cbn [filter]. destruct (f e); [|auto]. cbn [map]. constructor; [auto|]. rewrite Forall_forall in *. intros x Hx. apply in_map_iff in Hx. destruct Hx as (e' & <- & I). apply filter_In in I. apply Hf, in_map. tauto.
Qed.
Lemma split_at t l : in_order l -> l = filter (fun e => stamp e <? t) l ++ filter (fun e => t <=? stamp e) l.
Proof.
  unfold in_order. induction l as [|e l IH]; intros H; [reflexivity|]. cbn [map] in H. inversion H as [|? ? Hs Hf]; subst. cbn [filter]. destruct (Z.ltb_spec (stamp e) t).
  - destruct (Z.leb_spec t (stamp e)); [lia|]. cbn [app]. f_equal. apply IH, Hs.
  - destruct (Z.leb_spec t (stamp e)); [|lia]. rewrite Forall_forall in Hf. assert (F : forall x, In x l -> t <= stamp x) by (intros x I; specialize (Hf _ (in_map stamp _ _ I)); lia).
    rewrite (proj2 (filter_none _ _ _)); [|intros x I; specialize (F x I); apply Z.ltb_ge; lia]. cbn [app]. f_equal. symmetry. apply filter_all. intros x I. specialize (F x I). apply Z.leb_le; lia.
Qed.
Lemma split_window a b l : in_order l -> a <= b -> l = filter (fun e => stamp e <? a) l ++ filter (fun e => (a <=? stamp e) && (stamp e <? b)) l ++ filter (fun e => b <=? stamp e) l.
Proof.
  intros H L. rewrite (split_at a l H) at 1. f_equal. rewrite (split_at b (filter (fun e => a <=? stamp e) l) (order_filter _ _ H)). rewrite !filter_filter'. f_equal. apply filter_ext. intros e. destruct (Z.leb_spec a (stamp e)), (Z.leb_spec b (stamp e)); cbn; try reflexivity; lia.
Qed.
Lemma points pp l t : point_contract pp -> in_order l -> pp (fun s => s <? t) (map stamp l) = length (filter (fun e => stamp e <? t) l).
Proof.
  intros Hp H. rewrite (split_at t l H) at 1. rewrite map_app, (Hp _ (map stamp (filter (fun e => stamp e <? t) l))); [apply map_length| |]; intros x I; apply in_map_iff in I; destruct I as (e & <- & I); apply filter_In in I; destruct I as [_ I]; [exact I|]. apply Z.leb_le in I. apply Z.ltb_ge. lia.
Qed.
Lemma slice_window l a b : in_order l -> a <= b -> let p := length (filter (fun e => stamp e <? a) l) in let q := length (filter (fun e => stamp e <? b) l) in
  firstn (q - p) (skipn p l) = filter (fun e => (a <=? stamp e) && (stamp e <? b)) l.
Proof.
  intros H L p q. pose proof (split_window a b l H L) as E. set (A := filter (fun e => stamp e <? a) l) in *. set (B := filter (fun e => (a <=? stamp e) && (stamp e <? b)) l) in *. set (C := filter (fun e => b <=? stamp e) l) in *.
  assert (Q : q = (length A + length B)%nat). { unfold q. rewrite <- app_length. f_equal. pose proof (split_at b l H) as E2. fold C in E2. rewrite E in E2 at 1. rewrite app_assoc in E2. apply app_inv_tail in E2. symmetry. exact E2. }
  rewrite E. unfold p. rewrite skipn_app, skipn_all, Nat.sub_diag. cbn [app skipn]. rewrite Q. replace (length A + length B - length A)%nat with (length B) by lia. rewrite firstn_app, firstn_all, Nat.sub_diag. cbn [firstn]. apply app_nil_r.
Qed.

Section Worker.
Variable pp : (Z -> bool) -> list Z -> nat.
Hypothesis Hp : point_contract pp.
Variable ty : Z.

Definition seen (w : worker) (a b : Z) : list event := filter (fun e => (a <=? stamp e) && (stamp e <? b)) (found w).
Lemma stamps_did w : map e_stamp (w_events w) = map stamp (did w).
Proof. unfold did, as_events. rewrite map_map. apply map_ext. intros [[]]; reflexivity. Qed.
Lemma last_nth (l : list Z) d : l <> [] -> nth_error l (length l - 1) = Some (last l d).
Proof.
  induction l as [|x l IH]; [congruence|]. intros _. destruct l as [|y l]; [reflexivity|]. replace (length (x :: y :: l) - 1)%nat with (S (length (y :: l) - 1)) by (cbn; lia). cbn [nth_error]. rewrite IH by discriminate. reflexivity.
Qed.
Lemma range_worker w a b : worker_in_order ty w -> a <= b -> worker_range pp w a b = Ok (seen w a b).
Proof.
  intros (Lk & Ne & So & _) L. unfold worker_range. rewrite Lk. cbn [negb]. rewrite stamps_did. change (map (fun e => event_of (e_kind e) (e_stamp e)) (w_events w)) with (did w).
  assert (Nd : map stamp (did w) <> []) by (unfold did, as_events; destruct (w_events w); [congruence|discriminate]). unfold range. destruct (Z.ltb_spec b a); [lia|].
  destruct (map stamp (did w)) as [|low r] eqn:E; [congruence|]. cbn [nth_res nth_error bind]. rewrite <- E in *. unfold nth_res. rewrite (last_nth _ 0 Nd). fold (last_time w). cbn [bind].
  assert (Hi : forall e, In e (did w) -> low <= stamp e <= last_time w).
  { intros e I. apply (in_map stamp) in I. split; [|exact (sorted_high _ _ So (last_nth _ 0 Nd) _ I)]. rewrite E in So, I. inversion So as [|? ? _ F]; subst. rewrite Forall_forall in F. destruct I as [<-|I]; [lia|exact (F _ I)]. }
  assert (Lo : low <= last_time w). { destruct (did w) as [|e0 d] eqn:Ed; [discriminate|]. specialize (Hi e0 (or_introl eq_refl)). lia. }
  unfold seen, found. rewrite filter_filter'. destruct (Z.ltb_spec b low) as [C|C].
  - cbn [bind Nat.sub firstn]. f_equal. symmetry. apply filter_none. intros e I. specialize (Hi e I). destruct (Z.ltb_spec (stamp e) b); [lia|]. rewrite !andb_false_r. reflexivity.
  - destruct (Z.leb_spec (last_time w) a) as [D|D].
    + cbn [bind]. rewrite Nat.sub_diag. cbn [firstn]. f_equal. symmetry. apply filter_none. intros e I. specialize (Hi e I). destruct (Z.ltb_spec (stamp e) (last_time w)); [|reflexivity]. destruct (Z.leb_spec a (stamp e)); [lia|reflexivity].
    + cbn [bind]. rewrite !points by assumption. rewrite slice_window; [|exact So|lia]. f_equal. apply filter_ext_in. intros e I. specialize (Hi e I). destruct (Z.leb_spec (Z.max a low) (stamp e)), (Z.ltb_spec (stamp e) (Z.min b (last_time w))), (Z.ltb_spec (stamp e) (last_time w)), (Z.leb_spec a (stamp e)), (Z.ltb_spec (stamp e) b); cbn; try reflexivity; lia.
Qed.

(** ** Alternation *)
Definition after (b : bool) (l : list event) : bool := fold_left (fun _ e => estart e) l b.
Lemma alternate_app l m : forall b, alternate b (l ++ m) <-> alternate b l /\ alternate (after b l) m.
Proof.
  induction l as [|e l IH]; intros b; [cbn; tauto|]. cbn [app alternate after fold_left]. rewrite IH. unfold after. split.
  - intros (A & B & C & D). repeat split; try assumption. rewrite A. exact D.
  - intros ((A & B & C) & D). rewrite A in D. tauto.
Qed.
Lemma busy_after l : forall b t, (forall e, In e l -> stamp e <= t) -> busy b l t = after b l.
Proof.
  induction l as [|e l IH]; intros b t H; [reflexivity|]. unfold busy, after. cbn [fold_left]. destruct (Z.leb_spec (stamp e) t); [|specialize (H e (or_introl eq_refl)); lia]. apply IH. intros x I. apply H. right. exact I.
Qed.
Lemma busy_app l m b t : busy b (l ++ m) t = busy (busy b l t) m t.
Proof. unfold busy. apply fold_left_app. Qed.
Lemma zseq_range a n x : In x (zseq a n) -> a <= x < a + Z.of_nat n.
Proof. unfold zseq. intros I. apply in_map_iff in I. destruct I as (k & <- & I). apply in_seq in I. lia. Qed.
Lemma busy_inside l a b : in_order l -> a <= b ->
  busy_time false l a b = busy_time (after false (filter (fun e => stamp e <? a) l)) (filter (fun e => (a <=? stamp e) && (stamp e <? b)) l) a b.
Proof.
  intros H L. unfold busy_time. do 2 f_equal. apply filter_ext_in. intros t I. apply zseq_range in I. rewrite (split_window a b l H L) at 1. rewrite !busy_app. rewrite (busy_past (filter (fun e => b <=? stamp e) l)); [|intros e J; apply filter_In in J; destruct J as [_ J]; apply Z.leb_le in J; lia].
  rewrite (busy_after (filter (fun e => stamp e <? a) l)); [reflexivity|]. intros e J. apply filter_In in J. destruct J as [_ J]. apply Z.ltb_lt in J. lia.
Qed.
Lemma separated_part l m r : separated (l ++ m ++ r) -> separated m.
Proof.
  intros H k e f E F St. apply (H (length l + k)%nat e f); [| |exact St]; rewrite nth_error_app2 by lia.
  - replace (length l + k - length l)%nat with k by lia. rewrite nth_error_app1; [exact E|apply nth_error_Some; congruence].
  - replace (S (length l + k) - length l)%nat with (S k) by lia. rewrite nth_error_app1; [exact F|apply nth_error_Some; congruence].
Qed.
Lemma of_type_filter f l : of_type ty (filter f l) = filter f (of_type ty l).
Proof. unfold of_type. rewrite !filter_filter'. apply filter_ext. intros e. apply andb_comm. Qed.
Lemma busy_bound b l a c : a <= c -> 0 <= busy_time b l a c <= c - a.
Proof.
  intros H. unfold busy_time. split; [lia|]. pose proof (filter_length_le _ (busy b l) (zseq a (Z.to_nat (c - a)))) as L. rewrite zseq_len in L. lia.
Qed.

Lemma found_ok w : worker_in_order ty w -> in_order (found w) /\ alternate false (of_type ty (found w)) /\ separated (of_type ty (found w)).
Proof.
  intros (_ & _ & So & _ & Al & Se). split; [apply order_filter, So|]. unfold found. rewrite of_type_filter. pose proof (split_at (last_time w) (of_type ty (did w)) (order_filter _ _ So)) as E. split.
  - rewrite E in Al. apply alternate_app in Al. tauto.
  - rewrite E in Se. apply (separated_part [] _ _ Se).
Qed.
Lemma touched_iff w a b : touched w ty a b <-> of_type ty (seen w a b) <> [].
Proof.
  split.
  - intros (e & I & T & R) N. assert (J : In e (of_type ty (seen w a b))); [|rewrite N in J; destruct J]. unfold of_type. apply filter_In. split; [|apply Z.eqb_eq, T]. apply filter_In. split; [exact I|]. apply andb_true_iff. split; [apply Z.leb_le|apply Z.ltb_lt]; lia.
  - intros N. destruct (of_type ty (seen w a b)) as [|e l] eqn:E; [congruence|]. assert (J : In e (of_type ty (seen w a b))) by (rewrite E; left; reflexivity). unfold of_type in J. apply filter_In in J. destruct J as [J T]. apply filter_In in J. destruct J as [J R]. apply andb_true_iff in R. destruct R as [R1 R2]. exists e. repeat split; [exact J|apply Z.eqb_eq, T|apply Z.leb_le, R1|apply Z.ltb_lt, R2].
Qed.
Definition covered (w : worker) (a b : Z) : Z := match of_type ty (seen w a b) with [] => 0 | _ => busy_time false (of_type ty (found w)) a b end.
Lemma coverage_worker w a b : worker_in_order ty w -> a <= b -> coverage ty a b (seen w a b) = Ok (covered w a b).
Proof.
  intros W L. destruct (found_ok w W) as (So & Al & Se). unfold covered. pose proof (of_type_filter (fun e => (a <=? stamp e) && (stamp e <? b)) (found w)) as Eo. fold (seen w a b) in Eo.
  destruct (of_type ty (seen w a b)) as [|e l] eqn:E.
  - destruct (seen w a b) as [|x s] eqn:Es; [reflexivity|]. unfold coverage. rewrite foldM_of_type, E. reflexivity.
  - pose proof (split_window a b _ (order_filter (fun e => sty e =? ty) _ So) L) as Ew. change (filter (fun e => sty e =? ty) (found w)) with (of_type ty (found w)) in Ew. rewrite <- Eo in Ew.
    assert (Al' := Al). rewrite Ew in Al'. apply alternate_app in Al'. destruct Al' as [_ Al']. apply alternate_app in Al'. destruct Al' as [Al' _].
    assert (Se' := Se). rewrite Ew in Se'. apply separated_part in Se'.
    destruct (coverage_ok ty a b (seen w a b) (after false (filter (fun e => stamp e <? a) (of_type ty (found w))))) as [C _].
    + apply order_filter, So.
    + intros x I. apply filter_In in I. destruct I as [_ I]. apply andb_true_iff in I. destruct I as [I1 I2]. apply Z.leb_le in I1. apply Z.ltb_lt in I2. lia.
    + exact L.
    + rewrite E. exact Al'.
    + rewrite E. discriminate.
    + rewrite C by (rewrite E; exact Se'). f_equal. rewrite (busy_inside (of_type ty (found w)) a b (order_filter (fun e => sty e =? ty) _ So) L). rewrite <- Eo, E. reflexivity.
Qed.
Lemma covered_bound w a b : a <= b -> 0 <= covered w a b <= b - a.
Proof. intros L. unfold covered. destruct (of_type ty (seen w a b)); [lia|]. apply busy_bound, L. Qed.
Definition shade (w : worker) (a b : Z) : double := match seen w a b with [] => of_int 0 | _ => ddiv (of_int (covered w a b)) (of_int (b - a)) end.
Lemma shade_worker w a b : worker_in_order ty w -> a <= b <= a + 2 ^ 49 -> range_coverage ty a b (seen w a b) = Ok (shade w a b).
Proof.
  intros W L. unfold range_coverage, shade. rewrite (coverage_worker w a b W) by lia. cbn [bind]. pose proof (covered_bound w a b ltac:(lia)). unfold uint64. rewrite !Z.mod_small by lia. destruct (seen w a b); reflexivity.
Qed.
Lemma shade_true w a b : worker_in_order ty w -> a <= b <= a + 2 ^ 49 -> let g := dsub (of_int 1) (shade w a b) in
  is_finite g = true /\ (touched w ty a b -> (Rabs (B2R g - (1 - share (found w) ty a b)) <= 1 / IZR (2 ^ 52))%R) /\ (~ touched w ty a b -> (Rabs (B2R g - (1 - 0)) <= 1 / IZR (2 ^ 52))%R).
Proof.
  intros W L. cbv zeta. rewrite touched_iff. unfold shade. destruct (seen w a b) as [|e s] eqn:Es.
  - destruct shade_none as [F E]. split; [exact F|]. split; [intros N; exfalso; apply N; reflexivity|]. intros _. rewrite E. replace (1 - (1 - 0))%R with 0%R by lra. rewrite Rabs_R0. change (IZR (2 ^ 52)) with 4503599627370496%R. lra.
  - assert (D : a < b). { assert (I : In e (seen w a b)) by (rewrite Es; left; reflexivity). apply filter_In in I. destruct I as [_ I]. apply andb_true_iff in I. destruct I as [I1 I2]. apply Z.leb_le in I1. apply Z.ltb_lt in I2. lia. }
    destruct (shade_ok (covered w a b) (b - a)) as [F E]; [apply covered_bound; lia|lia|]. split; [exact F|]. unfold covered in *. rewrite Es in *. split.
    + intros N. destruct (of_type ty (e :: s)) eqn:Eo; [congruence|]. exact E.
    + intros N. destruct (of_type ty (e :: s)) eqn:Eo; [|exfalso; apply N; discriminate]. replace (IZR 0 / IZR (b - a))%R with 0%R in E by (unfold Rdiv; rewrite Rmult_0_l; reflexivity). exact E.
Qed.
End Worker.
