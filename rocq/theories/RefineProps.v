(** C15, C16, C17: adaptive refinement. *)
From Coq Require Import ZArith List Bool Arith Lia Permutation.
From Verif Require Import Base ListFacts IndexModel IndexSpec IndexProofs TreeModel TreeFacts RefineModel RefineSpec RefineProofs RefineProofs2.
Import ListNotations.
Open Scope nat_scope.

(** The records a node owns, in the final array. [off] is where [out] starts. *)
Definition contents {R} (off : nat) (out : list R) (n : tree rnode) : list R :=
  firstn (r_cnt (info n)) (skipn (r_off (info n) - off) out).

Lemma contents_mid : forall R off (out pre mid post : list R) n j, out = pre ++ mid ++ post ->
  info n = mkR j (off + length pre) (length mid) -> contents off out n = mid.
Proof.
  intros R off out pre mid post n j E I. unfold contents. rewrite I. cbn [r_off r_cnt]. replace (off + length pre - off) with (length pre) by lia.
  rewrite E, skipn_app, skipn_all, Nat.sub_diag. cbn [app skipn]. rewrite firstn_app, firstn_all, Nat.sub_diag. cbn. apply app_nil_r.
Qed.

(** Whatever std::partition does within its contract and whatever the tests:
    after refinement the array holds the same records; the leaves' segments
    follow each other and cover it; every node sits at the index of its path, owns
    exactly the records of its cell, and is not empty; a node with at most [thr]
    records has no children, one with more has the non-empty octants as children
    and their segments tile its own. *)
Theorem C15_refinement : forall R (low : axis -> index -> R -> bool) part thr fuel i off l t out,
  partition_contract part -> refine low part thr fuel i off l = Ok (t, out) ->
  Permutation l out /\ info t = mkR i off (length l) /\ consecutive off (leaf_segments t) (off + length l) /\
  forall p n, sub t p = Some n ->
    r_idx (info n) = follow i p /\ length (kids n) = 8 /\
    length (contents off out n) = r_cnt (info n) /\ off <= r_off (info n) /\ r_off (info n) + r_cnt (info n) <= off + length l /\
    Permutation (contents off out n) (members low i p l) /\ 1 <= r_cnt (info n) /\
    (r_cnt (info n) <= thr -> kids n = no_kids) /\
    (thr < r_cnt (info n) -> (forall w, w < 8 -> kid n w = None <-> members low i (p ++ [w]) l = []) /\
                             consecutive (r_off (info n)) (child_segments n) (r_off (info n) + r_cnt (info n))).
Proof.
  intros R low part thr fuel i off l t out Hp H. pose proof (refine_good low part Hp thr _ _ _ _ _ _ H) as (P & I & N).
  split; [assumption|]. split; [assumption|]. split; [eapply refine_leaves; eassumption|]. intros p n S.
  destruct (N p n S) as (pre & mid & post & E & In & Pm & Nm & Lk & Z). rewrite (contents_mid _ _ _ _ _ _ _ _ E In), In. cbn [r_idx r_off r_cnt].
  split; [reflexivity|]. split; [assumption|]. split; [reflexivity|]. split; [lia|].
  split; [rewrite (Permutation_length P), E, !app_length; lia|]. split; [assumption|]. split; [destruct mid; [contradiction|cbn; lia]|].
  destruct (length mid <=? thr) eqn:T; [apply Nat.leb_le in T|apply Nat.leb_gt in T]; split; intros X; try lia; assumption.
Qed.
Print Assumptions C15_refinement.

Lemma members_sub : forall R (low : axis -> index -> R -> bool) i p w l, members low i (p ++ [w]) l <> [] -> members low i p l <> [].
Proof. intros R low i p w l H E. apply H. rewrite members_app, E. reflexivity. Qed.

(** The shape does not depend on what std::partition does: a node is there exactly
    if its cell holds a record and every cell above it holds more than [thr]. *)
Theorem C15_shape : forall R (low : axis -> index -> R -> bool) part thr fuel i off l t out,
  partition_contract part -> refine low part thr fuel i off l = Ok (t, out) ->
  forall p, (exists n, sub t p = Some n) <->
    (members low i p l <> [] /\ forall q q', p = q ++ q' -> q' <> [] -> thr < length (members low i q l)).
Proof.
  intros R low part thr fuel i off l t out Hp H. pose proof (refine_good low part Hp thr _ _ _ _ _ _ H) as HG. pose proof (good_nonempty _ _ _ _ _ _ _ HG) as NE.
  destruct HG as (P & I & N). intros p. induction p as [|w p IH] using rev_ind.
  - split; [|intros _; exists t; reflexivity]. intros _. rewrite members_nil. split; [assumption|]. intros q q' E X. destruct q; [|discriminate]. cbn in E. subst. contradiction.
  - rewrite sub_app. split.
    + intros (n & Hn). destruct (sub t p) as [m|] eqn:Sm; [|discriminate]. destruct (proj1 IH (ex_intro _ m eq_refl)) as [Mp Mq].
      destruct (N p m Sm) as (pre & mid & post & E & In & Pm & Nm & Lk & Z). cbn [sub] in Hn. destruct (kid m w) as [c|] eqn:K; [|discriminate].
      destruct (length mid <=? thr) eqn:T.
      * exfalso. unfold kid in K. rewrite Z in K. destruct (nth_error no_kids w) as [o|] eqn:X; [|discriminate]. apply nth_error_In in X. apply repeat_spec in X. subst. discriminate.
      * destruct Z as [Z _]. assert (Hw : w < 8). { unfold kid in K. destruct (nth_error (kids m) w) eqn:X; [|discriminate]. apply nth_error_bound in X. lia. }
        split. { intros X. apply Z in X; [|assumption]. rewrite X in K. discriminate. }
        intros q q' Eq Nq. destruct (exists_last Nq) as (q0 & v & ->). rewrite app_assoc in Eq. apply app_inj_tail in Eq. destruct Eq as [-> ->].
        destruct q0 as [|x q0]; [|apply (Mq q (x :: q0)); [reflexivity|discriminate]]. rewrite app_nil_r in *. apply Nat.leb_gt in T. rewrite <- (Permutation_length Pm). assumption.
    + intros [Mw Mq]. assert (exists n, sub t p = Some n) as (m & Sm).
      { apply IH. split; [eapply members_sub; eassumption|]. intros q q' E X. apply (Mq q (q' ++ [w])); [rewrite E, app_assoc; reflexivity|]. destruct q'; discriminate. }
      rewrite Sm. destruct (N p m Sm) as (pre & mid & post & E & In & Pm & Nm & Lk & Z).
      assert (T : thr < length mid). { rewrite (Permutation_length Pm). apply (Mq p [w]); [reflexivity|discriminate]. } apply Nat.leb_gt in T. rewrite T in Z. destruct Z as [Z _].
      cbn [sub]. destruct (kid m w) as [c|] eqn:K; [eauto|]. exfalso. apply Mw. apply Z; [|assumption].
      destruct (Nat.lt_ge_cases w 8) as [|Hw]; [assumption|]. exfalso. apply Mw. rewrite members_app. unfold members at 1. apply filter_none. intros r _. cbn [in_cell]. apply andb_false_iff. left.
      apply Nat.eqb_neq. pose proof (octant_lt low (follow i p) r). lia.
Qed.
Print Assumptions C15_shape.

(** With exact tests, records starting in the box of the node lie in the half-open
    box of every node that owns them. *)
Theorem C15_boxes : forall R (pos : axis -> R -> Z) lo size part thr fuel i off l t out,
  partition_contract part -> (0 <= ilevel i)%Z -> (forall r, In r l -> in_box pos lo size i r) ->
  refine (exact_low pos lo size) part thr fuel i off l = Ok (t, out) ->
  forall p n r, sub t p = Some n -> In r (contents off out n) -> in_box pos lo size (r_idx (info n)) r.
Proof.
  intros R pos lo size part thr fuel i off l t out Hp L HB H p n r S Hr.
  destruct (C15_refinement _ _ _ _ _ _ _ _ _ _ Hp H) as (_ & _ & _ & N). destruct (N p n S) as (E & _ & _ & _ & _ & Pm & _).
  rewrite E. eapply Permutation_in in Hr; [|exact Pm]. apply filter_In in Hr. destruct Hr as [Hr Hc]. apply cell_box; auto.
Qed.
Print Assumptions C15_boxes.

(** Refinement of a non-empty node finishes exactly if at some depth no cell holds
    more than [thr] records; then more fuel changes nothing.  Otherwise it goes on
    for ever; nothing else goes wrong. *)
Theorem C16_terminates_iff : forall R (low : axis -> index -> R -> bool) part thr i off l, partition_contract part -> l <> [] ->
  ((exists fuel r, refine low part thr fuel i off l = Ok r) <->
   exists d, forall p, length p = d -> length (members low i p l) <= thr).
Proof.
  intros R low part thr i off l Hp N. split.
  - intros (fuel & r & H). exists fuel. exact (refine_bounded low part Hp thr _ _ _ _ _ H).
  - intros (d & H). exists d. apply (refine_terminates low part Hp thr d); [lia|assumption|assumption].
Qed.
Print Assumptions C16_terminates_iff.

Theorem C16_only_failure : forall R (low : axis -> index -> R -> bool) part thr fuel i off l, l <> [] ->
  refine low part thr fuel i off l = Fail OutOfFuel \/
  exists r, forall fuel', fuel <= fuel' -> refine low part thr fuel' i off l = Ok r.
Proof.
  intros R low part thr fuel i off l N. destruct (refine low part thr fuel i off l) as [r|e] eqn:E.
  - right. exists r. intros fuel' F. eapply refine_mono; eassumption.
  - left. rewrite (refine_err _ _ _ _ _ _ _ _ _ N E). reflexivity.
Qed.
Print Assumptions C16_only_failure.

(** Distinct positions at least [delta] apart in some coordinate and at most [thr]
    records per position: done within d levels as soon as size/2^(level+d) <= delta. *)
Theorem C16_separated_points_terminate : forall R (pos : axis -> R -> Z) lo size part thr i off l delta d fuel,
  partition_contract part -> (0 <= ilevel i)%Z -> l <> [] -> (forall r, In r l -> in_box pos lo size i r) ->
  (forall r s, In r l -> In s l -> same_pos pos r s = true \/ exists ax, (delta <= Z.abs (pos ax r - pos ax s))%Z) ->
  (forall r, In r l -> length (filter (same_pos pos r) l) <= thr) ->
  (size <= delta * 2 ^ (ilevel i + Z.of_nat d))%Z -> d <= fuel ->
  exists r, refine (exact_low pos lo size) part thr fuel i off l = Ok r.
Proof.
  intros R pos lo size part thr i off l delta d fuel Hp L N HB HS HC HD F.
  apply (refine_terminates _ part Hp thr d); [assumption|assumption|]. exact (separated_bounded pos lo size i l thr delta d L HB HS HC HD).
Qed.
Print Assumptions C16_separated_points_terminate.

(** More than [thr] records the tests cannot tell apart, such as coincident points:
    refinement never finishes. *)
Theorem C16_coincident_points_diverge : forall R (low : axis -> index -> R -> bool) part thr i off l (same : R -> bool) r0,
  partition_contract part -> (forall ax j r, same r = true -> low ax j r = low ax j r0) ->
  thr < length (filter same l) -> forall fuel, refine low part thr fuel i off l = Fail OutOfFuel.
Proof. exact refine_diverges. Qed.
Print Assumptions C16_coincident_points_diverge.

(** Refining the records a finished refinement left behind, by searching split
    points, gives the same tree (shape, indices, segments) and moves nothing. *)
Theorem C17_same_tree : forall R (low : axis -> index -> R -> bool) part pp thr fuel i off l t out,
  partition_contract part -> partition_point_contract pp -> refine low part thr fuel i off l = Ok (t, out) ->
  refine low (part_of_point pp) thr fuel i off out = Ok (t, out).
Proof. intros R low part pp thr fuel i off l t out Hp Hq H. exact (refine_point low part Hp thr pp Hq _ _ _ _ _ _ H). Qed.
Print Assumptions C17_same_tree.

(** Ten points, threshold 2; the partition step keeps or reverses the order
    depending on the call. *)
Definition ex_pos (ax : axis) (r : Z * Z * Z) : Z := let '(x, y, z) := r in match ax with AX => x | AY => y | AZ => z end.
Definition ex_part (i : index) (c : nat) (f : Z * Z * Z -> bool) (l : list (Z * Z * Z)) : list (Z * Z * Z) * list (Z * Z * Z) :=
  if Nat.even c then (filter f l, filter (fun r => negb (f r)) l) else (rev (filter f l), filter (fun r => negb (f r)) l).
Definition ex_pp (f : Z * Z * Z -> bool) (l : list (Z * Z * Z)) : nat := length (filter f l).
Definition ex_pts : list (Z * Z * Z) := [(0,0,0); (1,0,0); (7,7,7); (3,3,3); (0,1,1); (5,2,6); (7,6,7); (4,4,4); (7,7,6); (2,3,2)]%Z.
Definition ex_root : index := mkIndex 0 0 0 0.
Definition ex_run (part : index -> nat -> (Z * Z * Z -> bool) -> list (Z * Z * Z) -> _) l := refine (exact_low ex_pos (fun _ => 0%Z) 8%Z) part 2 3 ex_root 0 l.

Lemma ex_part_ok : partition_contract ex_part.
Proof.
  intros i c f l. assert (P : Permutation l (filter f l ++ filter (fun r => negb (f r)) l)).
  { induction l as [|x l IH]; [constructor|]. cbn. destruct (f x); cbn; [constructor; assumption|]. apply Permutation_cons_app. assumption. }
  unfold ex_part. destruct (Nat.even c).
  - split; [assumption|]. split; intros r Hr; apply filter_In in Hr; destruct Hr as [_ Hr]; [assumption|]. apply negb_true_iff. assumption.
  - split; [eapply perm_trans; [exact P|]; apply Permutation_app_tail; apply Permutation_rev|].
    split; intros r Hr; [apply in_rev in Hr|]; apply filter_In in Hr; destruct Hr as [_ Hr]; [assumption|]. apply negb_true_iff. assumption.
Qed.

Lemma ex_pp_ok : partition_point_contract ex_pp.
Proof. intros f a b Ha Hb. unfold ex_pp. rewrite filter_app, (filter_all _ _ a Ha), (proj2 (filter_none _ _ b) Hb), app_nil_r. reflexivity. Qed.

Lemma ex_in_box : forall r, In r ex_pts -> in_box ex_pos (fun _ => 0%Z) 8%Z ex_root r.
Proof. intros r Hr. unfold in_box. cbn [ilevel ix iy iz ex_root]. cbn in Hr. repeat (destruct Hr as [<-|Hr]; [cbn; lia|]). contradiction. Qed.

Example C15_nonvacuous : partition_contract ex_part /\ (forall r, In r ex_pts -> in_box ex_pos (fun _ => 0%Z) 8%Z ex_root r) /\
  match ex_run ex_part ex_pts with
  | Ok (t, out) => out = [(0,0,0); (1,0,0); (0,1,1); (2,3,2); (3,3,3); (5,2,6); (4,4,4); (7,7,6); (7,6,7); (7,7,7)]%Z /\
                   leaf_segments t = [(0, 1); (1, 1); (2, 1); (3, 2); (5, 1); (6, 1); (7, 1); (8, 1); (9, 1)]
  | Fail _ => False
  end.
Proof.
  split; [exact ex_part_ok|]. split.
  - exact ex_in_box.
  - vm_compute. auto.
Qed.

Example C16_nonvacuous : (forall p, length p = 3 -> length (members (exact_low ex_pos (fun _ => 0%Z) 8%Z) ex_root p ex_pts) <= 2) /\
  ex_run ex_part [(1,1,1); (1,1,1); (6,6,6); (1,1,1)]%Z = Fail OutOfFuel.
Proof.
  split; [|reflexivity].
  assert (H1 : forall r s, In r ex_pts -> In s ex_pts -> same_pos ex_pos r s = true \/ exists ax, (1 <= Z.abs (ex_pos ax r - ex_pos ax s))%Z).
  { intros r s _ _. destruct (same_pos ex_pos r s) eqn:E; [auto|]. right. unfold same_pos in E.
    destruct (Z.eqb_spec (ex_pos AX r) (ex_pos AX s)) as [|N]; [|exists AX; lia]. destruct (Z.eqb_spec (ex_pos AY r) (ex_pos AY s)) as [|N]; [|exists AY; lia].
    destruct (Z.eqb_spec (ex_pos AZ r) (ex_pos AZ s)) as [|N]; [discriminate|exists AZ; lia]. }
  assert (H2 : forall r, In r ex_pts -> length (filter (same_pos ex_pos r) ex_pts) <= 2).
  { intros r Hr. apply Nat.leb_le. revert r Hr. apply (proj1 (forallb_forall (fun r => length (filter (same_pos ex_pos r) ex_pts) <=? 2) ex_pts)). reflexivity. }
  assert (H3 : (8 <= 1 * 2 ^ (ilevel ex_root + Z.of_nat 3))%Z) by (vm_compute; discriminate).
  assert (H4 : (0 <= ilevel ex_root)%Z) by (vm_compute; discriminate).
  pose proof (separated_bounded ex_pos (fun _ => 0%Z) 8%Z ex_root ex_pts 2 1%Z 3 H4 ex_in_box H1 H2 H3) as X.
  exact X.
Qed.

(** Searching split points in the sorted records gives the tree again; in the
    unsorted ones it does not. *)
Example C17_nonvacuous : partition_contract ex_part /\ partition_point_contract ex_pp /\
  (do a <- ex_run ex_part ex_pts; ex_run (part_of_point ex_pp) (snd a)) = ex_run ex_part ex_pts /\
  (do a <- ex_run ex_part ex_pts; Ok (length (nodes (fst a)))) = Ok 14 /\
  ex_run (part_of_point ex_pp) ex_pts <> ex_run ex_part ex_pts.
Proof. split; [exact ex_part_ok|]. split; [exact ex_pp_ok|]. vm_compute. split; [reflexivity|]. split; [reflexivity|discriminate]. Qed.
