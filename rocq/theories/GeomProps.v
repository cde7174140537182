(** C10, C11, C46, C50: the domain, its boxes and the uniform cells (exact arithmetic). *)
From Coq Require Import ZArith QArith Lqa List Bool Lia Permutation.
From Verif Require Import Base ListFacts IndexModel IndexSpec GridModel GridSpec GridProofs ArrayModel ArraySpec TreeModel TreeFacts RefineModel RefineSpec RefineProps GeomModel GeomSpec GeomProofs.
Import ListNotations.
Open Scope Q_scope.

(** C10.  Whatever the distribution over the ranks and the order of the reduction, the
    bounds are the hull of all positions. *)
Theorem C10_hull : forall same ranks order, all_ranks (length ranks) order ->
  let ps := concat (map (fun st => fst st ++ (if same : bool then [] else snd st)) ranks) in
  ps <> [] -> (forall p a, In p ps -> - big <= coord a p <= big) ->
  hull (reduce_bounds order (map (fun st => rank_bounds same (fst st) (snd st)) ranks)) ps.
Proof. intros same ranks order H ps N B. apply tight_hull; [assumption|assumption|]. apply tight_all. assumption. Qed.
Print Assumptions C10_hull.

(** Two distributions of the same points, reduced in different orders, give the same
    bounds. *)
Theorem C10_order_independent : forall same ranks order ranks' order', all_ranks (length ranks) order -> all_ranks (length ranks') order' ->
  let pts rs := concat (map (fun st : list point * list point => fst st ++ (if same : bool then [] else snd st)) rs) in
  pts ranks <> [] -> (forall p a, In p (pts ranks) -> - big <= coord a p <= big) -> Permutation (pts ranks) (pts ranks') ->
  let v := reduce_bounds order (map (fun st => rank_bounds same (fst st) (snd st)) ranks) in
  let v' := reduce_bounds order' (map (fun st => rank_bounds same (fst st) (snd st)) ranks') in
  forall a, coord a (bmin v) == coord a (bmin v') /\ coord a (bmax v) == coord a (bmax v').
Proof.
  intros same ranks order ranks' order' H H' pts N B P v v'. apply (hull_unique v v' (pts ranks)); [apply C10_hull; assumption|].
  assert (X : hull v' (pts ranks')).
  { apply C10_hull; [assumption| |].
    - intros E. fold (pts ranks') in E. rewrite E in P. symmetry in P. apply Permutation_nil in P. contradiction.
    - intros p a Hp. apply B. eapply Permutation_in; [symmetry; exact P|exact Hp]. }
  intros a. destruct (X a) as (X1 & (p & Hp & Ep) & (q & Hq & Eq)). split; [|split].
  - intros r Hr. apply X1. eapply Permutation_in; eassumption.
  - exists p. split; [eapply Permutation_in; [symmetry; exact P|exact Hp]|assumption].
  - exists q. split; [eapply Permutation_in; [symmetry; exact P|exact Hq]|assumption].
Qed.
Print Assumptions C10_order_independent.

(** The domain is the cube around the hull: contains every point, same centre, side the
    largest extent. *)
Theorem C10_cube : forall v ps, hull v ps -> let d := domain_of v in
  (forall p, In p ps -> in_domain d p) /\
  (forall a, coord a (dlow d) + dsize d / 2 == (coord a (bmin v) + coord a (bmax v)) / 2) /\
  (forall a, coord a (bmax v) - coord a (bmin v) <= dsize d) /\ (exists a, dsize d == coord a (bmax v) - coord a (bmin v)).
Proof. exact domain_of_ok. Qed.
Print Assumptions C10_cube.

(** The same for the constructor from two corners. *)
Theorem C10_cubify : forall lo hi factor, (forall a, coord a lo <= coord a hi) -> 1 <= factor -> let d := cubify lo hi factor in
  (forall p, (forall a, coord a lo <= coord a p <= coord a hi) -> in_domain d p) /\
  (forall a, coord a (dlow d) + dsize d / 2 == (coord a lo + coord a hi) / 2) /\
  exists m, dsize d == m * factor /\ (forall a, coord a hi - coord a lo <= m) /\ exists a, m == coord a hi - coord a lo.
Proof. exact cubify_ok. Qed.
Print Assumptions C10_cubify.

(** Beyond the identity bounds the hull is wrong: the bounds 1e50 are kept. *)
Theorem C10_beyond_identity_refuted : exists p,
  let v := reduce_bounds (OLeaf 0) [rank_bounds true [p] []] in ~ hull v [p].
Proof.
  exists (mkP (2 * big) 0 0). cbv zeta. intros H. destruct (H AX) as (_ & (q & [<-|[]] & E) & _). vm_compute in E. discriminate.
Qed.
Print Assumptions C10_beyond_identity_refuted.

(** C11.  Every record gets the number of the cell whose box contains it, and the counts
    count. *)
Theorem C11_assignment : forall d L P, 0 < dsize d -> (0 <= L <= 10)%Z -> (forall p, In p P -> in_domain d p) ->
  exists gid count, assign_points d L P (repeat 0%Z (Z.to_nat (8 ^ L))) = Ok (gid, count) /\
    Forall2 (fun p g => (0 <= g < 8 ^ L)%Z /\ exists i, in_grid i /\ ilevel i = L /\ in_box d i p /\ g = slot_of i L) P gid /\
    Z.of_nat (length count) = (8 ^ L)%Z /\
    (forall k, (0 <= k < 8 ^ L)%Z -> nth_error count (Z.to_nat k) = Some (Z.of_nat (count_occ Z.eq_dec gid k))) /\
    fold_right Z.add 0%Z count = Z.of_nat (length P).
Proof.
  intros d L P Hs HL HP. assert (P8 : (0 < 8 ^ L)%Z) by (apply Z.pow_pos_nonneg; lia).
  assert (E : Z.of_nat (length (repeat 0%Z (Z.to_nat (8 ^ L)))) = (8 ^ L)%Z) by (rewrite repeat_length; lia).
  eexists _, _. split; [apply (assign_ok d Hs L HL P _ HP E)|]. set (gs := map _ P).
  assert (B : forall p, In p P -> (0 <= slot_of (index_of d L p) L < 8 ^ L)%Z).
  { intros p Hp. destruct (box_exists d Hs L p (proj1 HL) (HP p Hp)) as [G _]. rewrite (pow8 L (proj1 HL)). exact (slot_bounds (index_of d L p) L (proj1 HL) eq_refl G). }
  split; [|split; [|split]].
  - unfold gs. clear E gs. induction P as [|p P IH]; constructor.
    + split; [apply B; left; reflexivity|]. destruct (box_exists d Hs L p (proj1 HL) (HP p (or_introl eq_refl))) as [G X]. exists (index_of d L p). auto.
    + apply IH; intros; [apply HP|apply B]; right; assumption.
  - unfold tally. rewrite map_length, seq_length. assumption.
  - intros k Hk. rewrite nth_tally by (rewrite repeat_length; lia). rewrite nth_repeat. rewrite Z2Nat.id by lia. reflexivity.
  - rewrite tally_sum; [unfold gs; rewrite map_length; reflexivity|]. intros g Hg. unfold gs in Hg. apply in_map_iff in Hg. destruct Hg as (p & <- & Hp). specialize (B p Hp). lia.
Qed.
Print Assumptions C11_assignment.

(** If all points coincide the side is 0 and the conversion to int is undefined. *)
Theorem C11_coincident_points_refuted : forall p P L count, (forall q, In q P -> q = p) -> (forall a, - big <= coord a p <= big) ->
  assign_points (domain_of (rank_bounds true (p :: P) [])) L (p :: P) count = Fail DivZero.
Proof.
  intros p P L count H B. change (rank_bounds true (p :: P) []) with (fold_left extend (p :: P) no_bounds). set (v := fold_left extend (p :: P) no_bounds). set (d := domain_of v).
  destruct (Qeq_bool (dsize d) 0) eqn:E.
  - unfold assign_points. cbn [foldM]. unfold cell_of, cell_coord. rewrite E. reflexivity.
  - exfalso. assert (X : hull v (p :: P)).
    { apply tight_hull; [discriminate| |exact (tight_fold (p :: P) no_bounds [] tight_none)]. intros q a [<-|Hq]; [apply B|]. rewrite (H q Hq). apply B. }
    destruct (domain_of_ok v (p :: P) X) as (_ & _ & _ & (a & Ea)). fold d in Ea. destruct (X a) as (_ & (q & Hq & Eq) & (r & Hr & Er)).
    assert (q = p) by (destruct Hq as [<-|Hq]; auto). assert (r = p) by (destruct Hr as [<-|Hr]; auto). subst q r.
    assert (Z : dsize d == 0) by lra. apply Qeq_bool_iff in Z. congruence.
Qed.
Print Assumptions C11_coincident_points_refuted.

(** C46.  The boxes of one level partition the domain. *)
Theorem C46_tiling : forall d L p, 0 < dsize d -> (0 <= L)%Z -> in_domain d p ->
  exists i, in_grid i /\ ilevel i = L /\ in_box d i p /\ forall j, in_grid j -> ilevel j = L -> in_box d j p -> j = i.
Proof.
  intros d L p Hs HL Hp. destruct (box_exists d Hs L p HL Hp) as [G B]. exists (index_of d L p). split; [assumption|]. split; [reflexivity|]. split; [assumption|].
  intros j Gj Lj Bj. eapply box_unique; eassumption.
Qed.
Print Assumptions C46_tiling.

(** Two closed boxes share no point of the interior of either. *)
Theorem C46_overlap_faces_only : forall d i j p, 0 < dsize d -> (0 <= ilevel i)%Z -> ilevel i = ilevel j -> in_closed d j p ->
  (forall a, let h := dsize d / inject_Z (2 ^ ilevel i) in
     coord a (dlow d) + inject_Z (icoord a i) * h < coord a p /\ coord a p < coord a (dlow d) + inject_Z (icoord a i + 1) * h) -> i = j.
Proof. intros d i j p Hs. apply closed_interior. assumption. Qed.
Print Assumptions C46_overlap_faces_only.

(** The eight children partition the box of their parent. *)
Theorem C46_children_tile : forall d i p, 0 < dsize d -> (0 <= ilevel i)%Z ->
  (in_box d i p <-> exists w, (0 <= w < 8)%Z /\ in_box d (child w i) p) /\
  (forall w w', (0 <= w < 8)%Z -> (0 <= w' < 8)%Z -> in_box d (child w i) p -> in_box d (child w' i) p -> w = w').
Proof. intros d i p Hs HL. split; [apply box_children; assumption|]. intros w w'. apply box_child_unique; assumption. Qed.
Print Assumptions C46_children_tile.

(** The corners and the centre the code reports are those of the box. *)
Theorem C46_corners : forall d i, (0 <= ilevel i <= 30)%Z ->
  exists l h c s, low_from_index d i = Ok l /\ high_from_index d i = Ok h /\ center_from_index d i = Ok c /\ size_from_level d (ilevel i) = Ok s /\
    s * inject_Z (2 ^ ilevel i) == dsize d /\
    (forall a, coord a h - coord a l == s /\ coord a c == (coord a l + coord a h) / 2) /\
    (forall p, in_closed d i p <-> forall a, coord a l <= coord a p <= coord a h) /\
    (forall j l', ilevel j = ilevel i -> low_from_index d j = Ok l' -> forall a, icoord a j = (icoord a i + 1)%Z -> coord a l' == coord a h).
Proof.
  intros d i H. destruct (corner_ok d 0 i H) as (l & El & Cl), (corner_ok d 1 i H) as (h & Eh & Ch), (corner_ok d (1 # 2) i H) as (c & Ec & Cc).
  pose proof (pow_pos (ilevel i) (proj1 H)) as P.
  assert (Es : size_from_level d (ilevel i) = Ok (dsize d / inject_Z (2 ^ ilevel i))).
  { unfold size_from_level. destruct (Z.ltb_spec (ilevel i) 0); [lia|]. destruct (Z.ltb_spec 30 (ilevel i)); [lia|]. cbn [orb]. rewrite Z.shiftl_mul_pow2, Z.mul_1_l by lia. reflexivity. }
  eexists l, h, c, _. split; [exact El|]. split; [exact Eh|]. split; [exact Ec|]. split; [exact Es|]. split; [field; lra|]. split; [|split].
  - intros a. rewrite Ch, Cl, Cc. split; field; lra.
  - assert (E1 : forall a, coord a l == coord a (dlow d) + inject_Z (icoord a i) * (dsize d / inject_Z (2 ^ ilevel i))) by (intros a; rewrite Cl; ring).
    assert (E2 : forall a, coord a h == coord a (dlow d) + inject_Z (icoord a i + 1) * (dsize d / inject_Z (2 ^ ilevel i))) by (intros a; rewrite Ch, inj_plus; reflexivity).
    intros p. unfold in_closed. cbv zeta. split; intros X a; specialize (X a); specialize (E1 a); specialize (E2 a); split; lra.
  - intros j l' Lj El' a Ea. rewrite <- Lj in H. destruct (corner_ok d 0 j H) as (l2 & El2 & Cl2). unfold low_from_index in El'. rewrite El2 in El'. injection El' as <-. rewrite Cl2, Ch, Lj, Ea, inj_plus. change (inject_Z 1) with 1. ring.
Qed.
Print Assumptions C46_corners.

(** C50.  Refining a uniform cell whose records are in its box leaves every record in
    the box of each node that holds it, also on the upper faces of the domain. *)
Theorem C50_points_in_boxes : forall d part thr fuel i off l t out, 0 < dsize d -> (0 <= ilevel i)%Z ->
  partition_contract part -> (forall p, In p l -> in_box d i p) ->
  refine (below_centre d) part thr fuel i off l = Ok (t, out) ->
  forall q n p, sub t q = Some n -> In p (contents off out n) -> in_box d (r_idx (info n)) p.
Proof.
  intros d part thr fuel i off l t out Hs HL Hc HB H q n p S Hp.
  destruct (C15_refinement _ _ _ _ _ _ _ _ _ _ Hc H) as (_ & _ & _ & N). destruct (N q n S) as (E & _ & _ & _ & _ & Pm & _).
  rewrite E. eapply Permutation_in in Hp; [|exact Pm]. apply filter_In in Hp. destruct Hp as [Hp Hq]. apply box_cell; auto.
Qed.
Print Assumptions C50_points_in_boxes.

Definition ex_d : domain := mkD (mkP (-1) 0 (1 # 2)) 4.
Definition ex_ps : list point := [mkP (-1) 0 (1 # 2); mkP 3 4 (9 # 2); mkP 1 (1 # 3) 4].
Example C46_C11_C50_nonvacuous :
  0 < dsize ex_d /\ (forall p, In p ex_ps -> in_domain ex_d p) /\
  match assign_points ex_d 1 ex_ps (repeat 0%Z 8) with Ok (g, c) => g = [0; 7; 5]%Z /\ c = [1; 0; 0; 0; 0; 1; 0; 1]%Z | Fail _ => False end /\
  in_box ex_d (mkIndex 1 1 1 1) (mkP 3 4 (9 # 2)) /\ ~ in_box ex_d (mkIndex 0 1 1 1) (mkP 1 4 (9 # 2)) /\
  refine (below_centre ex_d) (fun _ _ f l => (filter f l, filter (fun r => negb (f r)) l)) 1 5 (mkIndex 1 1 1 1) 0 [mkP 3 4 (9 # 2); mkP 1 2 (5 # 2)] <> Fail OutOfFuel.
Proof.
  split; [reflexivity|]. split.
  { intros p [<-|[<-|[<-|[]]]] []; vm_compute; split; congruence. }
  split; [vm_compute; split; reflexivity|]. split.
  { intros []; (split; [vm_compute; congruence|right; split; [reflexivity|vm_compute; congruence]]). }
  split; [intros H; specialize (H AX); destruct H as [_ [X|[X _]]]; [vm_compute in X; congruence|discriminate]|vm_compute; congruence].
Qed.

(** Two ranks, the reduction meets the identity on the way. *)
Example C10_nonvacuous :
  let ranks := [([mkP 1 2 3], [mkP (-5) 0 0]); ([], [mkP 4 4 (7 # 2)])] in
  all_ranks 2 (ONode (OLeaf 1) (ONode OIdent (OLeaf 0))) /\
  let v := reduce_bounds (ONode (OLeaf 1) (ONode OIdent (OLeaf 0))) (map (fun st => rank_bounds false (fst st) (snd st)) ranks) in
  v = mkB (mkP (-5) 0 0) (mkP 4 4 (7 # 2)) /\ dsize (domain_of v) == 9.
Proof. split; [apply perm_swap|]. vm_compute. split; reflexivity. Qed.
