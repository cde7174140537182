(** C55, C56: the bounding box, the cells and the boxes of the points in double precision. *)
From Coq Require Import ZArith Reals List Bool Lia Lra Permutation.
From Flocq Require Import Core BinarySingleNaN.
From Verif Require Import Base ListFacts IndexModel IndexSpec GridModel GridSpec ArrayModel ArraySpec RefineModel TreeModel RefineSpec TreeFacts RefineProps GridProofs GeomProofs DoubleModel DoubleSpec DoubleProofs.
Import ListNotations.
Open Scope R_scope.

(** C55.  The reduced bounds are the hull of all points, whatever the distribution over
    the ranks and the order of the reduction: no rounding is involved. *)
Theorem C55_hull : forall same ranks order B, all_ranks (length ranks) order ->
  let ps := concat (map (fun st => fst st ++ (if same : bool then [] else snd st)) ranks) in
  ps <> [] -> B <= IZR (10 ^ 50) -> (forall p, In p ps -> within B p) ->
  dhull (dreduce_bounds order (map (fun st => drank_bounds same (fst st) (snd st)) ranks)) ps.
Proof.
  intros same ranks order B H ps N HB W. apply (dtight_hull _ _ B N HB W). apply dtight_all; [|assumption].
  intros st Hst p a Hp. apply W. apply in_concat. exists (drank_points same st). split; [|assumption]. apply (in_map (drank_points same)). assumption.
Qed.
Print Assumptions C55_hull.

(** The domain is, up to rounding, the cube around the middle of that hull whose side is the
    longest side of the hull. *)
Theorem C55_domain : forall v ps B, dhull v ps -> (forall p, In p ps -> within B p) -> B <= IZR (10 ^ 50) ->
  let d := ddomain_of v in let size := B2R (ddsize d) in let tol := (size + B) / IZR (2 ^ 49) in
  let lo a := B2R (dcoord a (dbmin v)) in let hi a := B2R (dcoord a (dbmax v)) in
  bpow radix2 (-1000) <= size ->
  forall a, Rabs (B2R (dcoord a (ddlow d)) + size / 2 - (lo a + hi a) / 2) <= tol /\ hi a - lo a <= size + tol /\ exists b, Rabs (size - (hi b - lo b)) <= tol.
Proof. intros v ps B HV HP HB d size tol lo hi Hmin a. apply (domain_ok v ps B); assumption. Qed.
Print Assumptions C55_domain.

(** If the domain is at least 2^L * B / 2^49 wide, B bounding the coordinates, every point
    of a rank gets one of the 8^L cells, lies in the box of that cell up to a rounding
    tolerance, and the counts count. *)
Theorem C55_cells : forall v ps B L P, dhull v ps -> (forall p, In p ps -> within B p) -> incl P ps -> B <= IZR (10 ^ 50) -> (0 <= L <= 10)%Z ->
  let d := ddomain_of v in let size := B2R (ddsize d) in
  bpow radix2 (-1000) <= size -> IZR (2 ^ L) * B <= IZR (2 ^ 49) * size ->
  exists gid count, dassign_points d L P (repeat 0%Z (Z.to_nat (8 ^ L))) = Ok (gid, count) /\
    Forall2 (fun p g => (0 <= g < 8 ^ L)%Z /\ exists i, in_grid i /\ ilevel i = L /\ near_box ((size + B) / IZR (2 ^ 49)) d i p /\ g = slot_of i L) P gid /\
    Z.of_nat (length count) = (8 ^ L)%Z /\
    (forall k, (0 <= k < 8 ^ L)%Z -> nth_error count (Z.to_nat k) = Some (Z.of_nat (count_occ Z.eq_dec gid k))) /\
    fold_right Z.add 0%Z count = Z.of_nat (length P).
Proof.
  intros v ps B L P HV HP HI HB HL d size Hmin Hrel. assert (P8 : (0 < 8 ^ L)%Z) by (apply Z.pow_pos_nonneg; lia).
  assert (E : Z.of_nat (length (repeat 0%Z (Z.to_nat (8 ^ L)))) = (8 ^ L)%Z) by (rewrite repeat_length; lia).
  set (g := fun p => match dcell_of d (2 ^ L) p with Ok k => k | Fail _ => 0%Z end).
  assert (C : forall p, In p P -> exists i, in_grid i /\ ilevel i = L /\ dcell_of d (2 ^ L) p = Ok (slot_of i L) /\ (0 <= slot_of i L < 8 ^ L)%Z /\ near_box ((size + B) / IZR (2 ^ 49)) d i p).
  { intros p Hp. apply (cell_ok v ps B L p); try assumption. apply HI, Hp. }
  assert (G : forall p, In p P -> dcell_of d (2 ^ L) p = Ok (g p) /\ (0 <= g p < 8 ^ L)%Z).
  { intros p Hp. destruct (C p Hp) as (i & _ & _ & Ei & Bi & _). unfold g. rewrite Ei. auto. }
  eexists _, _. split; [apply (dassign_ok d L g HL P _ G E)|]. split; [|split; [|split]].
  - clear E HI. induction P as [|p P IH]; constructor.
    + split; [apply G; left; reflexivity|]. destruct (C p (or_introl eq_refl)) as (i & Gi & Li & Ei & _ & Ni). exists i. unfold g. rewrite Ei. auto.
    + apply IH; intros q Hq; [apply C|apply G]; right; assumption.
  - unfold tally. rewrite map_length, seq_length. assumption.
  - intros k Hk. rewrite nth_tally by (rewrite repeat_length; lia). rewrite nth_repeat. rewrite Z2Nat.id by lia. reflexivity.
  - rewrite tally_sum; [rewrite map_length; reflexivity|]. intros x Hx. apply in_map_iff in Hx. destruct Hx as (p & <- & Hp). destruct (G p Hp). lia.
Qed.
Print Assumptions C55_cells.

(** Two points one unit in the last place apart: the corner is rounded up past one of them,
    its cell number is negative, and the count of that cell is written in front of the
    array. *)
Definition ulp_point (k : Z) : dpoint := let c := ddiv (of_int (2 ^ 52 + k)) (of_int (2 ^ 52)) in mkDP c c c.
Theorem C55_tiny_domain_refuted : exists P v, v = drank_bounds true P [] /\
  (forall p a, In p P -> is_finite (dcoord a p) = true /\ 1 <= B2R (dcoord a p) <= 2) /\ P <> [] /\
  is_finite (ddsize (ddomain_of v)) = true /\ 0 < B2R (ddsize (ddomain_of v)) /\
  (exists p k, In p P /\ dcell_of (ddomain_of v) 4 p = Ok k /\ (k < 0)%Z) /\
  dassign_points (ddomain_of v) 1 P (repeat 0%Z 8) = Fail Oob /\ dassign_points (ddomain_of v) 2 P (repeat 0%Z 64) = Fail Oob.
Proof.
  exists [ulp_point 1; ulp_point 2], (drank_bounds true [ulp_point 1; ulp_point 2] []). split; [reflexivity|]. split.
  { assert (X : forall k, (0 <= k <= 2)%Z -> is_finite (ddiv (of_int (2 ^ 52 + k)) (of_int (2 ^ 52))) = true /\ 1 <= B2R (ddiv (of_int (2 ^ 52 + k)) (of_int (2 ^ 52))) <= 2).
    { intros k Hk. destruct (of_int_ok (2 ^ 52 + k)) as [F1 E1]; [change (2 ^ 53)%Z with (2 * 2 ^ 52)%Z; change (2 ^ 52)%Z with 4503599627370496%Z; lia|]. destruct (of_int_ok (2 ^ 52)) as [F2 E2]; [reflexivity|].
      assert (K : 0 <= IZR k <= 2) by (split; apply IZR_le; lia). change (2 ^ 52)%Z with 4503599627370496%Z in *. rewrite plus_IZR in E1.
      assert (V : 1 <= B2R (of_int (4503599627370496 + k)) / B2R (of_int 4503599627370496) <= 2) by (rewrite E1, E2; lra).
      assert (T : bpow radix2 1 <= bpow radix2 1000) by (apply bpow_le; lia). change (bpow radix2 1) with 2 in T.
      destruct (ddiv_ok (of_int (4503599627370496 + k)) (of_int 4503599627370496) F1) as [F3 E3]; [rewrite E2; lra|rewrite Rabs_pos_eq; lra|]. split; [exact F3|]. rewrite E3.
      split; [destruct (of_int_ok 1 eq_refl) as [_ O]; rewrite <- O, <- (B2R_rnd (of_int 1)), O|destruct (of_int_ok 2 eq_refl) as [_ O]; rewrite <- O, <- (B2R_rnd (of_int 2)), O]; apply round_le; try typeclasses eauto; lra. }
    intros p a [<-|[<-|[]]]; destruct a; apply X; lia. }
  split; [discriminate|]. split; [vm_compute; reflexivity|]. split.
  { rewrite <- SF2R_B2SF. set (s := B2SF _). vm_compute in s. unfold s. cbn [SF2R cond_Zopp]. apply F2R_gt_0. reflexivity. }
  split; [|split; vm_compute; reflexivity].
  exists (ulp_point 1), (-84)%Z. split; [left; reflexivity|]. split; [vm_compute; reflexivity|reflexivity].
Qed.
Print Assumptions C55_tiny_domain_refuted.

(** Three points on two ranks; the domain is far wider than the bound. *)
Definition ex_int (x y z : Z) : dpoint := mkDP (of_int x) (of_int y) (of_int z).
Definition ex_ranks : list (list dpoint * list dpoint) := [([ex_int 1 2 3; ex_int (-3) 4 4], []); ([], [ex_int 5 5 5])].
Definition ex_v : dbounds := dreduce_bounds (ONode (OLeaf 1) (ONode OIdent (OLeaf 0))) (map (fun st => drank_bounds false (fst st) (snd st)) ex_ranks).
Definition ex_all : list dpoint := concat (map (fun st => fst st ++ snd st) ex_ranks).
Example C55_nonvacuous :
  all_ranks (length ex_ranks) (ONode (OLeaf 1) (ONode OIdent (OLeaf 0))) /\ (forall p, In p ex_all -> within 5 p) /\ dhull ex_v ex_all /\
  bpow radix2 (-1000) <= B2R (ddsize (ddomain_of ex_v)) /\ IZR (2 ^ 2) * 5 <= IZR (2 ^ 49) * B2R (ddsize (ddomain_of ex_v)) /\
  dassign_points (ddomain_of ex_v) 1 ex_all (repeat 0%Z 8) = Ok ([1; 6; 7]%Z, [0; 1; 0; 0; 0; 0; 1; 1]%Z).
Proof.
  assert (A : all_ranks (length ex_ranks) (ONode (OLeaf 1) (ONode OIdent (OLeaf 0)))) by (apply perm_swap).
  assert (I : forall k, (-5 <= k <= 5)%Z -> is_finite (of_int k) = true /\ Rabs (B2R (of_int k)) <= 5).
  { intros k Hk. destruct (of_int_ok k) as [F ->]; [lia|]. split; [assumption|]. rewrite <- abs_IZR. apply IZR_le. lia. }
  assert (W : forall p, In p ex_all -> within 5 p) by (intros p [<-|[<-|[<-|[]]]] []; apply I; lia).
  assert (S8 : B2R (ddsize (ddomain_of ex_v)) = 8).
  { assert (E : B2SF (ddsize (ddomain_of ex_v)) = B2SF (of_int 8)) by (vm_compute; reflexivity). rewrite <- SF2R_B2SF, E, SF2R_B2SF. apply of_int_ok. reflexivity. }
  split; [assumption|]. split; [assumption|]. split; [|split; [|split]].
  - apply (C55_hull false ex_ranks _ 5 A); [discriminate|apply IZR_le; discriminate|exact W].
  - rewrite S8. apply Rle_trans with (bpow radix2 0); [apply bpow_le; lia|cbn; lra].
  - rewrite S8. rewrite <- !mult_IZR. apply IZR_le. discriminate.
  - vm_compute. reflexivity.
Qed.

(** The tolerance is needed: the middle of a domain of side 49 belongs to the upper half
    and is put into the lower one, because 49 * (1 / 49) < 1. *)
Theorem C55_exact_cell_refuted : exists P v p, v = drank_bounds true P [] /\ In p P /\
  let d := ddomain_of v in
  B2R (dcoord AX (ddlow d)) + IZR 1 * (B2R (ddsize d) / IZR 2) = B2R (dcoord AX p) /\ dcell_coord AX d 2 p = Ok 0%Z.
Proof.
  set (m := ddiv (of_int 49) (of_int 2)). exists [ex_int 0 0 0; ex_int 49 49 49; mkDP m m m], (drank_bounds true [ex_int 0 0 0; ex_int 49 49 49; mkDP m m m] []), (mkDP m m m).
  split; [reflexivity|]. split; [right; right; left; reflexivity|]. cbv zeta. split; [|vm_compute; reflexivity].
  cbn [dcoord dx]. rewrite <- !SF2R_B2SF. unfold m.
  set (a := B2SF (dx _)). set (b := B2SF (ddsize _)). set (c := B2SF (ddiv _ _)). vm_compute in a, b, c. unfold a, b, c. cbn [SF2R cond_Zopp]. unfold F2R. cbn [Fnum Fexp]. cbn [bpow]. cbn. lra.
Qed.
Print Assumptions C55_exact_cell_refuted.

(** C56.  Refining a cell in double precision keeps every record within [tol] of the box of
    each node that holds it: the error does not grow with the depth. *)
Theorem C56_refined : forall d tol part thr fuel i off l t out, moderate d -> tolerates tol d -> in_grid i ->
  partition_contract part -> (forall p, In p l -> (forall a, is_finite (dcoord a p) = true) /\ near_box tol d i p) ->
  refine (dbelow d) part thr fuel i off l = Ok (t, out) ->
  forall q n p, sub t q = Some n -> (ilevel (r_idx (info n)) <= 31)%Z -> In p (contents off out n) -> near_box tol d (r_idx (info n)) p.
Proof.
  intros d tol part thr fuel i off l t out Hd Ht G Hc HB H q n p S HL Hp.
  destruct (C15_refinement _ _ _ _ _ _ _ _ _ _ Hc H) as (_ & _ & _ & N). destruct (N q n S) as (E & _ & _ & _ & _ & Pm & _).
  rewrite E in *. rewrite ilevel_follow in HL. eapply Permutation_in in Hp; [|exact Pm]. apply filter_In in Hp. destruct Hp as [Hp Hq]. destruct (HB p Hp). apply near_path; auto.
Qed.
Print Assumptions C56_refined.

(** The whole way: bounding box, uniform cell, refinement. *)
Theorem C56_tree : forall v ps B L i part thr fuel off l t out, dhull v ps -> (forall p, In p ps -> within B p) -> B <= IZR (10 ^ 50) -> (0 <= L <= 10)%Z ->
  let d := ddomain_of v in let size := B2R (ddsize d) in
  bpow radix2 (-960) <= size -> IZR (2 ^ L) * B <= IZR (2 ^ 49) * size ->
  in_grid i -> ilevel i = L -> incl l ps -> (forall p, In p l -> dcell_of d (2 ^ L) p = Ok (slot_of i L)) ->
  partition_contract part -> refine (dbelow d) part thr fuel i off l = Ok (t, out) ->
  forall q n p, sub t q = Some n -> (ilevel (r_idx (info n)) <= 31)%Z -> In p (contents off out n) -> near_box ((size + B) / IZR (2 ^ 48)) d (r_idx (info n)) p.
Proof.
  intros v ps B L i part thr fuel off l t out HV HP HB HL d size Hmin Hrel G Li HI Hcell Hc H.
  assert (Hmin' : bpow radix2 (-1000) <= size) by (eapply Rle_trans; [apply bpow_le|exact Hmin]; lia).
  destruct (hull_moderate v ps B HP HV HB Hmin) as [Mo To]. fold d size in To. fold d in Mo.
  apply (C56_refined d _ part thr fuel i off l t out Mo To G Hc); [|assumption].
  intros p Hp. split; [intros a; apply (HP p (HI p Hp))|].
  destruct (cell_ok v ps B L p HP HV HB HL Hmin' Hrel (HI p Hp)) as (j & Gj & Lj & Ej & _ & Nj). fold d in Ej, Nj. rewrite (Hcell p Hp) in Ej. injection Ej as Ej.
  assert (i = j) by (apply (slot_inj i j L); assumption). subst j. fold size in Nj. eapply near_mono; [|exact Nj].
  assert (0 <= size + B). { pose proof (bpow_gt_0 radix2 (-960)). destruct (bound_ok v ps B HP HV AX) as (B0 & _). lra. }
  change (IZR (2 ^ 49)) with 562949953421312. change (IZR (2 ^ 48)) with 281474976710656. lra.
Qed.
Print Assumptions C56_tree.

(** The corners and the centre reported for a box are those of the box up to [tol]. *)
Theorem C56_corners : forall d tol a i, moderate d -> tolerates tol d -> in_grid i -> (ilevel i <= 30)%Z ->
  exists l h c, dlow_from_index d a i = Ok l /\ dhigh_from_index d a i = Ok h /\ dcenter_from_index d a i = Ok c /\
    is_finite l = true /\ is_finite h = true /\ is_finite c = true /\
    let low := B2R (dcoord a (ddlow d)) in let side := B2R (ddsize d) / IZR (2 ^ ilevel i) in
    Rabs (B2R l - (low + IZR (iaxis a i) * side)) <= tol /\ Rabs (B2R h - (low + (IZR (iaxis a i) + 1) * side)) <= tol /\
    Rabs (B2R c - (low + (IZR (iaxis a i) + 1 / 2) * side)) <= tol /\ B2R c = B2R (dcentre d a i).
Proof.
  intros d tol a i Hd Ht G HL. destruct Hd as (F & (S1 & S2) & A). destruct (A a) as [Fl Ll]. specialize (Ht a).
  assert (G' := proj1 (in_grid_coords i) G). destruct G' as [L0 G']. specialize (G' a). change (GeomModel.icoord a i) with (iaxis a i) in G'. assert (HL' : (0 <= ilevel i <= 30)%Z) by lia.
  assert (Es : dsize_from_level d (ilevel i) = Ok (ddiv (ddsize d) (of_int (2 ^ ilevel i)))).
  { unfold dsize_from_level. destruct (Z.ltb_spec (ilevel i) 0); [lia|]. destruct (Z.ltb_spec 30 (ilevel i)); [lia|]. cbn [orb]. rewrite Z.shiftl_mul_pow2, Z.mul_1_l by lia. reflexivity. }
  destruct (int_exact (ilevel i) HL' (iaxis a i) ltac:(lia)) as (l1 & l2 & l3). destruct (int_exact (ilevel i) HL' (iaxis a i + 1) ltac:(lia)) as (h1 & h2 & h3). destruct (half_ok (ilevel i) HL' (iaxis a i) G') as (c1 & c2 & c3).
  destruct (corner_ok d a (ilevel i) F Fl S1 S2 Ll HL' _ _ l1 l2 l3) as (_ & X1 & X2 & X3). destruct (corner_ok d a (ilevel i) F Fl S1 S2 Ll HL' _ _ h1 h2 h3) as (_ & Y1 & Y2 & Y3). destruct (corner_ok d a (ilevel i) F Fl S1 S2 Ll HL' _ _ c1 c2 c3) as (_ & Z1 & Z2 & Z3).
  eexists _, _, _. unfold dlow_from_index, dhigh_from_index, dcenter_from_index, dcorner_coord. rewrite Es. cbn [bind]. change (dicoord a i) with (iaxis a i).
  split; [reflexivity|]. split; [reflexivity|]. split; [reflexivity|]. split; [exact X1|]. split; [exact Y1|]. split; [exact Z1|]. cbv zeta. rewrite X3, Y3, Z3. rewrite plus_IZR in Y2.
  split; [apply Rabs_le; lra|]. split; [apply Rabs_le; lra|]. split; [apply Rabs_le; lra|]. reflexivity.
Qed.
Print Assumptions C56_corners.

Example C56_nonvacuous : let d := ddomain_of ex_v in
  moderate d /\ tolerates (IZR 13 / IZR (2 ^ 48)) d /\ IZR (2 ^ 1) * 5 <= IZR (2 ^ 49) * B2R (ddsize d) /\
  dcell_of d 2 (ex_int 5 5 5) = Ok (slot_of (mkIndex 1 1 1 1) 1) /\ dcell_of d 2 (ex_int 1 2 3) = Ok (slot_of (mkIndex 1 0 0 1) 1) /\
  match refine (dbelow d) (fun _ _ f l => (filter f l, filter (fun r => negb (f r)) l)) 1 5 (mkIndex 0 0 0 0) 0 ex_all with
  | Ok (t, out) => length out = 3%nat /\ match sub t [1%nat] with Some n => r_cnt (info n) = 1%nat | None => False end
  | Fail _ => False
  end.
Proof.
  destruct C55_nonvacuous as (_ & W & HV & _ & _ & _). cbv zeta.
  assert (S8 : B2R (ddsize (ddomain_of ex_v)) = 8).
  { assert (E : B2SF (ddsize (ddomain_of ex_v)) = B2SF (of_int 8)) by (vm_compute; reflexivity). rewrite <- SF2R_B2SF, E, SF2R_B2SF. apply of_int_ok. reflexivity. }
  destruct (hull_moderate ex_v ex_all 5 W HV) as [Mo To]; [apply IZR_le; discriminate|rewrite S8; apply Rle_trans with (bpow radix2 0); [apply bpow_le; lia|cbn; lra]|].
  split; [exact Mo|]. split. { rewrite S8 in To. replace (IZR 13) with (8 + 5) by lra. exact To. }
  split; [rewrite S8, <- !mult_IZR; apply IZR_le; discriminate|]. split; [vm_compute; reflexivity|]. split; [vm_compute; reflexivity|].
  vm_compute. split; reflexivity.
Qed.
