(** C37: what the Barnes-Hut acceptance test guarantees. *)
From Coq Require Import ZArith QArith Qabs Reals Qreals List Bool Lia Lra Lqa.
From Verif Require Import Base IndexModel RefineModel LookupModel TreeModel GeomModel GeomSpec DagModel MethodModel DagSpec DagPaths DirectBHProofs MethodProps MacModel MacSpec MacProofs.
Import ListNotations.
Open Scope Q_scope.

(** The test of squares is the comparison of the opening angle. *)
Theorem C37_mac : forall theta s size p, 0 <= size -> (mac theta s size p = true <-> seen_below theta size s p).
Proof. exact mac_angle. Qed.
Print Assumptions C37_mac.
(** If the source centre is below the target box along no axis, the tested point is the
    nearest one, and acceptance is safe for every point of the target box. *)
Theorem C37_safe_if_not_below : forall theta scenter ssize tcenter tsize, 0 <= ssize -> 0 <= tsize -> not_below tcenter tsize scenter ->
  (forall p, in_cube tcenter tsize p -> square_dist (nearest scenter tcenter tsize) scenter <= square_dist p scenter) /\
  (mac theta scenter ssize (nearest scenter tcenter tsize) = true -> forall p, in_cube tcenter tsize p -> seen_below theta ssize scenter p).
Proof.
  intros theta s z t y Hz Hy Nb. split; [intros p Hp; apply nearest_nearest; assumption|]. intros H p Hp. apply mac_angle in H; [|exact Hz]. eapply seen_mono; [exact Hz|apply nearest_nearest; eassumption|exact H].
Qed.
Print Assumptions C37_safe_if_not_below.
(** In every case the tested point lies in the target box: what is safe for all of its points
    is accepted, and what is accepted is safe for one of them. *)
Theorem C37_tested_point : forall theta scenter ssize tcenter tsize, 0 <= ssize -> 0 <= tsize ->
  ((forall p, in_cube tcenter tsize p -> seen_below theta ssize scenter p) -> mac theta scenter ssize (nearest scenter tcenter tsize) = true) /\
  (mac theta scenter ssize (nearest scenter tcenter tsize) = true -> exists p, in_cube tcenter tsize p /\ seen_below theta ssize scenter p).
Proof.
  intros theta s z t y Hz Hy. split; intros H.
  - apply mac_angle; [exact Hz|]. apply H. apply nearest_in. exact Hy.
  - exists (nearest s t y). split; [apply nearest_in; exact Hy|]. apply mac_angle; assumption.
Qed.
Print Assumptions C37_tested_point.
(** Along an axis where the source lies below the box, the tested coordinate is the farthest. *)
Theorem C37_below_is_farthest : forall scenter tcenter tsize a p, 0 <= tsize -> coord a scenter < coord a tcenter - tsize * (1 # 2) -> in_cube tcenter tsize p ->
  Qabs (coord a p - coord a scenter) <= Qabs (coord a (nearest scenter tcenter tsize) - coord a scenter).
Proof.
  intros s t z a p Hz Hb Hp. specialize (Hp a). rewrite nearest_coord. destruct (pick_cases ((1 # 2) * z) (coord a s - coord a t)) as [[A B]|[[A B]|[A B]]]; try lra. rewrite !Qabs_pos by lra. lra.
Qed.
Print Assumptions C37_below_is_farthest.

(** ** In the Barnes-Hut DAG *)
(** The acceptance of bh_method.h for the boxes at two paths. *)
Definition bh_accept (theta : Q) (d : domain) (c q : path) : bool := match can_use theta d (idx_of c) (idx_of q) with Ok b => b | Fail _ => false end.
Lemma shiftl_pow : forall n, (0 <= n)%Z -> inject_Z (Z.shiftl 1 n) = inject_Z (2 ^ n). Proof. intros n H. rewrite Z.shiftl_1_l. reflexivity. Qed.
Lemma size_ok : forall d l s, size_from_level d l = Ok s -> (0 <= l)%Z /\ s = dsize d / inject_Z (2 ^ l).
Proof. intros d l s H. unfold size_from_level in H. destruct ((l <? 0) || (30 <? l))%Z eqn:E; [discriminate|]. apply orb_false_iff in E. destruct E as [E _]. apply Z.ltb_ge in E. injection H as <-. rewrite shiftl_pow by exact E. auto. Qed.
Lemma size_pos : forall d l s, 0 <= dsize d -> size_from_level d l = Ok s -> 0 <= s.
Proof. intros d l s H E. apply size_ok in E. destruct E as [L ->]. assert (0 < inject_Z (2 ^ l)) by (rewrite <- (Zlt_Qlt 0); apply Z.pow_pos_nonneg; lia). apply Qle_shift_div_l; [assumption|]. lra. Qed.
Lemma closed_cube : forall d i c s p, center_from_index d i = Ok c -> size_from_level d (ilevel i) = Ok s -> in_closed d i p -> in_cube c s p.
Proof.
  intros d i c s p Hc Hs Hp a. unfold center_from_index, corner in Hc. rewrite Hs in Hc. cbn [bind] in Hc. injection Hc as <-. apply size_ok in Hs. destruct Hs as [L E]. specialize (Hp a). cbv zeta in Hp. rewrite <- E in Hp. rewrite inject_Z_plus in Hp. change (inject_Z 1) with 1 in Hp. destruct a; cbn [coord px py pz icoord] in *; lra.
Qed.
(** Every multipole-to-target edge of the Barnes-Hut DAG whose source centre is below the target
    box along no axis is safe for all points of the target box. *)
Theorem C37_dag : forall A B theta d unif same fuel (S : tree A) (T : tree B), 0 <= dsize d -> usable unif fuel S T ->
  exists ss tt, create_dag (bh (bh_accept theta d) fuel) unif same fuel S T = Ok (ss, tt) /\
    forall c q, In (mkEdge MtoT ((SrcTree, c), Normal) ((TgtTree, q), Parts)) (all_edges (ss ++ tt)) ->
    exists scenter ssize low, center_from_index d (idx_of c) = Ok scenter /\ size_from_level d (ilevel (idx_of c)) = Ok ssize /\ low_from_index d (idx_of q) = Ok low /\
      ((forall a, coord a low <= coord a scenter) -> forall p, in_closed d (idx_of q) p -> seen_below theta ssize scenter p).
Proof.
  intros A B theta d unif same fuel S T Hd (H1 & H2 & H3 & H4 & H5 & H6). destruct (bh_dag S T unif fuel same H1 H2 H3 H4 H5 H6 (bh_accept theta d)) as (ss & tt & Hc & _ & _ & _ & _ & _ & Ac & _). exists ss, tt. split; [exact Hc|]. intros c q J. apply Ac in J. unfold bh_accept, can_use in J.
  destruct (center_from_index d (idx_of q)) as [tc|] eqn:E1; [|discriminate]. cbn [bind] in J. destruct (size_from_level d (ilevel (idx_of q))) as [ts|] eqn:E2; [|discriminate]. cbn [bind] in J. destruct (center_from_index d (idx_of c)) as [sc|] eqn:E3; [|discriminate]. cbn [bind] in J. destruct (size_from_level d (ilevel (idx_of c))) as [sz|] eqn:E4; [|discriminate]. cbn [bind] in J.
  assert (E5 : exists low, low_from_index d (idx_of q) = Ok low) by (unfold low_from_index, corner; rewrite E2; eexists; reflexivity). destruct E5 as (low & E5). exists sc, sz, low. split; [reflexivity|]. split; [reflexivity|]. split; [exact E5|]. intros Nb p Hp.
  destruct (C37_safe_if_not_below theta sc sz tc ts) as [_ G]; [eapply size_pos; eassumption|eapply size_pos; eassumption| |apply G; [exact J|eapply closed_cube; eassumption]].
  intros a. specialize (Nb a). unfold low_from_index, center_from_index, corner in E5, E1. rewrite E2 in E5, E1. cbn [bind] in E5, E1. injection E5 as <-. injection E1 as <-. destruct a; cbn [coord px py pz] in *; lra.
Qed.
Print Assumptions C37_dag.

(** Sources in the low corner box, a target box three boxes up along x: accepted for 1/3,
    although a target point sees the source box under the angle 2/5.  In the mirrored
    position it is not accepted. *)
Definition macD : domain := mkD (mkP 0 0 0) 8.
Definition macS : tree nat := put 0%nat [(0%nat, put 0%nat [(0%nat, leaf8 1%nat)])].
Definition macT : tree nat := put 0%nat [(1%nat, put 0%nat [(1%nat, leaf8 1%nat)])].
Definition has_edge (e : edge) (r : res (list task * list task)) : bool := match r with Ok (sl, tl) => existsb (fun x => if edge_dec x e then true else false) (all_edges (sl ++ tl)) | Fail _ => false end.
Theorem C37_accepts_too_much_refuted : usable 1 3 macS macT /\
  exists ss tt scenter p, create_dag (bh (bh_accept (1 # 3) macD) 3) 1 false 3 macS macT = Ok (ss, tt) /\
    In (mkEdge MtoT ((SrcTree, [0; 0]%nat), Normal) ((TgtTree, [1; 1]%nat), Parts)) (all_edges (ss ++ tt)) /\
    center_from_index macD (idx_of [0; 0]%nat) = Ok scenter /\ in_closed macD (idx_of [1; 1]%nat) p /\
    ~ seen_below (1 # 3) 2 scenter p /\ bh_accept (1 # 3) macD [1; 1]%nat [0; 0]%nat = false.
Proof.
  split; [apply usable_ok; reflexivity|]. assert (H : has_edge (mkEdge MtoT ((SrcTree, [0; 0]%nat), Normal) ((TgtTree, [1; 1]%nat), Parts)) (create_dag (bh (bh_accept (1 # 3) macD) 3) 1 false 3 macS macT) = true) by (vm_compute; reflexivity).
  destruct (create_dag (bh (bh_accept (1 # 3) macD) 3) 1 false 3 macS macT) as [[ss tt]|]; [|discriminate H]. cbn [has_edge] in H. apply existsb_exists in H. destruct H as (x & J & H). destruct (edge_dec x _) as [->|]; [|discriminate H]. destruct (center_from_index macD (idx_of [0; 0]%nat)) as [sc|] eqn:E; [|vm_compute in E; discriminate].
  exists ss, tt, sc, (mkP 6 1 1). split; [reflexivity|]. split; [exact J|]. split; [reflexivity|]. vm_compute in E. injection E as <-. split; [intros []; vm_compute; split; discriminate|]. split; [|vm_compute; reflexivity].
  intros X. apply mac_angle in X; [|discriminate]. vm_compute in X. discriminate.
Qed.
Print Assumptions C37_accepts_too_much_refuted.
(** The other side: accepted and safe for all points of the box. *)
Example C37_nonvacuous : not_below (mkP 1 1 1) 2 (mkP 9 1 1) /\ mac (1 # 3) (mkP 9 1 1) 2 (nearest (mkP 9 1 1) (mkP 1 1 1) 2) = true /\ in_cube (mkP 1 1 1) 2 (mkP 2 1 1).
Proof. split; [intros []; vm_compute; discriminate|]. split; [vm_compute; reflexivity|]. intros []; vm_compute; split; discriminate. Qed.
