(** C90: what the Barnes-Hut method delivers with the accelerations of LaplaceCOMAcc. *)
From Coq Require Import Reals Qreals ZArith QArith List Bool Arith Lia Lra Psatz Permutation.
From Verif Require Import Base ListFacts IndexModel IndexSpec TreeModel TreeFacts RefineModel RefineSpec RefineProofs LookupModel GeomModel GeomSpec DagModel DagSpec DagProofs MethodModel DirectBHProofs MethodProps MacModel MacSpec MacProps EdgeGroupSpec LinkSpec ListsSpec EvalModel EvalSpec EvalProps
  GroupModel ReduceModel ReduceSpec MessageModel MessageSpec ExchangeModel ExchangeSpec MergeModel BuildModel WholeModel WholeSpec WholeGrow WholeProofs
  ComModel ComSpec ComProofs LapModel LapSpec TranModel TranSpec TranProofs PotModel PotSpec PotFacts PotBoxes PotUp PotProofs PotOther PotProps RunModel RunSpec RunProofs RunTrees RunProps BhOwnProofs BhOwnProps ComRunModel ComRunProofs ComRunProps AccModel AccSpec AccProofs AccMath FieldRunModel FieldRunSpec FieldRunProofs FieldRunProps AccRunProofs.
Import ListNotations.
Open Scope R_scope.

(** Every target gains an acceleration within [err] of the field of the charges [l]. *)
Notation acc_writes S T ts l err := (writes_in fvalue_zero (fvalue_add add3) (@FVals (R * R * R)) (acc_edge (records T)) (field_leaf S) (records T) ts (fun t v => dist3 v (field l t) <= err)).

Lemma near_weaken l e e' ts vs : e <= e' -> all_near near_field l e ts vs -> Forall2 (fun t v => dist3 v (field l t) <= e') ts vs.
Proof. intros L H. unfold all_near, near_field in H. induction H as [|t v ts vs H1 H2 IH]; constructor; [lra|exact IH]. Qed.
Lemma Ka_eq size h theta m : 0 < size -> m * Ka size h theta = m / side size (Z.of_nat h) ^ 2 * (3 * sqrt 3 / (1 / theta - sqrt 3 / 2) ^ 5).
Proof. intros Hs. pose proof (side_pos size (Z.of_nat h) Hs). unfold Ka. replace (side size (Z.of_nat h) ^ 2) with (side size (Z.of_nat h) * side size (Z.of_nat h)) by ring. unfold Rdiv. ring. Qed.

(** What the addition of values means: what is first added to a new expansion is what it
    then holds, and two expansions of positive total are added as add_expansion does. *)
Theorem C90_additions : (forall u, mtot u <> 0 -> acc_add acc_zero u = u) /\
  (forall t u, 0 < mtot t -> 0 < mtot u -> fvalue_add add3 (FExp t) (FExp u) = FExp (acc_add t u)) /\
  (forall v, fvalue_add add3 fvalue_zero v = v) /\ (forall a b, fvalue_add add3 (FVals a) (FVals b) = FVals (vadd add3 a b)).
Proof.
  split; [|split; [|split]].
  - intros u Hu. destruct u as [m x y z a b c d e f]. cbn [mtot] in Hu. unfold acc_add, acc_zero. cbn [mtot cx cy cz qxx qxy qxz qyy qyz qzz]. rewrite Rplus_0_l. destruct (Req_EM_T m 0) as [E|_]; [contradiction|]. cbv zeta. f_equal; field; exact Hu.
  - intros t u Ht Hu. apply (fvalue_add_exp add3 t u Ht Hu).
  - reflexivity.
  - exact (fvalue_add_vals add3).
Qed.
Print Assumptions C90_additions.

(** Barnes-Hut with positive charges: if every accepted source box is seen from the targets
    under an angle of at most [theta], the error is at most that of second order in the angle. *)
Theorem C90_barnes_hut : forall corner size S T accept theta unif same fuel h, 0 < size ->
  usable unif fuel S T -> gathered S -> gathered T -> boxed cpos corner size S -> levels h S -> 0 < theta < 2 / sqrt 3 ->
  (forall s, leaf_at S s -> records S s <> []) -> (forall s, In s (info S) -> 0 < cq s) ->
  (forall c q t, accept c q = true -> In t (records T q) -> side size (Z.of_nat (length c)) <= theta * dist (middle corner size (idx_of c)) t) ->
  exists ss tt, create_dag (bh accept fuel) unif same fuel S T = Ok (ss, tt) /\
    (forall t, In t (info T) -> exists q, stops (ss ++ tt) q /\ In t (records T q)) /\
    acc_writes S T (ss ++ tt) (info S)
      (total_charge (info S) / side size (Z.of_nat h) ^ 2 * (3 * sqrt 3 / (1 / theta - sqrt 3 / 2) ^ 5)).
Proof.
  intros corner size S T accept theta unif same fuel h Hs HU GS GT BS LS Hth Hne Hpos Hacc. pose proof HU as (H1 & H2 & H3 & H4 & H5 & H6).
  destruct (bh_dag S T unif fuel same H1 H2 H3 H4 H5 H6 accept) as (ss & tt & Hc & G & _ & St & _ & Rt & _ & _ & _ & Up & To). exists ss, tt. split; [exact Hc|]. split; [exact (all_served S T _ G GT)|].
  eapply writes_in_ok; [exact (fvalue_monoid add3 add3_comm add3_assoc)|constructor|exact HU|exact Hc|]. intros val Sv q Sq. destruct G as (ND & One & _).
  destruct (acc_bh_ok corner size Hs S T fuel h H3 BS GS Hne Hpos LS accept theta Hth) with (E := all_edges (ss ++ tt)) (stop := stops (ss ++ tt)) (val := val) (q := q) as (phis & Ev & C); try assumption.
  - intros c q' t. rewrite idx_level. apply Hacc.
  - exists phis. split; [exact Ev|]. eapply near_weaken; [|exact C]. right. rewrite Ka_eq by assumption. reflexivity.
Qed.
Print Assumptions C90_barnes_hut.

(** The same with the acceptance test the method has. *)
Theorem C90_own : forall d S T theta tau k unif same fuel h, (0 < dsize d)%Q ->
  usable unif fuel S T -> gathered S -> gathered T -> boxed cpos (real (dlow d)) (Q2R (dsize d)) S -> boxed (fun x => x) (real (dlow d)) (Q2R (dsize d)) T -> levels h S -> (forall q, leaf_at T q -> (h <= length q + k)%nat) ->
  (forall s, leaf_at S s -> records S s <> []) -> (forall s, In s (info S) -> 0 < cq s) ->
  (0 < theta)%Q -> 0 < tau < 2 / sqrt 3 -> 1 / tau = 1 / Q2R theta - sqrt 3 * 2 ^ k ->
  exists ss tt, create_dag (bh (bh_accept theta d) fuel) unif same fuel S T = Ok (ss, tt) /\
    (forall t, In t (info T) -> exists q, stops (ss ++ tt) q /\ In t (records T q)) /\
    acc_writes S T (ss ++ tt) (info S)
      (total_charge (info S) / side (Q2R (dsize d)) (Z.of_nat h) ^ 2 * (3 * sqrt 3 / (1 / tau - sqrt 3 / 2) ^ 5)).
Proof.
  intros d S T theta tau k unif same fuel h Hd HU GS GT BS BT LS LT Hne Hpos Ht Hta Ek. pose proof (Q2R_pos _ Hd) as Hs. pose proof HU as (H1 & H2 & H3 & H4 & H5 & H6).
  destruct (bh_dag S T unif fuel same H1 H2 H3 H4 H5 H6 (bh_accept theta d)) as (ss & tt & Hc & G & _ & St & _ & Rt & _ & _ & _ & Up & To). exists ss, tt. split; [exact Hc|]. split; [exact (all_served S T _ G GT)|].
  eapply writes_in_ok; [exact (fvalue_monoid add3 add3_comm add3_assoc)|constructor|exact HU|exact Hc|]. intros val Sv q Sq. destruct G as (ND & One & _).
  set (accept' := fun c q => bh_accept theta d c q && (length c <=? length q + k)%nat).
  destruct (acc_bh_ok (real (dlow d)) (Q2R (dsize d)) Hs S T fuel h H3 BS GS Hne Hpos LS accept' tau Hta) with (E := all_edges (ss ++ tt)) (stop := stops (ss ++ tt)) (val := val) (q := q) as (phis & Ev & C); try assumption.
  - intros c q' t Ac It. apply andb_true_iff in Ac. destruct Ac as [Ac Lc]. apply Nat.leb_le in Lc. assert (In' : inside (real (dlow d)) (Q2R (dsize d)) (idx_of q') t) by (unfold records in It; destruct (sub T q') as [n|] eqn:Sn; [|destruct It]; eapply BT; eassumption).
    pose proof (accepted_far theta d c q' k t Hd Ht Ac Lc In') as F. rewrite <- Ek in F. apply (Rmult_le_compat_l tau) in F; [|lra]. replace (tau * (1 / tau * side (Q2R (dsize d)) (ilevel (idx_of c)))) with (side (Q2R (dsize d)) (ilevel (idx_of c))) in F by (field; lra). exact F.
  - intros q' e Ie Ee. destruct (To q' e Ie Ee) as (c & Sc & [[-> Ac]|[-> Lc]]); [|exists c; auto]. exists c. split; [exact Sc|]. left. split; [reflexivity|]. unfold accept'. rewrite Ac. cbn [andb]. apply Nat.leb_le.
    assert (Sq' : stops (ss ++ tt) q') by exact (edge_stops _ _ _ _ _ _ _ _ _ _ (B_bh _ _) HU Hc Ie eq_refl). apply St in Sq'. pose proof (LT q' Sq'). pose proof (LS c Sc). lia.
  - exists phis. split; [exact Ev|]. eapply near_weaken; [|exact C]. right. rewrite Ka_eq by assumption. reflexivity.
Qed.
Print Assumptions C90_own.

(** The same from the users' records. *)
Theorem C90_records : forall A B (pos_s : A -> point) (pos_t : B -> point) q L same users zs zt order junk rw sm tm part_s part_t pp thr fuel rank_map S T theta tau k h g,
  let d := domain_for pos_s pos_t same users order in let charges := map (charge_of pos_s q) (all_sources users) in
  (1 <= L <= 9)%Z -> well_posed pos_s pos_t zs zt same users -> ArraySpec.all_ranks (length users) order ->
  partition_contract part_s -> partition_contract part_t -> partition_point_contract pp -> (forall i, (i < Z.to_nat (8 ^ L))%nat -> (rank_map i < length users)%nat) ->
  trees_built pos_s pos_t q L same users zs zt junk rw sm tm d part_s part_t pp thr fuel rank_map S T ->
  levels h S -> levels h T -> (h < g)%nat -> (forall x, In x (all_sources users) -> 0 < q x) ->
  (forall b, leaf_at T b -> (h <= length b + k)%nat) -> (0 < theta)%Q -> 0 < tau < 2 / sqrt 3 -> 1 / tau = 1 / Q2R theta - sqrt 3 * 2 ^ k ->
  exists ss tt, create_dag (bh (bh_accept theta d) g) (Z.to_nat L) same g S T = Ok (ss, tt) /\
    each_target T (ss ++ tt) (map (place_of pos_t) (all_targets users)) /\
    acc_writes S T (ss ++ tt) charges
      (total_charge charges / side (Q2R (dsize d)) (Z.of_nat h) ^ 2 * (3 * sqrt 3 / (1 / tau - sqrt 3 / 2) ^ 5)).
Proof.
  intros A B pos_s pos_t q L same users zs zt order junk rw sm tm part_s part_t pp thr fuel rank_map S T theta tau k h g d charges HL Hw Ho Ps Pt Pp Hm Ht LS LT Hg Hq Lk Hth Hta Ek.
  destruct (info_ok pos_s pos_t q L HL same users zs zt Hw order Ho junk rw sm tm part_s part_t pp Ps Pt Pp thr fuel rank_map Hm S T Ht) as [I1 I2].
  destruct (RunTrees.usable_ok pos_s pos_t q L HL same users zs zt Hw order Ho junk rw sm tm part_s part_t pp Ps Pt Pp thr fuel rank_map Hm S T Ht g h LS LT Hg) as (U & GS & GT).
  destruct (RunTrees.domain_ok pos_s pos_t same users zs zt Hw order Ho) as (Hd & _). fold d in Hd.
  destruct (kept_sources pos_s pos_t q L HL same users zs zt Hw order Ho junk rw sm tm part_s part_t pp Ps thr fuel rank_map Hm S T Ht) as (_ & _ & _ & _ & BS & _). fold d in BS.
  destruct (kept_targets pos_s pos_t q L HL same users zs zt Hw order Ho junk rw sm tm part_s part_t pp Ps Pt Pp thr fuel rank_map Hm S T Ht) as (X & pos & all & _ & _ & _ & _ & _ & BT & _). fold d in BT.
  assert (Hne : forall s, leaf_at S s -> records S s <> []).
  { intros s (n & Sn & _). pose proof Ht as (locals & unif & sources & Hc & Hb & Es & _). destruct (whole_sources pos_s pos_t L HL same users zs zt Hw order Ho junk rw sm tm part_s Ps thr fuel rank_map Hm locals unif sources Hc Hb) as [G _].
    rewrite Es in Sn. unfold records. rewrite Es, Sn. destruct (map_some _ _ _ _ Sn) as (m & Sm & ->). rewrite map_info. destruct G as [G1 G2]. destruct (proj1 (G2 s) (ex_intro _ m Sm)) as [Ne _]. destruct (G1 s m Sm) as [Pm _]. intros Z. apply map_eq_nil in Z. rewrite Z in Pm. apply Permutation_nil in Pm. exact (Ne Pm). }
  assert (Hpos : forall s, In s (info S) -> 0 < cq s) by (intros s I; rewrite I1 in I; apply in_map_iff in I; destruct I as (x & <- & I); exact (Hq x I)).
  destruct (C90_own d S T theta tau k _ same g h Hd U GS GT BS BT LS Lk Hne Hpos Hth Hta Ek) as (ss & tt & Hc & _ & D). exists ss, tt. split; [exact Hc|].
  pose proof U as (H1 & H2 & H3 & H4 & H5 & H6). destruct (bh_dag S T _ g same H1 H2 H3 H4 H5 H6 (bh_accept theta d)) as (ss' & tt' & Hc' & G & _). rewrite Hc in Hc'. injection Hc' as <- <-. split; [exact (every_target S T _ _ G GT I2)|].
  rewrite (total_perm _ _ I1) in D. eapply writes_weaken; [|exact D]. cbn beta. intros t v. rewrite (field_perm _ _ t I1). exact (fun Hd => Hd).
Qed.
Print Assumptions C90_records.

(** ** Instances *)
(** Two charges in a small box and a target three boxes away; theta = 1/3. *)
Example C90_nonvacuous : exists ss tt st v, let tau := 1 / (3 - sqrt 3) in
  create_dag (bh (bh_accept (1 # 3) near_D) 3) 1 false 3 (one_S two_charges) (far_T [far_t]) = Ok (ss, tt) /\ ops_of (Ok (ss, tt)) = [StoM; MtoM; MtoM; MtoT] /\
  0 < tau < 2 / sqrt 3 /\ 1 / tau = 1 / Q2R (1 # 3) - sqrt 3 * 2 ^ 0 /\
  run_in fvalue_zero (fvalue_add add3) (acc_edge (records (far_T [far_t]))) (field_leaf (one_S two_charges)) (ss ++ tt) (FVals [(7, 3, 1)]) st /\
  tval st ((TgtTree, [1; 1]%nat), Parts) = FVals [add3 (7, 3, 1) v] /\ dist3 v (field two_charges far_t) <= 3 / 4 * (3 * sqrt 3 / (1 / tau - sqrt 3 / 2) ^ 5).
Proof.
  assert (S3 : 17 / 10 < sqrt 3 < 174 / 100) by (split; [rewrite <- (sqrt_square (17 / 10)) by lra|rewrite <- (sqrt_square (174 / 100)) by lra]; apply sqrt_lt_1_alt; lra).
  set (tau := 1 / (3 - sqrt 3)). assert (E1 : 1 / tau = 3 - sqrt 3) by (unfold tau; field; lra). assert (Th : 0 < tau < 2 / sqrt 3).
  { unfold tau. split; [apply Rdiv_lt_0_compat; lra|]. apply Rmult_lt_reg_r with (sqrt 3 * (3 - sqrt 3)); [nra|]. replace (1 / (3 - sqrt 3) * (sqrt 3 * (3 - sqrt 3))) with (sqrt 3) by (field; lra). replace (2 / sqrt 3 * (sqrt 3 * (3 - sqrt 3))) with (2 * (3 - sqrt 3)) by (field; lra). lra. }
  assert (E2 : 1 / tau = 1 / Q2R (1 # 3) - sqrt 3 * 2 ^ 0) by (rewrite E1; unfold Q2R; cbn; lra).
  assert (Ec : real (dlow near_D) = mkPt 0 0 0) by (unfold real, near_D; cbn [dlow coord GeomModel.px GeomModel.py GeomModel.pz]; f_equal; unfold Q2R; cbn; lra). assert (E8 : Q2R (dsize near_D) = 8) by (unfold Q2R; cbn; lra).
  destruct (C90_own near_D (one_S two_charges) (far_T [far_t]) (1 # 3) tau 0 1 false 3 2 ltac:(reflexivity) (far_usable _ _)) as (ss & tt & Hc & _ & Dv); [apply PotProps.one_gathered|apply far_gathered|rewrite Ec, E8; exact two_boxed|rewrite Ec, E8; apply far_scene|apply PotProps.one_levels| | | |reflexivity|exact Th|exact E2|].
  { intros q (n & Sn & Kn). assert (Q : sub (far_T [far_t]) q <> None) by congruence. apply far_paths in Q. destruct Q as [->|[->| ->]]; cbn; try lia; exfalso; injection Sn as <-; specialize (Kn 1%nat); discriminate. }
  { intros s (n & Sn & _). unfold records. rewrite Sn, (PotProps.one_info _ _ _ (or_introl Sn)). discriminate. }
  { intros s I. change (info (one_S two_charges)) with two_charges in I. destruct I as [<-|[<-|[]]]; cbn; lra. }
  rewrite E8 in Dv. destruct (far_ops two_charges [far_t]) as [Fs Op]. destruct (fed_and_stops_ok _ _ Fs) as (ss' & tt' & Hc' & Fd & Sq). unfold far_dag in Hc'. rewrite Hc in Hc'. injection Hc' as <- <-.
  destruct (one_run_writes _ _ _ _ 1 false 3 _ _ ss tt _ _ (FVals [(7, 3, 1)]) _ [1; 1]%nat (B_bh _ _) (far_usable _ _) Hc Fd Sq Dv) as (st & phis & Rs & Ts & Cl).
  change (records (far_T [far_t]) [1; 1]%nat) with [far_t] in Cl. inversion Cl as [|t v ts vs B Cl' X Y]; subst. inversion Cl'; subst.
  exists ss, tt, st, v. cbv zeta. split; [exact Hc|]. split; [rewrite <- Hc; exact Op|]. split; [exact Th|]. split; [exact E2|]. split; [exact Rs|]. split; [exact Ts|].
  change (info (one_S two_charges)) with two_charges in B. destruct near_sides as (_ & _ & Es & _). change (Z.of_nat 2) with 2%Z in B. rewrite Es in B. fold tau. replace (total_charge two_charges) with 3 in B; [replace (3 / 2 ^ 2) with (3 / 4) in B by field; exact B|]. unfold total_charge, two_charges. cbn [fold_right cq]. rewrite !Rabs_right by lra. ring.
Qed.
