(** C89: what the direct method delivers with the Yukawa and Helmholtz kernels and with the
    accelerations of LaplaceCOMAcc. *)
From Coq Require Import Reals ZArith QArith List Bool Arith Lia Lra Psatz Permutation.
From Verif Require Import Base ListFacts IndexModel IndexSpec TreeModel TreeFacts RefineModel RefineSpec RefineProofs LookupModel GeomModel GeomSpec DagModel DagSpec DagProofs MethodModel DirectBHProofs MethodProps EdgeGroupSpec LinkSpec EvalModel EvalSpec EvalValues EvalProps
  GroupModel ReduceModel ReduceSpec MessageModel MessageSpec ExchangeModel ExchangeSpec MergeModel BuildModel WholeModel WholeSpec WholeGrow WholeProofs
  ComModel ComRunModel ComRunProofs AccModel LapModel LapSpec TranModel TranSpec YukModel YukSpec YukProps HelmModel HelmSpec HelmProps PotModel PotSpec PotFacts PotProofs PotOther PotProps RunModel RunSpec RunProofs RunTrees RunProps FieldRunModel FieldRunSpec FieldRunProofs.
Import ListNotations.
Open Scope R_scope.

(** ** From the values of the DAG to all evaluations *)
Lemma writes_in_ok {M G} (zero : M) add (vals : list G -> M) (m : method (list LapModel.charge) (list pt)) unif same fuel S T ss tt op_val sources right : monoid zero add -> builtin fuel m -> usable unif fuel S T -> create_dag m unif same fuel S T = Ok (ss, tt) ->
  (forall val, solves zero add op_val sources (all_edges (ss ++ tt)) val ->
     forall q, stops (ss ++ tt) q -> exists vs, val (tgt q, Parts) = vals vs /\ Forall2 right (records T q) vs) ->
  writes_in zero add vals op_val sources (records T) (ss ++ tt) right.
Proof.
  intros Hm Hb HU Hc H loc num_ranks inc outs H1 H2 H3 s0 s Q0 C0 Ev Told q Sq. destruct (C30_methods _ _ m unif same fuel S T Hb HU) as (ss' & tt' & Hc' & Nc & D'). rewrite Hc in Hc'. injection Hc' as <- <-. pose proof (D' loc num_ranks inc outs H1 H2 H3) as D.
  fold (the_leaves (ss ++ tt)) in Ev. fold (the_lcos (ss ++ tt)) in Ev. destruct (C30_signal zero add op_val sources loc num_ranks inc outs _ _ _ D s0 s Q0 Ev) as [_ Sg]. destruct (Sg Told) as (_ & Pf & _).
  destruct (C30_delivery zero add op_val sources loc num_ranks inc outs _ _ _ D s0 s Q0 Ev) as (_ & _ & _ & Fi & Tr).
  assert (Tg : forall v, In v (the_lcos (ss ++ tt)) -> trig s v = true) by (intros v J; apply Fi; apply (Permutation_in _ (Permutation_sym Pf)); exact J).
  destruct (solution_exists zero add op_val sources _ Nc) as (val & Sv). destruct (C30_values zero add op_val sources loc num_ranks inc outs _ _ _ D Hm val Sv s0 s Q0 C0 Ev) as (_ & Vt & _).
  destruct (H val Sv q Sq) as (vs & Ep & Cp). exists vs. split; [|exact Cp]. change ((TgtTree, q), Parts) with (tgt q, Parts). rewrite (Vt (tgt q, Parts)); [rewrite Ep; reflexivity|reflexivity|]. apply Tg. apply filter_In. split; [exact Sq|reflexivity].
Qed.
Lemma one_run_writes {M G} (zero : M) add (vals : list G -> M) (m : method (list LapModel.charge) (list pt)) unif same fuel S T ss tt op_val sources t0 right q : builtin fuel m -> usable unif fuel S T -> create_dag m unif same fuel S T = Ok (ss, tt) ->
  all_fed (the_lcos (ss ++ tt)) (all_edges (ss ++ tt)) -> stops (ss ++ tt) q -> writes_in zero add vals op_val sources (records T) (ss ++ tt) right ->
  exists s vs, run_in zero add op_val sources (ss ++ tt) t0 s /\ tval s ((TgtTree, q), Parts) = add t0 (vals vs) /\ Forall2 right (records T q) vs.
Proof.
  intros Hb HU Hc Fd Sq Dv. destruct (C30_methods _ _ m unif same fuel S T Hb HU) as (ss' & tt' & Hc' & Nc & D'). rewrite Hc in Hc'. injection Hc' as <- <-.
  assert (A1 : forall v, In v (all_adds (ss ++ tt)) -> (0 <= (fun _ => 0%Z) v < 1)%Z) by (intros; lia). assert (A2 : forall v, the_inc (all_edges (ss ++ tt)) v = length (LinkSpec.into v (all_edges (ss ++ tt)))) by reflexivity. assert (A3 : forall v, sort_outcome (fun e => (fun _ => 0%Z) (eto e)) (LinkSpec.out_of v (all_edges (ss ++ tt))) (the_outs (all_edges (ss ++ tt)) v)) by (intros v; apply one_loc).
  pose proof (D' (fun _ => 0%Z) 1%Z (the_inc (all_edges (ss ++ tt))) (the_outs (all_edges (ss ++ tt))) A1 A2 A3) as D. assert (I0 : idle (blank (M := M) (fun _ => t0))) by (split; [intros t []|reflexivity]).
  destruct (C30_end_exists _ zero add op_val sources _ _ _ _ _ _ _ D Nc Fd _ I0) as (s & Ev & Ov). destruct (C30_ends zero add op_val sources _ _ _ _ _ _ _ D Nc Fd _ I0) as (_ & _ & Told). destruct (Told s Ev Ov) as (_ & _ & Z0).
  destruct (Dv _ _ _ _ A1 A2 A3 _ s I0 ltac:(intros v _; reflexivity) Ev Z0 q Sq) as (vs & Et & Cl). exists s, vs. split; [split; assumption|]. split; [exact Et|exact Cl].
Qed.
Lemma writes_weaken {M G} (zero : M) add (vals : list G -> M) op_val sources targets ts (r1 r2 : pt -> G -> Prop) : (forall t v, r1 t v -> r2 t v) -> writes_in zero add vals op_val sources targets ts r1 -> writes_in zero add vals op_val sources targets ts r2.
Proof.
  intros P D loc num_ranks inc outs H1 H2 H3 s0 s H4 H5 H6 H7 q Hq. destruct (D loc num_ranks inc outs H1 H2 H3 s0 s H4 H5 H6 H7 q Hq) as (vs & E & C). exists vs. split; [exact E|]. clear E. induction C; constructor; auto.
Qed.

(** ** The kernels *)
Lemma drop_self {X} (f : list LapModel.charge -> X) t : (forall l1 s l2, cpos s = t -> f (l1 ++ s :: l2) = f (l1 ++ l2)) -> forall l, f l = f (others t l).
Proof.
  intros H l. assert (K : forall l2 l1, f (l1 ++ l2) = f (l1 ++ others t l2)).
  { induction l2 as [|s k IH]; intros l1; [reflexivity|]. unfold others. cbn [filter]. destruct (pt_dec (cpos s) t) as [E|_]; [rewrite (H l1 s k E); apply IH|]. change (s :: k) with ([s] ++ k). rewrite app_assoc, IH, <- app_assoc. reflexivity. }
  exact (K l []).
Qed.
Definition yukawa_at lambda l t : cplx := (screened lambda (others t l) t, 0).
Definition helmholtz_at omega l t : cplx := (wave_re omega (others t l) t, wave_im omega (others t l) t).
Lemma yukawa_kernel_ok lambda l t : 0 < lambda -> yukawa_kernel lambda l t = Ok (yukawa_at lambda l t).
Proof.
  intros H. unfold yukawa_kernel, yukawa_at. rewrite (drop_self (fun l => yuk_S_to_T lambda l t 0) t) by (intros l1 s l2 <-; apply C77_direct_self). rewrite C77_direct, Rplus_0_l; [reflexivity|exact H|]. intros s I. apply (others_in t l s I).
Qed.
Lemma helmholtz_kernel_ok omega l t : 0 < omega -> helmholtz_kernel omega l t = Ok (helmholtz_at omega l t).
Proof.
  intros H. unfold helmholtz_kernel, helmholtz_at. rewrite (drop_self (fun l => helm_S_to_T omega l t (0, 0)) t) by (intros l1 s l2 <-; apply C81_direct_self). rewrite C81_direct; [cbn [fst snd]; rewrite !Rplus_0_l; reflexivity|exact H|]. intros s I. apply (others_in t l s I).
Qed.
Lemma yukawa_at_app lambda l1 l2 t : yukawa_at lambda (l1 ++ l2) t = cadd (yukawa_at lambda l1 t) (yukawa_at lambda l2 t).
Proof. unfold yukawa_at, cadd. cbn [fst snd]. rewrite others_app. unfold screened. rewrite fold_sum_app. f_equal. ring. Qed.
Lemma yukawa_at_perm lambda l l' t : Permutation l l' -> yukawa_at lambda l t = yukawa_at lambda l' t.
Proof. intros P. unfold yukawa_at, screened. f_equal. apply fold_sum_perm, others_perm, P. Qed.
Lemma helmholtz_at_app omega l1 l2 t : helmholtz_at omega (l1 ++ l2) t = cadd (helmholtz_at omega l1 t) (helmholtz_at omega l2 t).
Proof. unfold helmholtz_at, cadd. cbn [fst snd]. rewrite others_app. unfold wave_re, wave_im. rewrite !fold_sum_app. reflexivity. Qed.
Lemma helmholtz_at_perm omega l l' t : Permutation l l' -> helmholtz_at omega l t = helmholtz_at omega l' t.
Proof. intros P. unfold helmholtz_at, wave_re, wave_im. f_equal; apply fold_sum_perm, others_perm, P. Qed.
Lemma cadd_comm' (a b : cplx) : cadd a b = cadd b a.
Proof. unfold cadd. f_equal; ring. Qed.
Lemma cadd_assoc' (a b c : cplx) : cadd a (cadd b c) = cadd (cadd a b) c.
Proof. unfold cadd. cbn [fst snd]. f_equal; ring. Qed.

(** ** C89 *)
(** A kernel that gives each target a sum over the sources. *)
Lemma direct_writes {G} (gadd : G -> G -> G) (f : list LapModel.charge -> pt -> G) kernel op_val S T unif same fuel ss tt :
  (forall a b, gadd a b = gadd b a) -> (forall a b c, gadd a (gadd b c) = gadd (gadd a b) c) ->
  (forall l1 l2 t, f (l1 ++ l2) t = gadd (f l1 t) (f l2 t)) -> (forall l l' t, Permutation l l' -> f l t = f l' t) -> (forall l t, kernel l t = Ok (f l t)) ->
  (forall s q l, op_val (mkEdge StoT (src s, Parts) (tgt q, Parts)) (FSources l) = for_targets (kernel l) (records T q)) ->
  usable unif fuel S T -> gathered S -> create_dag (direct fuel) unif same fuel S T = Ok (ss, tt) ->
  writes_in fvalue_zero (fvalue_add gadd) (@FVals G) op_val (field_leaf S) (records T) (ss ++ tt) (fun t v => v = f (info S) t).
Proof.
  intros Cm As Fa Fp Fk Ho HU GS Hc. destruct (C35_direct _ _ unif same fuel S T HU) as (ss' & tt' & Hc' & G' & St & Ed). rewrite Hc in Hc'. injection Hc' as <- <-.
  eapply writes_in_ok; [exact (fvalue_monoid gadd Cm As)|constructor|exact HU|exact Hc|]. intros val Sv q Sq. apply St in Sq. destruct G' as [ND _].
  exact (field_direct_ok gadd (fun l _ t v => v = f l t) ltac:(intros l1 l2 _ _ t a b -> ->; symmetry; apply Fa) ltac:(intros l l' _ t a P ->; apply Fp, P) kernel ltac:(intros l t; eexists; split; [apply Fk|reflexivity]) op_val S T GS Ho _ ND Ed val Sv q Sq).
Qed.
(** The Yukawa kernel: every target gains the screened potential of all charges but those at
    its own place; the imaginary part of what it holds stays. *)
Theorem C89_yukawa : forall lambda S T unif same fuel, 0 < lambda -> usable unif fuel S T -> gathered S -> gathered T ->
  exists ss tt, create_dag (direct fuel) unif same fuel S T = Ok (ss, tt) /\
    (forall t, In t (info T) -> exists q, stops (ss ++ tt) q /\ In t (records T q)) /\
    writes_in fvalue_zero (fvalue_add cadd) (@FVals cplx) (direct_edge (records T) (yukawa_kernel lambda)) (field_leaf S) (records T) (ss ++ tt)
      (fun t v => v = (screened lambda (others t (info S)) t, 0)).
Proof.
  intros lambda S T unif same fuel Hl HU GS GT. destruct (C35_direct _ _ unif same fuel S T HU) as (ss & tt & Hc & G & _). exists ss, tt. split; [exact Hc|]. split; [exact (all_served S T _ G GT)|].
  apply (direct_writes cadd (yukawa_at lambda) (yukawa_kernel lambda) _ S T unif same fuel ss tt cadd_comm' cadd_assoc' (yukawa_at_app lambda) (yukawa_at_perm lambda)); auto. intros l t. apply yukawa_kernel_ok, Hl.
Qed.
Print Assumptions C89_yukawa.
(** The Helmholtz kernel: the field of all sources but those at the target's own place. *)
Theorem C89_helmholtz : forall omega S T unif same fuel, 0 < omega -> usable unif fuel S T -> gathered S -> gathered T ->
  exists ss tt, create_dag (direct fuel) unif same fuel S T = Ok (ss, tt) /\
    (forall t, In t (info T) -> exists q, stops (ss ++ tt) q /\ In t (records T q)) /\
    writes_in fvalue_zero (fvalue_add cadd) (@FVals cplx) (direct_edge (records T) (helmholtz_kernel omega)) (field_leaf S) (records T) (ss ++ tt)
      (fun t v => v = (wave_re omega (others t (info S)) t, wave_im omega (others t (info S)) t)).
Proof.
  intros omega S T unif same fuel Hl HU GS GT. destruct (C35_direct _ _ unif same fuel S T HU) as (ss & tt & Hc & G & _). exists ss, tt. split; [exact Hc|]. split; [exact (all_served S T _ G GT)|].
  apply (direct_writes cadd (helmholtz_at omega) (helmholtz_kernel omega) _ S T unif same fuel ss tt cadd_comm' cadd_assoc' (helmholtz_at_app omega) (helmholtz_at_perm omega)); auto. intros l t. apply helmholtz_kernel_ok, Hl.
Qed.
Print Assumptions C89_helmholtz.
(** LaplaceCOMAcc: the vector sum of charge times distance over the cube of the distance. *)
Theorem C89_accelerations : forall S T unif same fuel, usable unif fuel S T -> gathered S -> gathered T ->
  exists ss tt, create_dag (direct fuel) unif same fuel S T = Ok (ss, tt) /\
    (forall t, In t (info T) -> exists q, stops (ss ++ tt) q /\ In t (records T q)) /\
    writes_in fvalue_zero (fvalue_add add3) (@FVals (R * R * R)) (acc_edge (records T)) (field_leaf S) (records T) (ss ++ tt)
      (fun t v => v = field (info S) t).
Proof.
  intros S T unif same fuel HU GS GT. destruct (C35_direct _ _ unif same fuel S T HU) as (ss & tt & Hc & G & _). exists ss, tt. split; [exact Hc|]. split; [exact (all_served S T _ G GT)|].
  apply (direct_writes add3 field acc_kernel _ S T unif same fuel ss tt add3_comm add3_assoc field_app field_perm); auto. intros l t. unfold acc_kernel. rewrite acc_direct_ok. reflexivity.
Qed.
Print Assumptions C89_accelerations.

(** The same from the users' records. *)
Theorem C89_records : forall A B (pos_s : A -> point) (pos_t : B -> point) q L same users zs zt order junk rw sm tm part_s part_t pp thr fuel rank_map S T lambda omega h g,
  let d := domain_for pos_s pos_t same users order in let charges := map (charge_of pos_s q) (all_sources users) in
  (1 <= L <= 9)%Z -> well_posed pos_s pos_t zs zt same users -> ArraySpec.all_ranks (length users) order ->
  partition_contract part_s -> partition_contract part_t -> partition_point_contract pp -> (forall i, (i < Z.to_nat (8 ^ L))%nat -> (rank_map i < length users)%nat) ->
  trees_built pos_s pos_t q L same users zs zt junk rw sm tm d part_s part_t pp thr fuel rank_map S T ->
  levels h S -> levels h T -> (h < g)%nat -> 0 < lambda -> 0 < omega ->
  exists ss tt, create_dag (direct g) (Z.to_nat L) same g S T = Ok (ss, tt) /\
    each_target T (ss ++ tt) (map (place_of pos_t) (all_targets users)) /\
    writes_in fvalue_zero (fvalue_add cadd) (@FVals cplx) (direct_edge (records T) (yukawa_kernel lambda)) (field_leaf S) (records T) (ss ++ tt)
      (fun t v => v = (screened lambda (others t charges) t, 0)) /\
    writes_in fvalue_zero (fvalue_add cadd) (@FVals cplx) (direct_edge (records T) (helmholtz_kernel omega)) (field_leaf S) (records T) (ss ++ tt)
      (fun t v => v = (wave_re omega (others t charges) t, wave_im omega (others t charges) t)) /\
    writes_in fvalue_zero (fvalue_add add3) (@FVals (R * R * R)) (acc_edge (records T)) (field_leaf S) (records T) (ss ++ tt)
      (fun t v => v = field charges t).
Proof.
  intros A B pos_s pos_t q L same users zs zt order junk rw sm tm part_s part_t pp thr fuel rank_map S T lambda omega h g d charges HL Hw Ho Ps Pt Pp Hm Ht LS LT Hg Hl Hom.
  destruct (info_ok pos_s pos_t q L HL same users zs zt Hw order Ho junk rw sm tm part_s part_t pp Ps Pt Pp thr fuel rank_map Hm S T Ht) as [I1 I2].
  destruct (RunTrees.usable_ok pos_s pos_t q L HL same users zs zt Hw order Ho junk rw sm tm part_s part_t pp Ps Pt Pp thr fuel rank_map Hm S T Ht g h LS LT Hg) as (U & GS & GT).
  destruct (C35_direct _ _ (Z.to_nat L) same g S T U) as (ss & tt & Hc & G & _). exists ss, tt. split; [exact Hc|]. split; [exact (every_target S T _ _ G GT I2)|]. fold charges in I1. split; [|split].
  - destruct (C89_yukawa lambda S T _ same g Hl U GS GT) as (ss' & tt' & Hc' & _ & D). rewrite Hc in Hc'. injection Hc' as <- <-. eapply writes_weaken; [|exact D]. cbn beta. intros t v ->. exact (yukawa_at_perm lambda _ _ t I1).
  - destruct (C89_helmholtz omega S T _ same g Hom U GS GT) as (ss' & tt' & Hc' & _ & D). rewrite Hc in Hc'. injection Hc' as <- <-. eapply writes_weaken; [|exact D]. cbn beta. intros t v ->. exact (helmholtz_at_perm omega _ _ t I1).
  - destruct (C89_accelerations S T _ same g U GS GT) as (ss' & tt' & Hc' & _ & D). rewrite Hc in Hc'. injection Hc' as <- <-. eapply writes_weaken; [|exact D]. cbn beta. intros t v ->. exact (field_perm _ _ t I1).
Qed.
Print Assumptions C89_records.

(** ** Instances *)
(** A charge at the distance 4 of the target and one at its place. *)
Definition self_charges : list LapModel.charge := [one_charge; mkCharge 5 one_target].
Lemma self_others : others one_target self_charges = [one_charge] /\ dist one_target (cpos one_charge) = 4.
Proof.
  split.
  - unfold others, self_charges. cbn [filter cpos]. destruct (pt_dec (cpos one_charge) one_target) as [E|_]; [injection E as E1; lra|]. destruct (pt_dec one_target one_target) as [_|N]; [reflexivity|destruct (N eq_refl)].
  - unfold dist, one_target, one_charge. cbn [cpos px py pz]. replace ((5 - 1) ^ 2 + (1 - 1) ^ 2 + (3 / 2 - 3 / 2) ^ 2) with (4 * 4) by ring. apply sqrt_square. lra.
Qed.
Lemma self_run {G} (gadd : G -> G -> G) op_val (v t0 : G) : (forall ss tt, create_dag (direct 3) 1 false 3 (one_S self_charges) (one_T [one_target]) = Ok (ss, tt) ->
    writes_in fvalue_zero (fvalue_add gadd) (@FVals G) op_val (field_leaf (one_S self_charges)) (records (one_T [one_target])) (ss ++ tt) (fun t u => t = one_target -> u = v)) ->
  exists ss tt st, create_dag (direct 3) 1 false 3 (one_S self_charges) (one_T [one_target]) = Ok (ss, tt) /\
    run_in fvalue_zero (fvalue_add gadd) op_val (field_leaf (one_S self_charges)) (ss ++ tt) (FVals [t0]) st /\ tval st ((TgtTree, [1; 0]%nat), Parts) = FVals [gadd t0 v].
Proof.
  intros H. destruct (fed_and_stops_ok _ _ (one_direct self_charges [one_target])) as (ss & tt & Hc & Fd & Sq).
  destruct (one_run_writes _ _ _ (direct 3) 1 false 3 _ _ ss tt _ _ (FVals [t0]) _ [1; 0]%nat (B_direct _) (one_usable _ _) Hc Fd Sq (H ss tt Hc)) as (st & vs & Rs & Ts & Cl).
  change (records (one_T [one_target]) [1; 0]%nat) with [one_target] in Cl. inversion Cl as [|t u ts us Hu Cl' X Y]; subst. inversion Cl'; subst. rewrite (Hu eq_refl) in Ts. exists ss, tt, st. split; [exact Hc|]. split; [exact Rs|exact Ts].
Qed.
Example C89_yukawa_nonvacuous : exists ss tt st, create_dag (direct 3) 1 false 3 (one_S self_charges) (one_T [one_target]) = Ok (ss, tt) /\
  run_in fvalue_zero (fvalue_add cadd) (direct_edge (records (one_T [one_target])) (yukawa_kernel 1)) (field_leaf (one_S self_charges)) (ss ++ tt) (FVals [(7, 3)]) st /\
  tval st ((TgtTree, [1; 0]%nat), Parts) = FVals [(7 + PI / 4 * exp (- 4), 3)].
Proof.
  replace (7 + PI / 4 * exp (- 4), 3) with (cadd (7, 3) (PI / 4 * exp (- 4), 0)) by (unfold cadd; cbn [fst snd]; f_equal; ring). apply self_run. intros ss tt Hc.
  destruct (C89_yukawa 1 (one_S self_charges) (one_T [one_target]) 1 false 3 ltac:(lra) (one_usable _ _) (proj1 (PotProps.one_gathered _)) (proj2 (PotProps.one_gathered _))) as (ss' & tt' & Hc' & _ & D). rewrite Hc in Hc'. injection Hc' as <- <-. eapply writes_weaken; [|exact D]. cbn beta. intros t v -> ->.
  change (info (one_S self_charges)) with self_charges. destruct self_others as [-> E]. unfold screened. cbn [fold_right]. rewrite E. cbn [one_charge cq]. rewrite Rmult_1_l. f_equal. replace (- (4)) with (-4) by ring. field.
Qed.
Example C89_helmholtz_nonvacuous : exists ss tt st, create_dag (direct 3) 1 false 3 (one_S self_charges) (one_T [one_target]) = Ok (ss, tt) /\
  run_in fvalue_zero (fvalue_add cadd) (direct_edge (records (one_T [one_target])) (helmholtz_kernel (PI / 8))) (field_leaf (one_S self_charges)) (ss ++ tt) (FVals [(7, 3)]) st /\
  tval st ((TgtTree, [1; 0]%nat), Parts) = FVals [(7 + 4 / PI, 3)].
Proof.
  pose proof PI_RGT_0 as HP. replace (7 + 4 / PI, 3) with (cadd (7, 3) (4 / PI, 0)) by (unfold cadd; cbn [fst snd]; f_equal; ring). apply self_run. intros ss tt Hc.
  destruct (C89_helmholtz (PI / 8) (one_S self_charges) (one_T [one_target]) 1 false 3 ltac:(lra) (one_usable _ _) (proj1 (PotProps.one_gathered _)) (proj2 (PotProps.one_gathered _))) as (ss' & tt' & Hc' & _ & D). rewrite Hc in Hc'. injection Hc' as <- <-. eapply writes_weaken; [|exact D]. cbn beta. intros t v -> ->.
  change (info (one_S self_charges)) with self_charges. destruct self_others as [-> E]. unfold wave_re, wave_im. cbn [fold_right]. rewrite E. cbn [one_charge cq]. replace (PI / 8 * 4) with (PI / 2) by field. rewrite sin_PI2, cos_PI2. f_equal; field; lra.
Qed.
Example C89_accelerations_nonvacuous : exists ss tt st, create_dag (direct 3) 1 false 3 (one_S self_charges) (one_T [one_target]) = Ok (ss, tt) /\
  run_in fvalue_zero (fvalue_add add3) (acc_edge (records (one_T [one_target]))) (field_leaf (one_S self_charges)) (ss ++ tt) (FVals [(7, 3, 1)]) st /\
  tval st ((TgtTree, [1; 0]%nat), Parts) = FVals [(7 + 1 / 8, 3, 1)].
Proof.
  replace (7 + 1 / 8, 3, 1) with (add3 (7, 3, 1) (1 / 8, 0, 0)) by (cbn [add3]; f_equal; [f_equal|]; ring). apply self_run. intros ss tt Hc.
  destruct (C89_accelerations (one_S self_charges) (one_T [one_target]) 1 false 3 (one_usable _ _) (proj1 (PotProps.one_gathered _)) (proj2 (PotProps.one_gathered _))) as (ss' & tt' & Hc' & _ & D). rewrite Hc in Hc'. injection Hc' as <- <-. eapply writes_weaken; [|exact D]. cbn beta. intros t v -> ->.
  change (info (one_S self_charges)) with self_charges. unfold field. destruct self_others as [-> E]. unfold pull_along. cbn [fold_right]. rewrite E. cbn [one_charge one_target cq cpos px py pz]. f_equal; [f_equal|]; field.
Qed.
