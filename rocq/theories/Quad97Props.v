(** C84: what an evaluation with the FMM97 method delivers when three digits are asked for. *)
From Coq Require Import Reals Qreals ZArith QArith List Bool Arith Lia Lra Permutation.
From Verif Require Import Base ListFacts IndexModel ArrayModel ArraySpec TreeModel RefineModel RefineSpec GeomModel DagModel DagSpec MethodModel MethodProps LinkSpec ListsSpec ListsProps LookupModel EvalModel EvalSpec EvalValues EvalProps
  WholeModel WholeSpec LapModel LapSpec TranModel TranSpec TranProps WaveModel WaveSpec WaveProps PotModel PotSpec PotFacts PotProofs PotProps Pot97Model Pot97Spec Pot97Proofs Pot97Props RunModel RunSpec RunProps QuadEps.
Import ListNotations.
Open Scope R_scope.

Lemma three_tables tb wt : laplace_table 3 = Ok tb -> wave_table 3 = Ok wt -> tb_p tb = 9%nat /\ w_q wt = case_3.
Proof.
  intros Et Ew. destruct (C61_table 3 ltac:(lia)) as (tb' & E' & Ep & _). rewrite Et in E'. injection E' as <-. split; [cbn in Ep; congruence|].
  destruct (C67_table 3 ltac:(lia)) as (p & wt' & _ & Ew' & Iq & _). rewrite Ew in Ew'. injection Ew' as <-. exact Iq.
Qed.
Lemma cut_small : (sqrt 3 / 3) ^ (9 + 1) * 2 / (3 - sqrt 3) <= 1 / 20.
Proof.
  assert (S : sqrt 3 * sqrt 3 = 3) by (apply sqrt_sqrt; lra). pose proof (sqrt_pos 3) as P. assert (U : sqrt 3 < 2) by nra.
  replace ((sqrt 3 / 3) ^ (9 + 1)) with ((sqrt 3 * sqrt 3 / 9) ^ 5) by (cbn [Nat.add]; field). rewrite S. apply (Rmult_le_reg_r (3 - sqrt 3)); [lra|]. unfold Rdiv at 1. rewrite Rmult_assoc, Rinv_l, Rmult_1_r by lra. lra.
Qed.
Lemma three_max : Rmax (1 / 20) ((sqrt 3 / 3) ^ (9 + 1) * 2 / (3 - sqrt 3)) = 1 / 20.
Proof. apply Rmax_left, cut_small. Qed.

(** laplace_table.cc:40-65: with the waves cut off as the tables do, no assumption left. *)
Theorem C84_quadrature : accurate case_3 9 (1 / 20).
Proof. exact accurate3. Qed.
Print Assumptions C84_quadrature.

(** An evaluation with three digits: every target gains the potential of all charges (but those
    at its own place), up to a twentieth of the sum of the magnitudes of the charges divided by
    the side of the smallest boxes. *)
Theorem C84_fmm97 : forall tb wt corner size S T unif same fuel h, laplace_table 3 = Ok tb -> wave_table 3 = Ok wt -> 0 < size ->
  usable unif fuel S T -> scene corner size S T -> levels h S -> levels h T ->
  exists ss tt, create_dag (fmm97 fuel) unif same fuel S T = Ok (ss, tt) /\
    (forall t, In t (info T) -> exists q, stops (ss ++ tt) q /\ In t (records T q)) /\
    delivers97 (edge_value97 tb wt corner size (records T)) (leaf_value97 S) (records T) (ss ++ tt) (info S)
      (total_charge (info S) / side size (Z.of_nat h) * (1 / 20)).
Proof.
  intros tb wt corner size S T unif same fuel h Et Ew Hs HU Sc LS LT. destruct (three_tables tb wt Et Ew) as [Ep Eq]. assert (Ha : accurate (w_q wt) (tb_p tb) (1 / 20)) by (rewrite Ep, Eq; exact accurate3).
  pose proof (C72_fmm97 3 tb wt corner size S T unif same fuel h (1 / 20) Et Ew Hs Ha HU Sc LS LT) as G. rewrite Ep, three_max in G. exact G.
Qed.
Print Assumptions C84_fmm97.

(** The same for a whole run on any number of ranks. *)
Theorem C84_run : forall A B (pos_s : A -> point) (pos_t : B -> point) q L same users zs zt order junk rw sm tm part_s part_t pp thr fuel rank_map S T tb wt h g,
  let d := domain_for pos_s pos_t same users order in let charges := map (charge_of pos_s q) (all_sources users) in
  (1 <= L <= 9)%Z -> well_posed pos_s pos_t zs zt same users -> ArraySpec.all_ranks (length users) order ->
  partition_contract part_s -> partition_contract part_t -> partition_point_contract pp -> (forall i, (i < Z.to_nat (8 ^ L))%nat -> (rank_map i < length users)%nat) ->
  trees_built pos_s pos_t q L same users zs zt junk rw sm tm d part_s part_t pp thr fuel rank_map S T ->
  levels h S -> levels h T -> clear_points d h (all_points pos_s pos_t users) -> (h < g)%nat ->
  laplace_table 3 = Ok tb -> wave_table 3 = Ok wt ->
  exists ss tt, create_dag (fmm97 g) (Z.to_nat L) same g S T = Ok (ss, tt) /\
    each_target T (ss ++ tt) (map (place_of pos_t) (all_targets users)) /\
    delivers97 (edge_value97 tb wt (real (dlow d)) (Q2R (dsize d)) (records T)) (leaf_value97 S) (records T) (ss ++ tt) charges
      (total_charge charges / side (Q2R (dsize d)) (Z.of_nat h) * (1 / 20)).
Proof.
  intros A B pos_s pos_t q L same users zs zt order junk rw sm tm part_s part_t pp thr fuel rank_map S T tb wt h g d charges HL Hw Ho Ps Pt Pp Hm Ht LS LT Cl Hg Et Ew. destruct (three_tables tb wt Et Ew) as [Ep Eq]. assert (Ha : accurate (w_q wt) (tb_p tb) (1 / 20)) by (rewrite Ep, Eq; exact accurate3).
  pose proof (C74_fmm97 A B pos_s pos_t q L same users zs zt order junk rw sm tm part_s part_t pp thr fuel rank_map S T 3 tb wt (1 / 20) h g HL Hw Ho Ps Pt Pp Hm Ht LS LT Cl Hg Et Ew Ha) as G. cbv zeta in G. rewrite Ep, three_max in G. exact G.
Qed.
Print Assumptions C84_run.

(** One charge of 2 at a distance of 4: the target, at 7 before, gains 1/2 up to 1/20. *)
Example C84_nonvacuous : exists tb wt ss tt s phi, laplace_table 3 = Ok tb /\ wave_table 3 = Ok wt /\ usable 1 3 (one_S [one_charge]) (one_T [one_target]) /\ scene ex_corner 8 (one_S [one_charge]) (one_T [one_target]) /\ levels 2 (one_S [one_charge]) /\ levels 2 (one_T [one_target]) /\
  create_dag (fmm97 3) 1 false 3 (one_S [one_charge]) (one_T [one_target]) = Ok (ss, tt) /\ ops_of (Ok (ss, tt)) = [StoM; MtoI; ItoI; ItoL; LtoT] /\
  run_in zero97 add97 (edge_value97 tb wt ex_corner 8 (records (one_T [one_target]))) (leaf_value97 (one_S [one_charge])) (ss ++ tt) (Plain (Array [(7, 0)])) s /\
  tval s ((TgtTree, [1; 0]%nat), Parts) = Plain (Array [(7 + phi, 0)]) /\ Rabs (phi - 1 / 2) <= 1 / 20.
Proof.
  destruct ex_merged as (tb & wt & _ & E & Ew & _). exists tb, wt.
  destruct (C84_fmm97 tb wt ex_corner 8 _ _ 1 false 3 2 E Ew ltac:(lra) (one_usable _ _) one_scene (proj1 (one_levels _)) (proj2 (one_levels _))) as (ss & tt & Hc & _ & Dv). destruct (fed_and_stops_ok _ _ (one_fmm97 [one_charge] [one_target])) as (ss' & tt' & Hc' & Fd & Sq). rewrite Hc in Hc'. injection Hc' as <- <-.
  destruct (one_run_in zero97 add97 (fun a => Plain (Array a)) _ 1 false 3 _ _ ss tt _ _ (Plain (Array [(7, 0)])) _ _ [1; 0]%nat (B_fmm97 _) (one_usable _ _) Hc Fd Sq Dv) as (s & phis & Rs & Ts & Cl).
  change (records (one_T [one_target]) [1; 0]%nat) with [one_target] in Cl. inversion Cl as [|t v ts vs [Z B] Cl' X Y]; subst. inversion Cl'; subst. destruct v as [phi z]. cbn [snd fst] in Z, B. subst z.
  exists ss, tt, s, phi. split; [exact E|]. split; [exact Ew|]. split; [apply one_usable|]. split; [apply one_scene|]. split; [apply one_levels|]. split; [apply one_levels|]. split; [exact Hc|]. split; [rewrite <- Hc; apply one_fmm97_ops|]. split; [exact Rs|]. split; [rewrite Ts; cbn; unfold cadd; cbn; do 4 f_equal; ring|].
  change (info (one_S [one_charge])) with [one_charge] in B. rewrite one_potential, one_total in B. destruct one_sides as (_ & _ & E2). change (Z.of_nat 2) with 2%Z in B. rewrite E2 in B. replace (2 / 2) with 1 in B by field. rewrite Rmult_1_l in B. replace (1 / 2) with (2 / 4) by field. exact B.
Qed.
