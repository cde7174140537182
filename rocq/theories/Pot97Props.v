(** C72: what an evaluation with the FMM97 method and the Laplace expansions delivers to the
    targets. *)
From Coq Require Import Reals ZArith List Bool Arith Lia Lra Psatz Permutation.
From Verif Require Import Base ListFacts IndexModel TreeModel TreeFacts LookupModel DagModel DagSpec DagProofs MethodModel MethodProps LinkSpec ListsSpec ListsProps EvalModel EvalSpec EvalValues EvalProps LapModel LapSpec LapArrays TranModel TranTable TranSpec TranProofs TranProps MergeShiftSpec WaveModel WaveSpec WaveProps PotModel PotSpec PotFacts PotUp PotProofs PotProps Pot97Model Pot97Spec Pot97Facts Pot97Waves Pot97Proofs Pot97Bound.
Import ListNotations.
Open Scope R_scope.

Lemma laplace_table_good n tb : laplace_table n = Ok tb -> sound tb /\ table_of_order (tb_p tb) = Ok tb.
Proof.
  intros E. destruct C61_digits_refuted as [R0 R1]. assert (H : (1 <= n <= 14)%nat) by (destruct n as [|n]; [congruence|]; destruct (Nat.le_gt_cases (Datatypes.S n) 14) as [A|A]; [lia|rewrite (R1 _ A) in E; discriminate]).
  destruct (C61_table n H) as (tb' & E' & _ & Et & Hp). rewrite E in E'. injection E' as <-. split; [apply (table_good _ _ Hp Et)|exact Et].
Qed.

(** The FMM with intermediate expansions: once the evaluation is over, every target has gained
    the potential of all charges (but those at its own place), up to the error of the
    quadrature or that of truncating one expansion, whichever is larger. *)
Theorem C72_fmm97 : forall n tb wt corner size S T unif same fuel h eps, laplace_table n = Ok tb -> wave_table n = Ok wt -> 0 < size ->
  accurate (w_q wt) (tb_p tb) eps ->
  usable unif fuel S T -> scene corner size S T -> levels h S -> levels h T ->
  exists ss tt, create_dag (fmm97 fuel) unif same fuel S T = Ok (ss, tt) /\
    (forall t, In t (info T) -> exists q, stops (ss ++ tt) q /\ In t (records T q)) /\
    delivers97 (edge_value97 tb wt corner size (records T)) (leaf_value97 S) (records T) (ss ++ tt) (info S)
      (total_charge (info S) / side size (Z.of_nat h) * Rmax eps ((sqrt 3 / 3) ^ (tb_p tb + 1) * 2 / (3 - sqrt 3))).
Proof.
  intros n tb wt corner size S T unif same fuel h eps Et Ew Hs Ha HU (GS & GT & BS & BT & PS & PT) LS LT. destruct (laplace_table_good n tb Et) as (HS & Etb).
  destruct (C57_fmm97_lists _ _ S T fuel unif same HU) as (ss & tt & Hc & ND & Ed). exists ss, tt. split; [exact Hc|].
  destruct (C39_fmm97 _ _ unif same fuel S T HU) as (ss' & tt' & Hc' & G & _). rewrite Hc in Hc'. injection Hc' as <- <-. destruct (C39_stops _ _ unif same fuel S T HU) as (ss' & tt' & Hc' & St & _). rewrite Hc in Hc'. injection Hc' as <- <-.
  split; [exact (all_served S T _ G GT)|]. unfold delivers97. eapply delivers_in_ok; [exact monoid97|constructor|exact HU|exact Hc|]. intros val Sv Fd q Sq. apply St in Sq. destruct Sq as [Fq Hq].
  destruct (target97_ok n tb wt Et Ew corner size Hs HS Etb eps Ha S T unif fuel h same HU BS BT GS GT PS (target_plain corner size S T GT PT) LS LT _ ND Ed Fd val Sv q) as (phis & Ev & C); [split; [split; [apply Fq|exact Hq]|exact Fq]|].
  exists phis. split; [exact Ev|]. eapply close_weaken; [|exact C]. right. unfold K97. replace (eps_s tb) with ((sqrt 3 / 3) ^ (tb_p tb + 1) * 2 / (3 - sqrt 3)); [unfold Rdiv; ring|]. unfold eps_s. rewrite Nat.add_1_r. replace (sqrt 3 / 2 / (3 / 2)) with (sqrt 3 / 3) by field. pose proof sqrt3_lt. field. lra.
Qed.
Print Assumptions C72_fmm97.

(** A bound of the quadrature exists, so the theorem is about something for every table. *)
Theorem C72_some_bound : forall q p, exists eps, accurate q p eps.
Proof. exact some_bound. Qed.
Print Assumptions C72_some_bound.

(** What the addition of views means: the views that I_to_I makes are added to the views of
    the target with the same numbers, as the code does, and the others stay as they are. *)
Theorem C72_in_place : forall n tb wt corner size t s l M V, laplace_table n = Ok tb -> wave_table n = Ok wt -> 0 < size ->
  near_child t s -> upward tb corner size s l M -> length V = 28%nat -> List.Forall (fun v => length v = q_nexp (w_q wt)) V ->
  exists views new Z, M_to_I tb wt M = Ok views /\ I_to_I wt s t views = Ok new /\ add_views (no_views wt) new = Ok Z /\
    add_views V new = Ok (vadd V Z) /\ add97 (Views V) (Views Z) = Views (vadd V Z) /\ length Z = 28%nat /\
    forall k v z, nth_error V k = Some v -> nth_error Z k = Some z -> nth_error (vadd V Z) k = Some (padd v z).
Proof.
  intros n tb wt corner size t s l M V Et Ew Hs Hn HM HL HV. destruct (views_new n tb wt Et Ew corner size Hs t s l M Hn HM) as (views & new & E1 & E2 & Hnew). assert (Sh : shaped (q_nexp (w_q wt)) V) by (split; [exact HL|intros k x Hk; rewrite List.Forall_forall in HV; apply HV; eapply nth_error_In; exact Hk]).
  destruct (add_views_later _ new Hnew V (no_views wt) Sh (no_views_shaped _)) as (Z & EZ & HZ & EV). rewrite (vadd_comm V (no_views wt)), (vadd_zeros _ V Sh : vadd (no_views wt) V = V) in EV.
  exists views, new, Z. split; [exact E1|]. split; [exact E2|]. split; [exact EZ|]. split; [exact EV|]. split; [reflexivity|]. split; [apply HZ|]. clear. revert Z. induction V as [|x V IH]; intros Z k v z Hv Hz; [destruct k; discriminate|]. destruct Z as [|y Z]; [destruct k; discriminate|]. cbn [vadd]. destruct k as [|k]; cbn [nth_error] in *; [congruence|]. apply IH; assumption.
Qed.
Print Assumptions C72_in_place.

(** ** An instance *)
Lemma one_fmm97 (a : list charge) (b : list pt) : fed_and_stops [1; 0]%nat (create_dag (fmm97 3) 1 false 3 (one_S a) (one_T b)) = true.
Proof. vm_compute. reflexivity. Qed.
Lemma one_fmm97_ops (a : list charge) (b : list pt) : ops_of (create_dag (fmm97 3) 1 false 3 (one_S a) (one_T b)) = [StoM; MtoI; ItoI; ItoL; LtoT].
Proof. vm_compute. reflexivity. Qed.
Example C72_nonvacuous : exists tb wt ss tt s phi eps, laplace_table 3 = Ok tb /\ wave_table 3 = Ok wt /\ accurate (w_q wt) (tb_p tb) eps /\ usable 1 3 (one_S [one_charge]) (one_T [one_target]) /\ scene ex_corner 8 (one_S [one_charge]) (one_T [one_target]) /\ levels 2 (one_S [one_charge]) /\ levels 2 (one_T [one_target]) /\
  create_dag (fmm97 3) 1 false 3 (one_S [one_charge]) (one_T [one_target]) = Ok (ss, tt) /\ ops_of (Ok (ss, tt)) = [StoM; MtoI; ItoI; ItoL; LtoT] /\
  run_in zero97 add97 (edge_value97 tb wt ex_corner 8 (records (one_T [one_target]))) (leaf_value97 (one_S [one_charge])) (ss ++ tt) (Plain (Array [(7, 0)])) s /\
  tval s ((TgtTree, [1; 0]%nat), Parts) = Plain (Array [(7 + phi, 0)]) /\ Rabs (phi - 2 / 4) <= Rmax eps ((sqrt 3 / 3) ^ (tb_p tb + 1) * 2 / (3 - sqrt 3)).
Proof.
  destruct ex_merged as (tb & wt & _ & E & Ew & _). destruct (some_bound (w_q wt) (tb_p tb)) as [eps Ha]. exists tb, wt.
  destruct (C72_fmm97 3 tb wt ex_corner 8 _ _ 1 false 3 2 eps E Ew ltac:(lra) Ha (one_usable _ _) one_scene (proj1 (one_levels _)) (proj2 (one_levels _))) as (ss & tt & Hc & _ & Dv). destruct (fed_and_stops_ok _ _ (one_fmm97 [one_charge] [one_target])) as (ss' & tt' & Hc' & Fd & Sq). rewrite Hc in Hc'. injection Hc' as <- <-.
  destruct (one_run_in zero97 add97 (fun a => Plain (Array a)) _ 1 false 3 _ _ ss tt _ _ (Plain (Array [(7, 0)])) _ _ [1; 0]%nat (B_fmm97 _) (one_usable _ _) Hc Fd Sq Dv) as (s & phis & Rs & Ts & Cl).
  change (records (one_T [one_target]) [1; 0]%nat) with [one_target] in Cl. inversion Cl as [|t v ts vs [Z B] Cl' X Y]; subst. inversion Cl'; subst. destruct v as [phi z]. cbn [snd fst] in Z, B. subst z.
  exists ss, tt, s, phi, eps. split; [exact E|]. split; [exact Ew|]. split; [exact Ha|]. split; [apply one_usable|]. split; [apply one_scene|]. split; [apply one_levels|]. split; [apply one_levels|]. split; [exact Hc|]. split; [rewrite <- Hc; apply one_fmm97_ops|]. split; [exact Rs|]. split; [rewrite Ts; cbn; unfold cadd; cbn; do 4 f_equal; ring|].
  change (info (one_S [one_charge])) with [one_charge] in B. rewrite one_potential, one_total in B. destruct one_sides as (_ & _ & E2). change (Z.of_nat 2) with 2%Z in B. rewrite E2 in B. replace (2 / 2) with 1 in B by field. rewrite Rmult_1_l in B. exact B.
Qed.
