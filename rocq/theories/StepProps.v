(** C93: what the time steps of the demo do to the particles. *)
From Coq Require Import Reals ZArith List Permutation Lra Lia Psatz.
From Verif Require Import Base TreeModel LookupModel DagModel DagSpec EdgeGroupSpec LinkSpec EvalModel EvalSpec LapModel LapSpec PotModel PotSpec RunSpec ComModel AccModel FieldRunModel FieldRunSpec FieldRunProofs StepModel StepSpec StepProofs.
Import ListNotations.
Open Scope R_scope.

(** What an evaluation delivers by C89 and C90 is what [evaluated] says: with [rec q] the
    records of the final box [q], which hold what they had gained before. *)
Theorem C93_evaluation : forall S T ts l eps (rec : path -> list particle) qs loc num_ranks inc outs s0 s,
  writes_in fvalue_zero (fvalue_add add3) (@FVals vec) (acc_edge (records T)) (field_leaf S) (records T) ts (fun t v => dist3 v (field (charges l) t) <= eps) ->
  NoDup qs -> (forall q, In q qs <-> stops ts q) -> (forall q, In q qs -> map position (rec q) = records T q) -> Permutation (flat_map rec qs) l ->
  (forall v, In v (all_adds ts) -> (0 <= loc v < num_ranks)%Z) -> (forall v, inc v = length (into v (all_edges ts))) ->
  (forall v, sort_outcome (fun e => loc (eto e)) (out_of v (all_edges ts)) (outs v)) -> idle s0 -> clean outs s0 ->
  evaluates fvalue_zero (fvalue_add add3) (acc_edge (records T)) (field_leaf S) loc num_ranks inc outs (filter is_source (all_adds ts)) (filter (fun v => negb (is_source v)) (all_adds ts)) s0 s ->
  (forall r, (0 <= r < num_ranks)%Z -> remaining s r = 0%Z) ->
  (forall q, In q qs -> tval s0 ((TgtTree, q), Parts) = FVals (map acceleration (rec q))) ->
  exists held : path -> list vec, (forall q, In q qs -> tval s ((TgtTree, q), Parts) = FVals (held q)) /\
    evaluated eps l (flat_map (fun q => with_accelerations (rec q) (held q)) qs).
Proof.
  intros S T ts l eps rec qs loc num_ranks inc outs s0 s W ND Hq Hrec Pm Hl Hi Ho I0 C0 Ev Re H0.
  assert (K : forall q, In q qs -> exists vs, tval s ((TgtTree, q), Parts) = FVals (vadd add3 (map acceleration (rec q)) vs) /\ Forall2 (fun t v => dist3 v (field (charges l) t) <= eps) (map position (rec q)) vs).
  { intros q I. destruct (W loc num_ranks inc outs Hl Hi Ho s0 s I0 C0 Ev Re q (proj1 (Hq q) I)) as (vs & E & F). exists vs. rewrite Hrec by exact I. split; [|exact F]. rewrite E, H0 by exact I. apply fvalue_add_vals. }
  exists (fun q => match tval s ((TgtTree, q), Parts) with FVals a => a | _ => [] end). split; [intros q I; destruct (K q I) as (vs & -> & _); reflexivity|].
  set (new := fun q => with_accelerations (rec q) _).
  assert (G : Forall2 (fun p p' => exists f, gains f p p' /\ dist3 f (field (charges l) (position p)) <= eps) (flat_map rec qs) (flat_map new qs)).
  { apply leaves_gain. intros q I. destruct (K q I) as (vs & E & F). unfold new. rewrite E. exact (leaf_gain (fun t v => dist3 v (field (charges l) t) <= eps) (rec q) vs F). }
  destruct (Permutation_Forall2 Pm G) as (r & Pr & Gr). exists r. split; [apply Permutation_sym, Pr|exact Gr].
Qed.
Print Assumptions C93_evaluation.

(** Every particle keeps what it gained in all the steps before. *)
Theorem C93_path : forall eps dt n l l', stepping (evaluated eps) dt n l l' -> exists (at_ : nat -> list particle) (f : nat -> nat -> vec),
  at_ O = l /\ Permutation (at_ n) l' /\
  (forall k, (k <= n)%nat -> length (at_ k) = length l /\ exists lk, stepping (evaluated eps) dt k l lk /\ Permutation (at_ k) lk) /\
  forall i p k, nth_error l i = Some p -> (k <= n)%nat -> exists pk,
    nth_error (at_ k) i = Some pk /\ driven dt (f i) k p pk /\
    ((k < n)%nat -> dist3 (f i k) (field (charges (at_ k)) (position pk)) <= eps).
Proof. exact path_ok. Qed.
Print Assumptions C93_path.

(** So the first step acts twice in two steps: with exact fields no particle that is pulled at
    the start is where the pulls take it. *)
Theorem C93_pull_refuted : forall dt l l', dt <> 0 -> (forall p, In p l -> acceleration p = (0, 0, 0)) -> stepping (evaluated 0) dt 2 l l' ->
  exists l1 l2, (exists l1', stepping (evaluated 0) dt 1 l l1' /\ Permutation l1 l1') /\ Permutation l2 l' /\
  forall i p, nth_error l i = Some p -> field (charges l) (position p) <> (0, 0, 0) -> exists p1 p2,
    nth_error l1 i = Some p1 /\ nth_error l2 i = Some p2 /\ number p1 = number p /\ number p2 = number p /\
    ~ pulled dt (fun j => match j with O => field (charges l) (position p) | _ => field (charges l1) (position p1) end) 2 p p2.
Proof.
  intros dt l l' Hdt A0 H. destruct (path_ok 0 dt 2 l l' H) as (at_ & f & E0 & Pm & Len & Hp). exists (at_ 1%nat), (at_ 2%nat). split; [exact (proj2 (Len 1%nat ltac:(lia)))|]. split; [exact Pm|].
  intros i p Ei N. destruct (Hp i p 0%nat Ei ltac:(lia)) as (p0 & Q0 & _ & F0). rewrite E0 in Q0, F0. rewrite Ei in Q0. injection Q0 as <-. specialize (F0 ltac:(lia)). apply dist3_zero in F0.
  destruct (Hp i p 1%nat Ei ltac:(lia)) as (p1 & Q1 & (_ & N1 & _) & F1). specialize (F1 ltac:(lia)). apply dist3_zero in F1. destruct (Hp i p 2%nat Ei ltac:(lia)) as (p2 & Q2 & (_ & N2 & D2) & _).
  exists p1, p2. repeat split; try assumption. intros P. apply N. apply vec_ext. intros c. specialize (P c). destruct (D2 c) as (_ & V & _). rewrite V in P. rewrite (A0 p (nth_error_In _ _ Ei)) in P. cbn [sum_to] in P. rewrite F0, F1 in P. cbn [INR] in P.
  assert (Z0 : comp c (0, 0, 0) = 0) by (destruct c; reflexivity). rewrite Z0 in *. assert (dt * comp c (field (charges l) (position p)) = 0) by lra. apply Rmult_integral in H0. destruct H0; [contradiction|assumption].
Qed.
Print Assumptions C93_pull_refuted.

(** The pulls of the particles on each other cancel, so the momentum is kept up to the error of
    the evaluation, and exactly by the direct method. *)
Theorem C93_momentum : forall eps dt n l l', 0 <= eps -> 0 <= dt -> (forall p, In p l -> 0 <= mass p) -> (forall p, In p l -> acceleration p = (0, 0, 0)) -> stepping (evaluated eps) dt n l l' ->
  total_mass l' = total_mass l /\ forall c, Rabs (momentum c l' - momentum c l) <= dt * (INR n * (INR n + 1) / 2 * (total_mass l * eps)).
Proof.
  intros eps dt n l l' He Hd Pos A0 H. assert (F0 : forall c, forces c l = 0).
  { intros c. unfold forces. rewrite (tally_ext _ (fun _ => 0 * 0)); [rewrite tally_scal; ring|]. intros p I. rewrite (A0 p I). destruct c; cbn; ring. }
  split; [exact (proj1 (proj2 (momentum_ok eps dt n l l' He Hd H Pos X (F0 X))))|]. intros c. exact (proj2 (proj1 (momentum_ok eps dt n l l' He Hd H Pos c (F0 c)))).
Qed.
Print Assumptions C93_momentum.

(** How the demo starts: the distances from the origin are what rand returns, so that half of
    the particles are expected in the inner eighth of the ball. *)
Theorem C93_start : forall rand_max rand count l m_tot, (0 < rand_max)%Z -> (forall i, (0 <= rand i <= rand_max)%Z) -> set_sources rand_max rand 0 count = (l, m_tot) ->
  length l = count /\ m_tot = total_mass l /\ INR count <= m_tot <= 2 * INR count /\
  (forall k p, nth_error l k = Some p -> dist (position p) (mkPt 0 0 0) = IZR (rand (4 * k)%nat) / IZR rand_max /\ 1 <= mass p <= 2 /\ velocity p = (0, 0, 0) /\ acceleration p = (0, 0, 0) /\ number p = Z.of_nat k) /\
  ((0 < count)%nat -> 0 < time_step m_tot /\ time_step m_tot ^ 2 * m_tot = 1 / 40000).
Proof.
  intros rand_max rand count l m_tot Hm Hr E. pose proof (start_ok rand_max rand Hm Hr count 0%nat) as K. rewrite E in K. destruct K as (K1 & K2 & K3).
  assert (B : INR count <= m_tot <= 2 * INR count). { rewrite K2, <- K1. assert (Q : forall p, In p l -> 1 <= mass p <= 2) by (intros p I; apply In_nth_error in I; destruct I as [k I]; exact (proj1 (proj2 (K3 k p I)))). clear - Q. induction l as [|p l IH]; [cbn; lra|]. unfold total_mass in *. rewrite tally_cons. cbn [length]. rewrite S_INR. pose proof (Q p (or_introl eq_refl)). specialize (IH (fun q I => Q q (or_intror I))). lra. }
  split; [exact K1|]. split; [exact K2|]. split; [exact B|]. split.
  - intros k p Ek. destruct (K3 k p Ek) as (D & R'). split; [|exact R']. unfold dist. cbn [px py pz]. rewrite !Rminus_0_r. exact D.
  - intros C. apply lt_INR in C. cbn [INR] in C. assert (M : 0 < 1 / m_tot) by (apply Rdiv_lt_0_compat; lra). unfold time_step. split; [apply Rdiv_lt_0_compat; [apply sqrt_lt_R0, M|lra]|]. pose proof (sqrt_sqrt (1 / m_tot) ltac:(lra)) as Q. replace ((sqrt (1 / m_tot) / 200) ^ 2 * m_tot) with (sqrt (1 / m_tot) * sqrt (1 / m_tot) * m_tot / 40000) by field. rewrite Q. field. lra.
Qed.
Print Assumptions C93_start.

(** Two particles of mass 1 at distance 2, two steps of length 1 with the exact field *)
Definition exact (l : list particle) : list particle :=
  map (fun p => mkParticle (position p) (mass p) (velocity p) (add3 (acceleration p) (field (charges l) (position p))) (number p)) l.
Lemma exact_ok l : evaluated 0 l (exact l).
Proof.
  exists (exact l). split; [apply Permutation_refl|]. unfold exact. set (F := fun p => field (charges l) (position p)).
  assert (K : forall l', Forall2 (fun p p' => exists f, gains f p p' /\ dist3 f (F p) <= 0) l' (map (fun p => mkParticle (position p) (mass p) (velocity p) (add3 (acceleration p) (F p)) (number p)) l')); [|exact (K l)]. clearbody F. clear.
  induction l' as [|p l' IH]; cbn [map]; constructor; [|exact IH]. exists (F p). split; [repeat split; intros c; cbn [acceleration]; destruct (acceleration p) as [[a b] d], (F p) as [[e g] h]; destruct c; reflexivity|].
  destruct (F p) as [[e g] h]. unfold dist3. replace ((e - e) ^ 2 + (g - g) ^ 2 + (h - h) ^ 2) with 0 by ring. rewrite sqrt_0. lra.
Qed.
Definition pair_ : list particle := [mkParticle (mkPt 1 0 0) 1 (0, 0, 0) (0, 0, 0) 0; mkParticle (mkPt (-1) 0 0) 1 (0, 0, 0) (0, 0, 0) 1].
Example C93_nonvacuous : stepping (evaluated 0) 1 2 pair_ (update_particles 1 (exact (update_particles 1 (exact pair_)))) /\
  (forall p, In p pair_ -> acceleration p = (0, 0, 0)) /\ field (charges pair_) (mkPt 1 0 0) = (1 / 4, 0, 0).
Proof.
  split; [eapply one_more; [eapply one_more; [apply no_step|]|]; apply exact_ok|]. split; [intros p [<-|[<-|[]]]; reflexivity|].
  unfold field, charges, pair_, others. cbn [map filter position mass cpos]. destruct (pt_dec (mkPt 1 0 0) (mkPt 1 0 0)) as [_|N]; [|congruence]. destruct (pt_dec (mkPt (-1) 0 0) (mkPt 1 0 0)) as [E|_]; [injection E; lra|]. cbn [pull_along fold_right cq cpos px py pz].
  assert (D : dist (mkPt 1 0 0) (mkPt (-1) 0 0) = 2) by (unfold dist; cbn [px py pz]; replace ((1 - -1) ^ 2 + (0 - 0) ^ 2 + (0 - 0) ^ 2) with (2 * 2) by ring; apply sqrt_square; lra). rewrite D. f_equal; [f_equal|]; field.
Qed.
