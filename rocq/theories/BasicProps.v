(** C98: the demonstration program demo/basic/testmain.cc. *)
From Coq Require Import String.
From Coq Require Import ZArith Reals List Bool Lia Lra Permutation Sorting.Sorted.
From Verif Require Import Base ListFacts BasicModel BasicSpec BasicProofs.
Import ListNotations.
Open Scope Z_scope.

(** The points asked for are shared out: none is lost, shares differ by at most one, and rank 0
    has at least one. *)
Theorem C98_shared : forall ranks count, 1 <= ranks -> 1 <= count ->
  totalZ (fun rank => dole ranks rank count) (zseq 0 (Z.to_nat ranks)) = count /\
  (forall r r', dole ranks r count <= dole ranks r' count + 1) /\ 1 <= dole ranks 0 count /\
  forall place, Z.of_nat (length (all_targets ranks count place)) = count.
Proof.
  intros ranks count R C. split; [apply dole_total; assumption|]. split.
  - intros r r'. pose proof (dole_close ranks count r). pose proof (dole_close ranks count r'). lia.
  - split; [apply dole_first; assumption|]. intros place. rewrite length_all by assumption. lia.
Qed.
Print Assumptions C98_shared.
Example C98_shared_nonvacuous : map (fun rank => dole 3 rank 10) (zseq 0 3) = [4; 3; 3].
Proof. reflexivity. Qed.

(** The indices of the targets tell them apart exactly if the count is a multiple of the number
    of ranks, or smaller than it.  They are in range always. *)
Theorem C98_indices : forall ranks count place, 1 <= ranks -> 1 <= count ->
  (NoDup (map index (all_targets ranks count place)) <-> (ranks | count) \/ count < ranks) /\
  forall t, In t (all_targets ranks count place) -> 0 <= index t < count.
Proof.
  intros ranks count place R C. split.
  - rewrite indices_all. split; intros H.
    + destruct (distinct_only_if ranks count R C H) as [M|L]; [left; apply Z.mod_divide; [lia|exact M]|auto].
    + apply distinct_if; try assumption. destruct H as [D|L]; [left; apply Z.mod_divide; [lia|exact D]|auto].
  - intros t I. assert (J : In (index t) (map index (all_targets ranks count place))) by (apply in_map; exact I).
    rewrite indices_all in J. apply in_flat_map in J. destruct J as (r & Ir & J). apply in_zseq in Ir.
    apply in_indices in J; [|assumption|assumption]. destruct J as (i & Hi & E). rewrite E. apply index_bound; try assumption. lia.
Qed.
Print Assumptions C98_indices.
Example C98_indices_nonvacuous :
  map index (all_targets 3 6 (fun _ _ => (0, 0, 0)%R)) = [0; 1; 2; 3; 4; 5] /\ map index (all_targets 3 7 (fun _ _ => (0, 0, 0)%R)) = [0; 1; 2; 2; 3; 4; 5].
Proof. split; reflexivity. Qed.

(** Choosing the tests works for every number of points and ranks: as many as rank 0 has, at
    most 400, from different places of the sorted list. *)
Theorem C98_tests : forall ranks count place collected s, 1 <= ranks -> 1 <= count ->
  same_records (all_targets ranks count place) collected -> sorts collected s ->
  exists picked places, choose_tests (test_count 0 (dole ranks 0 count)) s = Ok (map (fun t => mkT (pos t) zero (index t)) picked) /\
    Z.of_nat (length picked) = Z.min 400 (dole ranks 0 count) /\
    NoDup places /\ Forall2 (fun j t => nth_error s j = Some t) places picked.
Proof.
  intros ranks count place collected s R C S (P & _).
  assert (L : Z.of_nat (length s) = count).
  { rewrite <- (Permutation_length P), <- (same_length _ _ S), length_all by assumption. lia. }
  pose proof (dole_first ranks count R C) as D. pose proof (dole_le ranks count R C 0 (Z.le_refl 0)) as D'.
  rewrite test_count_range by assumption.
  destruct (choose_ok (Z.min 400 (dole ranks 0 count)) s) as (picked & js & E & Lp & F & N); [lia|].
  exists picked, js. split; [exact E|]. split; [lia|]. auto.
Qed.
Print Assumptions C98_tests.

(** If the indices tell the targets apart, every test is compared with the target it is a copy
    of: the program prints the relative error in the mean square of the tested targets, and the
    largest of their relative errors, whatever orders the evaluations and the sort leave. *)
Theorem C98_compared : forall ranks count place collected s tests exacts f, 1 <= ranks -> 1 <= count ->
  (ranks | count) \/ count < ranks ->
  same_records (all_targets ranks count place) collected -> sorts collected s ->
  choose_tests (test_count 0 (dole ranks 0 count)) s = Ok tests -> exact_results f tests exacts ->
  (forall t, In t tests -> f (pos t) <> zero) ->
  exists picked largest_error,
    incl picked collected /\ NoDup (map index picked) /\ Z.of_nat (length picked) = Z.min 400 (dole ranks 0 count) /\
    compare_results s exacts =
      Ok (sqrt (total (fun t => sq (phi t) (f (pos t))) picked / total (fun t => sq (f (pos t)) zero) picked), largest_error) /\
    largest (fun t => sqrt (sq (phi t) (f (pos t)) / sq (f (pos t)) zero)) picked largest_error.
Proof.
  intros ranks count place collected s tests exacts f R C D S SO CT EX Z0.
  destruct (C98_tests ranks count place collected s R C S SO) as (picked & js & E & L & N & F). rewrite E in CT. injection CT as CT. subst tests.
  destruct SO as (P & _).
  assert (U : NoDup (map index s)).
  { apply (Permutation_NoDup (l := map index (all_targets ranks count place))); [|apply C98_indices; assumption].
    eapply perm_trans; [apply same_indices; exact S|]. apply Permutation_map. exact P. }
  assert (Z1 : forall t, In t picked -> f (pos t) <> zero).
  { intros t I. apply (Z0 (mkT (pos t) zero (index t))). apply in_map_iff. exists t. auto. }
  assert (NE : picked <> []). { pose proof (dole_first ranks count R C). intros Q. subst. cbn in L. lia. }
  unfold exact_results in EX. rewrite map_map in EX. cbn [pos index] in EX.
  destruct (compare_ok s f picked exacts U (picked_incl _ _ _ F) NE Z1 EX) as (mx & A & B).
  exists picked, mx. repeat split; try assumption; try apply B.
  - intros t I. eapply Permutation_in; [apply Permutation_sym; exact P|]. apply (picked_incl _ _ _ F). exact I.
  - eapply picked_NoDup; eauto.
Qed.
Print Assumptions C98_compared.

(** In particular it then prints zero for exact results. *)
Theorem C98_zero : forall ranks count place collected s tests exacts f, 1 <= ranks -> 1 <= count ->
  (ranks | count) \/ count < ranks ->
  same_records (all_targets ranks count place) collected -> sorts collected s ->
  choose_tests (test_count 0 (dole ranks 0 count)) s = Ok tests -> exact_results f tests exacts ->
  (forall t, In t tests -> f (pos t) <> zero) ->
  (forall t, In t collected -> phi t = f (pos t)) -> compare_results s exacts = Ok (0%R, 0%R).
Proof.
  intros ranks count place collected s tests exacts f R C D S SO CT EX Z0 E.
  destruct (C98_compared ranks count place collected s tests exacts f R C D S SO CT EX Z0) as (picked & mx & I & _ & _ & A & (M0 & _ & M)).
  assert (Q : forall t, In t picked -> sq (phi t) (f (pos t)) = 0%R).
  { intros t T. rewrite (E t (I t T)). unfold sq. ring. }
  assert (T0 : total (fun t => sq (phi t) (f (pos t))) picked = 0%R).
  { clear - Q. induction picked as [|t p IH]; cbn [total]; [reflexivity|]. rewrite (Q t (or_introl eq_refl)), IH; [ring|]. intros u U. apply Q. right. exact U. }
  rewrite A, T0. unfold Rdiv. rewrite Rmult_0_l, sqrt_0. f_equal. f_equal.
  destruct M as [M|(t & T & M)]; [exact M|]. rewrite M, (Q t T). unfold Rdiv. rewrite Rmult_0_l, sqrt_0. reflexivity.
Qed.
Print Assumptions C98_zero.

(** Two ranks with one target each and exact results. *)
Definition two (rank i : Z) : point := (IZR rank, IZR i, 1%R).
Definition sample (p : point) : cpx := let '(x, y, z) := p in ((x + z + y)%R, 0%R).
Definition computed (l : list target) : list target := map (fun t => mkT (pos t) (sample (pos t)) (index t)) l.
Lemma computed_same : forall l, same_records l (computed l).
Proof. intros l. unfold same_records, computed. rewrite map_map. apply Permutation_refl. Qed.
Example C98_compared_nonvacuous : exists collected s tests exacts,
  same_records (all_targets 2 2 two) collected /\ sorts collected s /\ choose_tests (test_count 0 (dole 2 0 2)) s = Ok tests /\
  exact_results sample tests exacts /\ (forall t, In t tests -> sample (pos t) <> zero) /\ ((2 | 2) \/ 2 < 2) /\
  (forall t, In t collected -> phi t = sample (pos t)) /\ length tests = 1%nat.
Proof.
  exists (computed (all_targets 2 2 two)), (computed (all_targets 2 2 two)), [mkT (two 0 0) zero 0], [mkT (two 0 0) (sample (two 0 0)) 0].
  split; [apply computed_same|]. split.
  - split; [apply Permutation_refl|]. cbn. repeat constructor; cbn; lia.
  - split; [reflexivity|]. split; [apply Permutation_refl|]. split.
    + intros t [E|[]]. subst. unfold sample, two, zero. cbn [pos]. intros Q. injection Q. lra.
    + split; [left; exists 1; reflexivity|]. split; [|reflexivity].
      intros t I. apply in_map_iff in I. destruct I as (u & E & _). subst. reflexivity.
Qed.

(** Otherwise two targets share an index, and of these the last one is looked up. *)
Theorem C98_last : forall s e num den mx, In (index e) (map index s) -> phi e <> zero ->
  exists j t, nth_error s j = Some t /\ index t = index e /\
    (forall j' t', (j < j')%nat -> nth_error s j' = Some t' -> index t' <> index e) /\
    exists mx', compare_one s (offsets 0 s []) (num, den, mx) e = Ok ((num + sq (phi t) (phi e))%R, (den + sq (phi e) zero)%R, mx').
Proof.
  intros s e num den mx I Z0. destruct (find_last (index e) s 0 [] I) as (j & t & F & N & K & L).
  exists j, t. split; [exact N|]. split; [exact K|]. split; [exact L|].
  assert (X : nth_resZ s (0 + Z.of_nat j) = Ok t). { apply nth_resZ_ok. split; [lia|]. replace (Z.to_nat (0 + Z.of_nat j)) with j by lia. exact N. }
  rewrite (compare_one_ok s _ num den mx e _ t F X Z0). eauto.
Qed.
Print Assumptions C98_last.
(** Two ranks with three targets: the results are exact and the program prints an error. *)
Theorem C98_wrong_pair_refuted : exists ranks count place collected s tests exacts f err mx,
  1 <= ranks /\ 1 <= count /\ same_records (all_targets ranks count place) collected /\ sorts collected s /\
  choose_tests (test_count 0 (dole ranks 0 count)) s = Ok tests /\ exact_results f tests exacts /\
  (forall t, In t tests -> f (pos t) <> zero) /\ (forall t, In t collected -> phi t = f (pos t)) /\
  compare_results s exacts = Ok (err, mx) /\ (0 < err)%R.
Proof.
  pose (a := mkT (0, 0, 1)%R (1, 0)%R 0). pose (b := mkT (0, 1, 1)%R (2, 0)%R 1). pose (c := mkT (1, 0, 2)%R (3, 0)%R 1).
  pose (place := fun rank i : Z => if rank =? 0 then if i =? 0 then (0, 0, 1)%R else (0, 1, 1)%R else (1, 0, 2)%R).
  assert (Fa : sample (pos a) = (1, 0)%R) by (unfold sample, a; cbn [pos]; f_equal; lra).
  assert (Fb : sample (pos b) = (2, 0)%R) by (unfold sample, b; cbn [pos]; f_equal; lra).
  assert (Fc : sample (pos c) = (3, 0)%R) by (unfold sample, c; cbn [pos]; f_equal; lra).
  assert (NZ : forall x : R, (0 < x)%R -> (x, 0%R) <> zero) by (intros x X Q; injection Q; lra).
  assert (E : exists mx, compare_results [a; b; c] [a; b] = Ok (sqrt (1 / 5), mx)).
  { unfold compare_results. cbn [foldM].
    rewrite (compare_one_ok [a; b; c] _ 0 0 0 a 0 a); [|reflexivity|reflexivity|apply NZ; lra]. cbn [bind].
    rewrite (compare_one_ok [a; b; c] _ _ _ _ b 2 c); [|reflexivity|reflexivity|apply NZ; lra]. cbn [bind].
    replace (0 + sq (phi a) (phi a) + sq (phi c) (phi b))%R with 1%R by (unfold sq, a, b, c; cbn; ring).
    replace (0 + sq (phi a) zero + sq (phi b) zero)%R with 5%R by (unfold sq, a, b, zero; cbn; ring).
    unfold div. destruct (Req_EM_T 5 0); [lra|]. cbn [bind]. eauto. }
  destruct E as (mx & E).
  exists 2, 3, place, [a; b; c], [a; b; c], [mkT (pos a) zero 0; mkT (pos b) zero 1], [a; b], sample, (sqrt (1 / 5)), mx.
  split; [lia|]. split; [lia|]. split; [apply Permutation_refl|]. split.
  { split; [apply Permutation_refl|]. repeat constructor; cbn; lia. }
  split; [reflexivity|]. split.
  { unfold exact_results. cbn [map pos index]. fold (pos a) (pos b). change (0, 0, 1)%R with (pos a). change (0, 1, 1)%R with (pos b). rewrite Fa, Fb. apply Permutation_refl. }
  split.
  { intros t [Q|[Q|[]]]; subst t; cbn [pos]; [change (0, 0, 1)%R with (pos a); rewrite Fa|change (0, 1, 1)%R with (pos b); rewrite Fb]; apply NZ; lra. }
  split.
  { intros t [Q|[Q|[Q|[]]]]; subst t; symmetry; assumption. }
  split; [exact E|]. apply sqrt_lt_R0. lra.
Qed.
Print Assumptions C98_wrong_pair_refuted.

(** All ranks make the same collective calls with the same arguments. *)
Theorem C98_calls : forall ranks rank rank' l, fst (main ranks rank l) = fst (main ranks rank' l).
Proof.
  intros ranks rank rank' l. unfold main, read_arguments. cbn [fst]. destruct (read_options defaults l) as [a|]; [|reflexivity].
  destruct (accepted a); reflexivity.
Qed.
Print Assumptions C98_calls.
Example C98_calls_nonvacuous :
  fst (main 2 1 [OMethod "bh"; OThreshold 7; ONtargets 5]) =
    [Allocate Sources; Put Sources; Allocate Targets; Put Targets; Evaluate LaplaceBH Sources Targets 7 3;
     Length Targets; Collect Targets; Allocate Tests; Put Tests; Evaluate LaplaceDirect Sources Tests 7 3; Collect Tests; Destroy Tests;
     Destroy Sources; Destroy Targets].
Proof. reflexivity. Qed.

(** For the three kernels, an accepted command line evaluates the kernel asked for by the method
    asked for, and checks it against the direct sum of the same kernel with the same parameter;
    it evaluates nothing else. *)
Theorem C98_kernel : forall ranks rank l a, read_arguments ranks rank l = Some a ->
  In (kernel a) ["laplace"; "yukawa"; "helmholtz"]%string ->
  exists e d, asked (kernel a) (method a) e /\ interaction_of e = interaction_of d /\ summation d = true /\
    filter is_evaluation (fst (main ranks rank l)) =
      Evaluate e Sources Targets (refinement_limit a) (accuracy a) ::
      (if verify a then [Evaluate d Sources Tests (refinement_limit a) (accuracy a)] else []).
Proof.
  intros ranks rank l a H K. unfold main. rewrite H. cbn [fst].
  destruct (arguments_evaluators _ _ _ _ H K) as (e & d & F & S & A & I & D). exists e, d. split; [exact A|]. split; [exact I|]. split; [exact D|].
  unfold perform, evaluate. rewrite F, S. destruct (verify a); reflexivity.
Qed.
Print Assumptions C98_kernel.
Example C98_kernel_nonvacuous : exists a, read_arguments 3 1 [OKernel "yukawa"; OAccuracy 6] = Some a /\ kernel a = "yukawa"%string /\ target_count a = 3333.
Proof. eexists. split; [reflexivity|]. split; reflexivity. Qed.

(** The options: each sets its own value, the last one counts, the counts are those of the rank;
    results are verified unless something else than yes is asked for. *)
Theorem C98_options : forall ranks rank l a, read_arguments ranks rank l = Some a ->
  source_count a = dole ranks rank (setting nsources 10000 l) /\ target_count a = dole ranks rank (setting ntargets 10000 l) /\
  source_type a = setting sourcedata "cube"%string l /\ target_type a = setting targetdata "cube"%string l /\
  refinement_limit a = setting threshold 40 l /\ accuracy a = setting digits 3 l /\
  method a = setting methodname "fmm97"%string l /\ kernel a = setting kernelname "laplace"%string l /\
  verify a = (setting verifying "yes" l =? "yes")%string /\ ~ In OHelp l /\ ~ In OUnknown l.
Proof.
  intros ranks rank l a H. unfold read_arguments in H. destruct (read_options defaults l) as [b|] eqn:E; [|discriminate].
  destruct (accepted b); [|discriminate]. injection H as <-. cbn [source_count source_type target_count target_type refinement_limit method kernel accuracy verify].
  destruct (options_set l defaults b E) as (H0 & H1 & I1 & I2 & I3 & I4 & I5 & I6 & I7 & I8 & I9). rewrite I1, I3.
  repeat split; auto. 
Qed.
Print Assumptions C98_options.
Example C98_options_nonvacuous :
  read_arguments 3 0 [ONtargets 5; ONsources 11; OThreshold 9; OVerify "Yes"; ONtargets 7; OTargetdata "sphere"] =
  Some (mkArgs 4 "cube" 3 "sphere" 9 "fmm97" "laplace" false 3).
Proof. reflexivity. Qed.

(** Which command lines are accepted: the counts, the names of the method and of the distributions
    are checked, and the number of digits for the newest method. *)
Theorem C98_accepted : forall ranks rank l, (exists a, read_arguments ranks rank l = Some a) <->
  let method := setting methodname "fmm97"%string l in let kernel := setting kernelname "laplace"%string l in
  ~ In OHelp l /\ ~ In OUnknown l /\
  1 <= setting nsources 10000 l /\ 1 <= setting ntargets 10000 l /\ In method ["bh"; "fmm"; "fmm97"]%string /\
  In (setting sourcedata "cube"%string l) ["cube"; "sphere"; "plummer"]%string /\ In (setting targetdata "cube"%string l) ["cube"; "sphere"; "plummer"]%string /\
  (In kernel ["yukawa"; "helmholtz"]%string -> method = "fmm97"%string) /\
  (In kernel ["laplace"; "yukawa"; "helmholtz"]%string -> method = "fmm97"%string -> setting digits 3 l = 3 \/ setting digits 3 l = 6).
Proof.
  intros ranks rank l. cbv zeta. split.
  - intros (a & H). destruct (accepted_facts _ _ _ _ H) as (A1 & A2 & A3 & A4 & A5 & A6 & A7).
    destruct (C98_options _ _ _ _ H) as (_ & _ & B1 & B2 & _ & B3 & B4 & B5 & _ & B6 & B7). rewrite <- B1, <- B2, <- B3, <- B4, <- B5. tauto.
  - intros (H & U & C1 & C2 & C3 & C4 & C5 & C6 & C7). destruct (options_go l defaults H U) as (b & E).
    destruct (options_set l defaults b E) as (_ & _ & I1 & I2 & I3 & I4 & _ & I6 & I7 & I8 & _).
    cbn [source_count target_count source_type target_type method kernel accuracy defaults] in I1, I2, I3, I4, I6, I7, I8.
    rewrite <- I1 in C1. rewrite <- I3 in C2. rewrite <- I6 in C3, C6, C7. rewrite <- I2 in C4. rewrite <- I4 in C5. rewrite <- I7 in C6, C7. rewrite <- I8 in C7.
    unfold read_arguments. rewrite E, accepted_if by assumption. eauto.
Qed.
Print Assumptions C98_accepted.
Example C98_accepted_nonvacuous :
  read_arguments 2 0 [ONsources 0] = None /\ read_arguments 2 0 [OMethod "direct"] = None /\ read_arguments 2 0 [OKernel "yukawa"; OMethod "bh"] = None /\
  read_arguments 2 1 [ONsources 7; OSourcedata "plummer"] = Some (mkArgs 3 "plummer" 5000 "cube" 40 "fmm97" "laplace" true 3).
Proof. repeat split. Qed.

(** The name of the kernel is not: nothing is evaluated then, and the comparison divides zero by
    zero. *)
Theorem C98_unknown_refuted : forall ranks rank, exists l a, read_arguments ranks rank l = Some a /\
  filter is_evaluation (fst (main ranks rank l)) = [] /\ In (Collect Tests) (fst (main ranks rank l)) /\
  forall s e exacts, In (index e) (map index s) -> phi e = zero -> compare_results s (e :: exacts) = Fail DivZero.
Proof.
  intros ranks rank. exists [OKernel "coulomb"]. eexists. split; [reflexivity|]. split; [reflexivity|]. split; [cbn; tauto|].
  intros s e exacts I E. unfold compare_results. cbn [foldM]. unfold compare_one at 1.
  destruct (find_last (index e) s 0 [] I) as (j & t & F & N & K & _). rewrite F.
  assert (X : nth_resZ s (0 + Z.of_nat j) = Ok t). { apply nth_resZ_ok. split; [lia|]. replace (Z.to_nat (0 + Z.of_nat j)) with j by lia. exact N. }
  rewrite X. cbn [bind]. rewrite E. unfold div at 1. destruct (Req_EM_T (norm zero) 0) as [Q|Q]; [reflexivity|].
  exfalso. apply Q. unfold norm, zero. cbn. ring.
Qed.
Print Assumptions C98_unknown_refuted.

(** Nor are the limit and, for the older methods, the number of digits. *)
Theorem C98_unchecked_refuted : forall ranks rank limit digits, In (Evaluate LaplaceFMM Sources Targets limit digits) (fst (main ranks rank [OMethod "fmm"; OThreshold limit; OAccuracy digits])).
Proof. intros. cbn. tauto. Qed.
Print Assumptions C98_unchecked_refuted.

(** The program returns 0 also when it refuses its command line. *)
Theorem C98_refused_refuted : (forall ranks rank l, snd (main ranks rank l) = 0) /\ forall ranks rank, main ranks rank [OUnknown] = ([], 0).
Proof. split; reflexivity. Qed.
Print Assumptions C98_refused_refuted.

(** The sources are where the distribution says, and their charges are between 1 and 2, for
    Barnes-Hut without negative ones.  Only the largest draw of the Plummer distribution
    fails: it gives an infinite radius. *)
Theorem C98_sources : forall count type method d, proper d -> 1 <= count ->
  match set_source count type method d with
  | Ok s =>
      if (type =? "cube")%string then
        let '(x, y, z) := s_pos s in (-1/2 <= x <= 1/2)%R /\ (-1/2 <= y <= 1/2)%R /\ (-1/2 <= z <= 1/2)%R /\ good_charge method (charge s)
      else if (type =? "sphere")%string then dist2 (s_pos s) = 1%R /\ good_charge method (charge s)
      else (dist2 (s_pos s) ^ 3 = d1 d ^ 2 * (1 + dist2 (s_pos s)) ^ 3)%R /\ (charge s * IZR count = 100)%R
  | Fail _ => type <> "cube"%string /\ type <> "sphere"%string /\ d1 d = 1%R
  end.
Proof.
  intros count type method d (P1 & P2 & P3 & P4) C. unfold set_source.
  destruct (String.eqb_spec type "cube") as [E|E].
  - cbn [s_pos charge pick_cube_position]. unfold pick_cube_position. destruct P1, P2, P3. repeat split; try lra. apply good_picked. exact P4.
  - destruct (String.eqb_spec type "sphere") as [F|F].
    + cbn [s_pos charge]. split; [|apply good_picked; exact P3]. unfold pick_sphere_position. rewrite around_dist by exact P1. ring.
    + unfold pick_plummer_position, pick_plummer_charge, div. destruct (Req_dec (d1 d) 1) as [Q|Q].
      * rewrite Q, plummer_one. cbn [bind]. auto.
      * destruct (plummer_ok (d1 d) P1 Q) as (r & Er & R0 & R1). rewrite Er. cbn [bind].
        assert (IC : IZR count <> 0%R) by (apply not_0_IZR; lia). destruct (Req_EM_T (IZR count) 0); [contradiction|]. cbn [bind s_pos charge].
        rewrite around_dist by exact P2. split; [exact R1|]. field. exact IC.
Qed.
Print Assumptions C98_sources.
Example C98_sources_nonvacuous :
  proper (mkDraws 0 (1/2) (1/4) 1 true) /\ set_source 4 "cube" "bh" (mkDraws 0 (1/2) (1/4) 1 true) = Ok (mkS (0 - / 2, 1/2 - / 2, 1/4 - / 2)%R (1 + 1)%R).
Proof. split; [repeat split; cbn; lra|reflexivity]. Qed.

(** The Plummer charges of one rank add up to 100, so those of all ranks to 100 times the number
    of ranks with sources, not to 100. *)
Theorem C98_mass : forall method ranks sources, (forall ds, In ds ranks -> ds <> []) -> Forall2 (fun ds l => set_sources "plummer" method ds = Ok l) ranks sources ->
  total (fun l => total charge l) sources = (100 * INR (length ranks))%R.
Proof.
  intros method ranks sources N F. induction F as [|ds l ranks sources H F IH]; [cbn; ring|].
  cbn [total]. rewrite (plummer_mass method ds l) by (try apply N; cbn; auto). rewrite IH by (intros x I; apply N; right; exact I).
  change (length (ds :: ranks)) with (S (length ranks)). rewrite S_INR. ring.
Qed.
Print Assumptions C98_mass.
Lemma set_centre : forall method u v w odd, set_sources "plummer" method [mkDraws 0 u v w odd] = Ok [mkS (around 0 u v) (100 / 1)%R].
Proof.
  intros. unfold set_sources. cbn [mapM length Z.of_nat Pos.of_succ_nat]. unfold set_source. cbn [String.eqb Ascii.eqb Bool.eqb].
  unfold pick_plummer_position, plummer_radius, pick_plummer_charge, div. cbn [d1 d2 d3]. destruct (Req_EM_T 0 0); [|contradiction]. cbn [bind].
  destruct (Req_EM_T (IZR 1) 0); [lra|]. reflexivity.
Qed.
Theorem C98_mass_refuted : exists ranks sources, (forall ds, In ds ranks -> ds <> [] /\ forall d, In d ds -> proper d) /\
  Forall2 (fun ds l => set_sources "plummer" "fmm" ds = Ok l) ranks sources /\ total (fun l => total charge l) sources = 200%R.
Proof.
  pose (d := mkDraws 0 (1/2) (1/2) 0 false). exists [[d]; [d]]. eexists. 
  assert (P : proper d) by (repeat split; cbn; lra).
  split; [intros ds [E|[E|[]]]; subst; (split; [discriminate|intros x [X|[]]; subst; exact P])|].
  split; [constructor; [apply set_centre|constructor; [apply set_centre|constructor]]|]. cbn. field.
Qed.
Print Assumptions C98_mass_refuted.
