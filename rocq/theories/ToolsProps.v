(** C97: the programs that test the accuracy. *)
From Coq Require Import String.
From Coq Require Import ZArith Reals Lra Lia List Bool.
From Verif Require Import Base ListFacts TablesModel TablesProps ToolsModel ToolsSpec ToolsProofs.
Import ListNotations.
Open Scope Z_scope.

(** Combining adds the values of the one kernel of the other file and changes nothing else. *)
Theorem C97_combine : forall c o k, n_sources (head c) = n_sources (head o) -> n_targets (head c) = n_targets (head o) ->
  Forall2 (fun a b => t_index a = t_index b) (targets c) (targets o) -> only k (head o) -> has k (head c) = false ->
  exists r, combine c o = Done r /\ sources r = sources c /\ same_but_flags (head r) (head c) /\ has k (head r) = true /\ (forall k', k' <> k -> has k' (head r) = has k' (head c)) /\
    length (targets r) = length (targets c) /\
    forall i a b, nth_error (targets c) i = Some a -> nth_error (targets o) i = Some b -> exists t, nth_error (targets r) i = Some t /\ takes k a b t.
Proof.
  intros c o k A B P O H. destruct (combine_k c o k A B P (first_only k _ O) H) as (l & E & L & N). eexists. split; [exact E|]. cbn [sources targets ToolsModel.head].
  split; [reflexivity|]. split; [apply with_flag_same|]. split; [rewrite with_flag_has; destruct k; reflexivity|]. split; [intros k' D; rewrite with_flag_has; destruct k, k'; try reflexivity; contradiction|].
  split; [exact L|]. intros i a b Ha Hb. exists (copier k a b). split; [apply N; assumption|apply copier_takes].
Qed.
Print Assumptions C97_combine.

(** When it is refused, for files as they are read. *)
Theorem C97_refused : forall c o, proper c -> proper o ->
  n_sources (head c) <> n_sources (head o) \/ n_targets (head c) <> n_targets (head o) \/
  (exists i a b, nth_error (targets c) i = Some a /\ nth_error (targets o) i = Some b /\ t_index a <> t_index b) \/
  (exists k, only k (head o) /\ has k (head c) = true) \/ ((forall k, has k (head o) = false) /\ targets c <> []) -> exists e, combine c o = Throw e.
Proof.
  intros c o [P1 P2] [Q1 Q2] H. destruct (combine c o) as [r|e] eqn:E; [|eauto]. exfalso. destruct (combine_counts c o r E) as [A B]. rewrite combine_eq in E by assumption.
  assert (L : length (targets c) = length (targets o)) by lia.
  destruct (choose (head c) (head o)) as [[h f]|] eqn:Ch; [|discriminate]. cbn [andthen] in E. destruct (copy_all f _ _) as [l|] eqn:Cp; [|discriminate]. destruct (copy_done f _ _ l L Cp) as [P F]. rewrite choose_eq in Ch.
  destruct H as [H|[H|[(i & a & b & Ha & Hb & N)|[(k & O & Hk)|[N Hc]]]]]; try contradiction.
  - apply N. clear -P Ha Hb. revert i Ha Hb. induction P as [|x y l1 l2 E _ IH]; intros [|i] Ha Hb; try discriminate; cbn in *; [congruence|eauto].
  - rewrite (first_only k _ O), Hk in Ch. discriminate.
  - apply Hc, F. unfold first_of in Ch. rewrite (N KLaplace : has_laplace (head o) = false), (N KYukawa : has_yukawa (head o) = false), (N KHelmholtz : has_helmholtz (head o) = false) in Ch. injection Ch as _ <-. reflexivity.
Qed.
Print Assumptions C97_refused.

(** "Only files of the same points are combined": neither the positions of the targets nor the
    sources of the other file matter. *)
Theorem C97_positions_refuted : forall c o o', head o' = head o -> Forall2 (fun y y' => t_index y = t_index y' /\ forall k, value k y = value k y') (targets o) (targets o') -> combine c o' = combine c o.
Proof.
  intros c o o' H V. unfold combine. rewrite H. destruct (negb _ || negb _); [reflexivity|]. rewrite choose_eq. destruct (first_of (head o)) as [k|]; cbn [andthen].
  - destruct (has k (head c)); [reflexivity|]. cbn [andthen]. rewrite (copy_ext _ _ _ _ V); [reflexivity|]. right. eauto.
  - rewrite (copy_ext _ _ _ _ V); [reflexivity|]. left. reflexivity.
Qed.
Print Assumptions C97_positions_refuted.

(** "The result has the kernels of both files": of a file with several only the first counts. *)
Theorem C97_first_only_refuted : forall c o r, combine c o = Done r -> has_laplace (head o) = true ->
  has_yukawa (head r) = has_yukawa (head c) /\ has_helmholtz (head r) = has_helmholtz (head c) /\ map t_yukawa (targets r) = map t_yukawa (firstn (length (targets r)) (targets c)).
Proof.
  intros c o r E Hl. destruct (combine_counts c o r E) as [A B]. rewrite combine_eq, choose_eq in E by assumption. unfold first_of in E. rewrite Hl in E. destruct (has KLaplace (head c)); [discriminate|]. cbn [andthen] in E.
  destruct (copy_all _ _ _) as [l|] eqn:Cp; [|discriminate]. cbn [andthen] in E. injection E as <-. cbn [ToolsModel.head targets]. split; [reflexivity|]. split; [reflexivity|]. clear -Cp. revert l Cp.
  generalize (targets o). induction (targets c) as [|x a IH]; intros [|y b] l Cp; cbn [copy_all] in Cp; try (injection Cp as <-; reflexivity). destruct (t_index x =? t_index y); [|discriminate].
  destruct (copy_all (Some (copier KLaplace)) a b) as [r|] eqn:R; [|discriminate]. cbn [andthen] in Cp. injection Cp as <-. cbn [map firstn length]. f_equal. eapply IH, R.
Qed.
Print Assumptions C97_first_only_refuted.

(** "The parameter of the combined file is the one its values were made with". *)
Theorem C97_parameter_refuted : exists c o r, proper c /\ proper o /\ only KYukawa (head o) /\ combine c o = Done r /\ yukawa_param (head o) = 2%R /\
  evaluates (mkArgs "f" 40 "fmm97" "yukawa" 3) (head r) = Some (ByYukawa 1).
Proof.
  exists (mkComb (mkHead 0 0 40 true false false 1 1) [] []), (mkComb (mkHead 0 0 40 false true false 2 1) [] []). eexists. repeat split.
  intros [] D; try reflexivity. contradiction.
Qed.
Print Assumptions C97_parameter_refuted.

(** The second file is never looked at. *)
Theorem C97_second_refuted : forall fs one two two' three to rest room, combine_main fs (one :: two :: three :: to :: rest) room = combine_main fs (one :: two' :: three :: to :: rest) room.
Proof. reflexivity. Qed.
Print Assumptions C97_second_refuted.

(** What main says: success, unless an argument is missing or it is aborted by an exception
    that is not caught; it says so without having written the file. *)
Theorem C97_says : forall fs argv room, let e := combine_main fs argv room in
  (says_done e = true <-> exit_code e = Some 0) /\ (exit_code e = Some (-1) <-> (length argv < 4)%nat) /\ (forall f, wrote e = Some f -> says_done e = true).
Proof.
  intros fs argv room e. subst e. unfold combine_main. destruct argv as [|a [|b [|c [|d l]]]];
    try (split; [split; discriminate|]; split; [split; [intros _; cbn; lia|reflexivity]|discriminate]).
  assert (W : ~ (length (a :: b :: c :: d :: l) < 4)%nat) by (cbn; lia).
  destruct (andthen _ _) as [f|[]]; cbn; (split; [split; congruence|]); (split; [split; [discriminate|intros K; exfalso; apply W; exact K]|]); intros g Hg; congruence.
Qed.
Print Assumptions C97_says.
Theorem C97_success_refuted : forall fs one two three to rest room, fs one = None \/ fs three = None \/ room = false ->
  wrote (combine_main fs (one :: two :: three :: to :: rest) room) = None /\
  (fs one = None -> says_done (combine_main fs (one :: two :: three :: to :: rest) room) = true /\ exit_code (combine_main fs (one :: two :: three :: to :: rest) room) = Some 0).
Proof.
  intros fs one two three to rest room H. split.
  - unfold combine_main. destruct (open_file fs one) as [a|e] eqn:A; [|destruct e; reflexivity]. cbn [andthen]. destruct (open_file fs three) as [b|e] eqn:B; [|destruct e; reflexivity]. cbn [andthen].
    destruct (combine a b) as [c|e]; [|destruct e; reflexivity]. cbn [andthen]. unfold open_file in A, B. destruct H as [H|[H|H]]; [rewrite H in A; discriminate|rewrite H in B; discriminate|]. rewrite H. reflexivity.
  - intros N. unfold combine_main, open_file. rewrite N. split; reflexivity.
Qed.
Print Assumptions C97_success_refuted.

(** Files that makepoints writes for three kernels and the same points: the combined file has
    the values of the first and the third, not those of the second. *)
Theorem C97_three : forall fs k1 k2 k3 n1 n2 n3 to rest ss ps v1 v2 v3 f1 f2 f3, k1 <> k2 -> k1 <> k3 -> k2 <> k3 -> length v1 = length ps -> length v2 = length ps -> length v3 = length ps ->
  make_file (name k1) ss (List.combine ps v1) = Done f1 -> make_file (name k2) ss (List.combine ps v2) = Done f2 -> make_file (name k3) ss (List.combine ps v3) = Done f3 ->
  fs n1 = Some f1 -> fs n2 = Some f2 -> fs n3 = Some f3 ->
  exists f h, combine_main fs (n1 :: n2 :: n3 :: to :: rest) true = mkEnd (Some 0) true (Some (to, f)) /\ f_head f = Some h /\ has k1 h = true /\ has k3 h = true /\ has k2 h = false /\
    f_sources f = f_sources f1 /\ length (f_targets f) = length ps /\
    forall i p a b, nth_error ps i = Some p -> nth_error v1 i = Some a -> nth_error v3 i = Some b ->
      exists t, nth_error (f_targets f) i = Some t /\ t_pos t = p /\ t_index t = Z.of_nat i /\ value k1 t = a /\ value k3 t = b /\ value k2 t = (0%R, 0%R).
Proof.
  intros fs k1 k2 k3 n1 n2 n3 to rest ss ps v1 v2 v3 f1 f2 f3 D12 D13 D23 L1 L2 L3 M1 _ M3 F1 _ F3.
  assert (Hd : forall k l f, make_file (name k) ss l = Done f -> exists h r, f = mkFile (Some h) (save_sources 0 ss) r /\ save_all (name k) 0 l = Done r /\ length r = length l /\ n_sources h = Z.of_nat (length ss) /\ n_targets h = Z.of_nat (length l) /\ only k h).
  { intros k l f M. unfold make_file in M. destruct (save_all_ok k 0 l) as (r & E & L & _). rewrite E in M. cbn [andthen] in M. injection M as <-. do 2 eexists. split; [reflexivity|]. split; [exact E|]. split; [exact L|].
    split; [reflexivity|]. split; [reflexivity|]. destruct k; (split; [reflexivity|]); intros [] D; try reflexivity; contradiction. }
  destruct (Hd _ _ _ M1) as (h1 & r1 & -> & E1 & R1 & S1 & T1 & O1). destruct (Hd _ _ _ M3) as (h3 & r3 & -> & E3 & R3 & S3 & T3 & O3). rewrite !combine_length in *.
  assert (C1 : open_file fs n1 = Done (mkComb h1 (save_sources 0 ss) r1)).
  { unfold open_file. rewrite F1. cbn [f_head f_sources f_targets]. rewrite S1, <- (save_sources_length 0 ss), read_ok. cbn [andthen]. rewrite T1, <- R1, read_ok. reflexivity. }
  assert (C3 : open_file fs n3 = Done (mkComb h3 (save_sources 0 ss) r3)).
  { unfold open_file. rewrite F3. cbn [f_head f_sources f_targets]. rewrite S3, <- (save_sources_length 0 ss), read_ok. cbn [andthen]. rewrite T3, <- R3, read_ok. reflexivity. }
  destruct (save_all_ok k1 0 (List.combine ps v1)) as (r1' & E1' & _ & N1). rewrite E1 in E1'. injection E1' as <-. destruct (save_all_ok k3 0 (List.combine ps v3)) as (r3' & E3' & _ & N3). rewrite E3 in E3'. injection E3' as <-.
  assert (nthc : forall (v : list cpx) j p x, nth_error ps j = Some p -> nth_error v j = Some x -> nth_error (List.combine ps v) j = Some (p, x)).
  { clear. induction ps as [|q ps IH]; intros [|y v] [|j] p x A B; try discriminate; cbn in *; [congruence|eauto]. }
  assert (some : forall {A} (l : list A) j, (j < length l)%nat -> exists x, nth_error l j = Some x).
  { intros A l j Hj. destruct (nth_error l j) eqn:E; [eauto|]. apply nth_error_None in E. lia. }
  assert (Pd : Forall2 (fun a b => t_index a = t_index b) r1 r3).
  { assert (L : length r1 = length r3) by lia. assert (K : forall j a b, nth_error r1 j = Some a -> nth_error r3 j = Some b -> t_index a = t_index b).
    { intros j a b A B. assert (Hj : (j < length r1)%nat) by (apply nth_error_Some; rewrite A; discriminate). destruct (some _ ps j) as (p & P); [lia|]. destruct (some _ v1 j) as (x & X); [lia|]. destruct (some _ v3 j) as (y & Y); [lia|].
      destruct (N1 j p x (nthc _ _ _ _ P X)) as (t & A' & _ & I1 & _). destruct (N3 j p y (nthc _ _ _ _ P Y)) as (t' & B' & _ & I3 & _). congruence. }
    clear -L K. revert r3 L K. induction r1 as [|a r1 IH]; intros [|b r3] L K; try discriminate; constructor; [exact (K 0%nat a b eq_refl eq_refl)|]. apply IH; [cbn in L; lia|]. intros j. exact (K (S j)). }
  destruct (C97_combine (mkComb h1 (save_sources 0 ss) r1) (mkComb h3 (save_sources 0 ss) r3) k3) as (r & Ec & Sr & _ & H3 & Ho & Lr & Nr); cbn [ToolsModel.head targets sources] in *; auto; try lia.
  { apply O1. congruence. }
  exists (mkFile (Some (head r)) (sources r) (targets r)), (head r). unfold combine_main. rewrite C1. cbn [andthen]. rewrite C3. cbn [andthen]. rewrite Ec. cbn [andthen write_file f_head f_sources f_targets]. split; [reflexivity|]. split; [reflexivity|].
  split; [rewrite Ho by congruence; apply O1|]. split; [exact H3|]. split; [rewrite Ho by congruence; apply O1; congruence|]. split; [exact Sr|]. split; [lia|].
  intros i p a b Pi Ai Bi. destruct (N1 i p a (nthc _ _ _ _ Pi Ai)) as (t1 & A1 & A2 & A3 & A4 & A5 & A6). destruct (N3 i p b (nthc _ _ _ _ Pi Bi)) as (t3 & B1 & B2 & B3 & B4 & B5 & B6).
  destruct (Nr i t1 t3 A1 B1) as (t & Ht & (X1 & X2 & X3 & X4 & X5)). exists t. split; [exact Ht|]. split; [congruence|]. split; [rewrite X3, A3; lia|]. split; [rewrite X5 by congruence; exact A5|]. split; [congruence|]. rewrite X5 by congruence. apply A6. congruence.
Qed.
Print Assumptions C97_three.

(** collect: an accepted command line for one of the three kernels evaluates it with the
    parameter of the file. *)
Theorem C97_accepted : forall a h k, accepted a = true -> kernel a = name k ->
  evaluates a h = Some (match k with KLaplace => ByLaplace | KYukawa => ByYukawa (yukawa_param h) | KHelmholtz => ByHelmholtz (helmholtz_param h) end) /\
  (method a = "fmm97"%string -> accuracy a = 3 \/ accuracy a = 6) /\ (k <> KLaplace -> method a = "fmm97"%string).
Proof.
  intros [d l m k0 n] h k A E. cbn [kernel method accuracy] in *. subst k0. unfold accepted, evaluates in *. cbn [kernel method accuracy datafile] in *. destruct (d =? "")%string; [discriminate|].
  destruct (String.eqb_spec m "bh") as [->|N1]; [|destruct (String.eqb_spec m "fmm") as [->|N2]; [|destruct (String.eqb_spec m "fmm97") as [->|N3]; [|discriminate]]];
    destruct k; cbn in A |- *; try discriminate; (split; [reflexivity|]); (split; [|try contradiction; intros; reflexivity || congruence]); try discriminate;
    intros _; destruct (Z.eqb_spec n 3); destruct (Z.eqb_spec n 6); auto; discriminate.
Qed.
Print Assumptions C97_accepted.

(** "Accepted command lines can be run": Laplace with the method fmm is accepted for every
    number of digits, but has a table for three of them only. *)
Theorem C97_digits_refuted : forall n size, size <> 0%R -> n <> 3 -> n <> 6 -> n <> 9 -> accepted (mkArgs "f" 40 "fmm" "laplace" n) = true /\ forall s, run laplace_update [Create (mkReq n size [])] initial <> Ok s.
Proof.
  intros n size Hs N3 N6 N9. split; [reflexivity|]. intros s E. destruct (C96_digits [] _ (mkReq n size []) eq_refl Hs) as [H _]. cbn [app r_digits] in H. destruct (H (ex_intro _ s E)) as [K|[K|K]]; lia.
Qed.
Print Assumptions C97_digits_refuted.

(** "All ranks take part": for the three kernels only rank 0 gets to the collective calls. *)
Theorem C97_ranks_refuted : forall a h k rank, kernel a = name k -> goes_on a (header_on rank h) = true <-> rank = 0 /\ has k h = true.
Proof.
  intros a h k rank E. unfold goes_on, header_on. rewrite E. destruct (Z.eqb_spec rank 0) as [->|N]; destruct k; cbn; rewrite ?orb_false_r, ?negb_involutive; (split; [intros H; try discriminate; auto|intros [? H]; try contradiction; auto]).
Qed.
Print Assumptions C97_ranks_refuted.

(** "Unknown kernels are refused": any other name is accepted, all ranks go on, nothing is
    evaluated, and the result is compared with the Helmholtz values. *)
Theorem C97_unknown_refuted : forall d l m k n h rank, d <> ""%string -> m = "bh"%string \/ m = "fmm"%string \/ m = "fmm97"%string -> (forall k', k <> name k') -> let a := mkArgs d l m k n in
  accepted a = true /\ goes_on a (header_on rank h) = true /\ evaluates a h = None /\ forall t, exact k t = t_helmholtz t.
Proof.
  intros d l m k n h rank D M K a. subst a. assert (E : forall k', (k =? name k')%string = false) by (intros k'; apply String.eqb_neq, K). pose proof (E KLaplace) as E1. pose proof (E KYukawa) as E2. pose proof (E KHelmholtz) as E3. cbn [name] in E1, E2, E3.
  unfold accepted, goes_on, evaluates, exact. cbn [kernel method accuracy datafile]. rewrite E1, E2, E3. apply String.eqb_neq in D. rewrite D. cbn [andb orb negb].
  split; [|auto]. destruct M as [->|[->| ->]]; reflexivity.
Qed.
Print Assumptions C97_unknown_refuted.

(** The error printed is the relative error in the mean square, and zero only for exact
    results; the maximum is the largest relative error. *)
Theorem C97_error : forall k ts e m, compare_results k ts = Ok (e, m) ->
  (0 <= e /\ e * e * total (fun t => sq (exact k t) (0, 0)) ts = total (fun t => sq (t_phi t) (exact k t)) ts)%R /\
  (e = 0%R <-> forall t, In t ts -> t_phi t = exact k t) /\ (forall t, In t ts -> exists r, relative k t = Ok r /\ (r <= m)%R) /\ (m = 0%R \/ exists t, In t ts /\ relative k t = Ok m).
Proof.
  intros k ts e m H. destruct (compare_inv k ts e m H) as (D & He & Q & Hm & A & B). assert (X : total (fun t => sq (exact k t) (0, 0)%R) ts = total (fun t => norm (exact k t)) ts).
  { clear. induction ts as [|t ts IH]; [reflexivity|]. cbn [total]. rewrite IH. unfold sq, norm. cbn. ring. }
  split; [split; [exact He|rewrite X; exact Q]|]. split; [|auto]. split.
  - intros -> t I. apply sq_0. refine (total_0 (fun t => sq (t_phi t) (exact k t)) ts _ _ t I); [intros; apply sq_nonneg|]. rewrite <- Q. ring.
  - intros E. assert (Z0 : total (fun t => sq (t_phi t) (exact k t)) ts = 0%R).
    { clear -E. induction ts as [|t ts IH]; [reflexivity|]. cbn [total]. rewrite IH by (intros u I; apply E; right; exact I). rewrite (proj2 (sq_0 _ _) (E t (or_introl eq_refl))). ring. }
    rewrite Z0 in Q. apply Rmult_integral in Q. destruct Q as [Q|Q]; [apply Rmult_integral in Q; destruct Q; assumption|lra].
Qed.
Print Assumptions C97_error.

(** The mean is at most the maximum, for Laplace and Yukawa if the values are real. *)
Theorem C97_mean : forall k ts e m, compare_results k ts = Ok (e, m) -> (k = name KLaplace \/ k = name KYukawa -> forall t, In t ts -> snd (t_phi t) = 0%R /\ snd (exact k t) = 0%R) -> (e <= m)%R.
Proof.
  intros k ts e m H R0. destruct (compare_inv k ts e m H) as (D & He & Q & Hm & A & _).
  assert (T : (total (fun t => sq (t_phi t) (exact k t)) ts <= m * m * total (fun t => norm (exact k t)) ts)%R).
  { apply total_le. intros t I. destruct (A t I) as (r & Er & Lr). unfold relative in Er. destruct ((k =? "laplace")%string || (k =? "yukawa")%string) eqn:K.
    - destruct (div _ _) as [v|] eqn:V; [|discriminate]. cbn [bind] in Er. injection Er as <-. apply div_inv in V. destruct V as [Nz V]. destruct (R0 ltac:(apply orb_true_iff in K; destruct K as [K|K]; apply String.eqb_eq in K; auto) t I) as [I1 I2].
      unfold sq, norm. rewrite I1, I2, <- V. assert (v * v <= m * m)%R by (rewrite <- (Rabs_pos_eq m Hm) in Lr; apply Rsqr_le_abs_1 in Lr; exact Lr). pose proof (Rle_0_sqr (fst (exact k t))) as F. unfold Rsqr in F. nra.
    - destruct (div _ _) as [v|] eqn:V; [|discriminate]. cbn [bind] in Er. injection Er as <-. apply div_inv in V. destruct V as [Nz V]. rewrite norm_sq in V. rewrite <- V. pose proof (norm_nonneg (exact k t)) as F.
      assert (v <= m * m)%R by (destruct (Rle_dec v 0); [nra|]; rewrite <- (sqrt_sqrt v) by lra; pose proof (sqrt_pos v); nra). nra. }
  rewrite <- Q in T. assert (e * e <= m * m)%R by (apply Rmult_le_reg_r with (total (fun t => norm (exact k t)) ts); assumption). nra.
Qed.
Print Assumptions C97_mean.

(** "The maximum bounds the error": it does not see imaginary parts. *)
Theorem C97_imaginary_refuted : exists ts e, compare_results "laplace" ts = Ok (e, 0%R) /\ (e = 5)%R.
Proof.
  exists [mkTgt (0, 0, 0)%R (1, 5)%R (1, 0)%R (0, 0)%R (0, 0)%R 0], 5%R. split; [|reflexivity]. unfold compare_results. cbn [foldM]. unfold relative, exact, div. cbn [String.eqb Ascii.eqb Bool.eqb orb t_laplace t_phi fst snd bind].
  destruct (Req_EM_T 1 0); [lra|]. cbn [bind]. replace (Rabs ((1 - 1) / 1)) with 0%R by (replace ((1 - 1) / 1)%R with 0%R by field; symmetry; apply Rabs_R0). destruct (Rlt_dec 0 0); [lra|]. unfold norm, minus. cbn [fst snd bind].
  destruct (Req_EM_T _ 0) as [F|F]; [lra|]. cbn [bind]. do 2 f_equal. replace (_ / _)%R with (5 * 5)%R by field. apply sqrt_square. lra.
Qed.
Print Assumptions C97_imaginary_refuted.

(** Files with two points. *)
Example C97_nonvacuous : exists f1 f3, let ps := [(0, 0, 0); (1, 2, 3)]%R in
  make_file "laplace" [((1, 1, 1), 2)]%R (List.combine ps [(3, 0); (4, 0)]%R) = Done f1 /\ make_file "helmholtz" [((1, 1, 1), 2)]%R (List.combine ps [(5, 6); (7, 8)]%R) = Done f3 /\
  let fs := fun n => if (n =? "a")%string then Some f1 else if (n =? "c")%string then Some f3 else None in
  exists f, wrote (combine_main fs ["a"; "b"; "c"; "d"]%string true) = Some ("d"%string, f) /\ map (fun t => (t_pos t, t_laplace t, t_helmholtz t, t_index t)) (f_targets f) = [((0, 0, 0), (3, 0), (5, 6), 0%Z); ((1, 2, 3), (4, 0), (7, 8), 1%Z)]%R.
Proof. do 2 eexists. cbv zeta. split; [reflexivity|]. split; [reflexivity|]. eexists. split; [reflexivity|]. reflexivity. Qed.
Example C97_error_nonvacuous : exists e, compare_results "helmholtz" [mkTgt (0, 0, 0)%R (3, 4)%R (0, 0)%R (0, 0)%R (3, 0)%R 0; mkTgt (0, 0, 0)%R (4, 0)%R (0, 0)%R (0, 0)%R (4, 0)%R 1] = Ok (e, (4 / 3)%R) /\ (e = 4 / 5)%R.
Proof.
  exists (4 / 5)%R. split; [|reflexivity].
  assert (Dv : forall a b c, b <> 0%R -> (a = c * b)%R -> div a b = Ok c) by (intros a b c B ->; unfold div; destruct (Req_EM_T b 0); [contradiction|]; f_equal; field; exact B).
  assert (r1 : relative "helmholtz" (mkTgt (0, 0, 0)%R (3, 4)%R (0, 0)%R (0, 0)%R (3, 0)%R 0) = Ok (4 / 3)%R).
  { unfold relative. change (("helmholtz" =? "laplace")%string || ("helmholtz" =? "yukawa")%string) with false. cbv iota. rewrite (Dv _ _ (4 / 3 * (4 / 3))%R); [|cbn; unfold norm; cbn; lra|cbn; unfold norm; cbn; lra]. cbn [bind]. rewrite sqrt_square by lra. reflexivity. }
  assert (r2 : relative "helmholtz" (mkTgt (0, 0, 0)%R (4, 0)%R (0, 0)%R (0, 0)%R (4, 0)%R 1) = Ok 0%R).
  { unfold relative. change (("helmholtz" =? "laplace")%string || ("helmholtz" =? "yukawa")%string) with false. cbv iota. rewrite (Dv _ _ 0%R); [|cbn; unfold norm; cbn; lra|cbn; unfold norm; cbn; lra]. cbn [bind]. rewrite sqrt_0. reflexivity. }
  unfold compare_results. cbn [foldM]. rewrite r1. cbn [bind]. rewrite r2. cbn [bind]. destruct (Rlt_dec 0 (4 / 3)); [|lra]. destruct (Rlt_dec (4 / 3) 0); [lra|].
  rewrite (Dv _ _ (4 / 5 * (4 / 5))%R); [|cbn; unfold norm; cbn; lra|cbn; unfold norm; cbn; lra]. cbn [bind]. rewrite sqrt_square by lra. reflexivity.
Qed.
