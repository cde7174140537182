(** C101: the reference data of the tests. *)
From Coq Require Import Ascii String.
From Coq Require Import ZArith Reals List Bool Lia Lra.
From Verif Require Import Base BasicModel ToolsModel ToolsSpec ToolsProofs ToolsProps MakeModel MakeSpec MakeProofs.
Import ListNotations.
Open Scope Z_scope.

(** Which command lines are accepted, and with which arguments. *)
Theorem C101_read : forall l,
  ((In OHelp l \/ In OBad l) -> MakeModel.read_arguments l = None) /\
  (~ In OHelp l -> ~ In OBad l ->
    (In (last_data "cube" l) ["cube"; "sphere"; "plummer"]%string -> MakeModel.read_arguments l = Some (mkIn (last_data "cube" l) (last_kernel "laplace" l) (last_single false l))) /\
    (~ In (last_data "cube" l) ["cube"; "sphere"; "plummer"]%string -> MakeModel.read_arguments l = None)).
Proof.
  intros l. unfold MakeModel.read_arguments. split; [intros H; rewrite options_bad by exact H; reflexivity|].
  intros H B. rewrite options_read by assumption. cbn [i_type i_kernel i_single MakeModel.defaults]. unfold MakeModel.accepted. cbn [i_type].
  set (t := last_data "cube" l). split.
  - intros [<-|[<-|[<-|[]]]]; reflexivity.
  - intros N. cbn [In] in N. destruct (String.eqb_spec t "cube") as [E|_]; [exfalso; apply N; left; symmetry; exact E|].
    destruct (String.eqb_spec t "sphere") as [E|_]; [exfalso; apply N; right; left; symmetry; exact E|].
    destruct (String.eqb_spec t "plummer") as [E|_]; [exfalso; apply N; right; right; left; symmetry; exact E|reflexivity].
Qed.
Print Assumptions C101_read.

(** Nothing is made of a command line that is not accepted. *)
Theorem C101_refused : forall rand pot checks ns nt l, main rand pot checks ns nt l = Refused <-> MakeModel.read_arguments l = None.
Proof.
  intros rand pot checks ns nt l. unfold main. destruct (MakeModel.read_arguments l) as [a|]; [|split; reflexivity]. split; [|discriminate].
  unfold compute_potential. destruct (points rand ns nt a) as [ss ts]. destruct (settled ss); [|discriminate]. destruct (placed ts); [|discriminate]. destruct (_ <=? _)%nat; [discriminate|]. destruct (make_file _ _ _); discriminate.
Qed.
Print Assumptions C101_refused.

(** Every record is set, in order; no two records use the same random number. *)
Theorem C101_points : forall rand ns nt s kernel single ss ts, sequence rand ->
  points rand ns nt (mkIn (shape_name s) kernel single) = (ss, ts) ->
  length ss = ns /\ length ts = nt /\
  (forall j x, nth_error ss j = Some x -> let b := (j * (numbers s + signs single))%nat in
    p_index x = Some (Z.of_nat j) /\ inside s (p_pos x) /\ position_from rand s b (p_pos x) /\
    exists q, p_charge x = Some q /\ charge_ok single q /\
      q = ((1 + unit_of rand (b + numbers s)) * (if single then 1 else if Z.odd (rand (b + numbers s + 1)%nat) then -1 else 1))%R) /\
  (forall j x, nth_error ts j = Some x ->
    q_index x = Some (Z.of_nat j) /\ inside s (q_pos x) /\ position_from rand s (ns * (numbers s + signs single) + j * numbers s) (q_pos x) /\ q_phi x = (0%R, 0%R)).
Proof.
  intros rand ns nt s kernel single ss ts H E. rewrite points_shape in E. injection E as <- <-.
  destruct (fill_sources_at rand s single ns 0 0) as (L & _ & N). destruct (fill_targets_at rand s nt 0 (ns * (numbers s + signs single))) as (L' & N').
  split; [exact L|]. split; [exact L'|]. split; intros j x X.
  - assert (Hj : (j < ns)%nat) by (rewrite <- L; apply nth_error_Some; rewrite X; discriminate). rewrite N in X by exact Hj. injection X as <-.
    cbn zeta. cbn [p_index p_pos p_charge]. rewrite ?Nat.add_0_l, ?Z.add_0_l. set (b := (j * (numbers s + signs single))%nat). pose proof (pick_from rand H s b) as P.
    split; [reflexivity|]. split; [exact (from_inside rand H s b _ P)|]. split; [exact P|]. eexists. split; [reflexivity|]. split; [apply charge_good; exact H|].
    unfold charge_of. change (draw rand) with (unit_of rand). replace (b + numbers s + 1)%nat with (S (b + numbers s)) by lia. destruct single; cbn [fst]; [ring|]. destruct (Z.odd _); ring.
  - assert (Hj : (j < nt)%nat) by (rewrite <- L'; apply nth_error_Some; rewrite X; discriminate). rewrite N' in X by exact Hj. injection X as <-.
    cbn [q_index q_pos q_phi]. rewrite ?Z.add_0_l. set (b := (_ + _)%nat). pose proof (pick_from rand H s b) as P.
    split; [reflexivity|]. split; [exact (from_inside rand H s b _ P)|]. split; [exact P|reflexivity].
Qed.
Print Assumptions C101_points.
(** The tables of the kernels are made for a domain that holds all points. *)
Theorem C101_domain : forall s p q, inside s p -> inside s q -> within (domain_size (shape_name s =? "cube")%string) p q.
Proof. intros s p q P Q. pose proof (inside_within s p q P Q) as W. destruct s; exact W. Qed.
Print Assumptions C101_domain.

(** The points depend on the distribution and the signs only. *)
Theorem C101_same : forall rand ns nt t k1 k2 single, points rand ns nt (mkIn t k1 single) = points rand ns nt (mkIn t k2 single).
Proof. reflexivity. Qed.
Print Assumptions C101_same.
Theorem C101_signs_refuted : exists rand x y, sequence rand /\
  nth_error (fst (points rand 2 2 (mkIn "cube" "laplace" true))) 1 = Some x /\ nth_error (fst (points rand 2 2 (mkIn "cube" "laplace" false))) 1 = Some y /\ p_pos x <> p_pos y.
Proof.
  exists (fun i => if (i =? 4)%nat then 2147483647 else 0). do 2 eexists. split.
  - intros i. destruct (i =? 4)%nat; lia.
  - split; [reflexivity|]. split; [reflexivity|]. cbn. unfold pick_cube_position, draw, rand_max. cbn. intros E. injection E as E. lra.
Qed.
Print Assumptions C101_signs_refuted.

(** What a run with one of the three kernels leaves. *)
Lemma runs : forall rand pot checks ns nt l s k single, MakeModel.read_arguments l = Some (mkIn (shape_name s) (name k) single) -> exists ss ps f,
  main rand pot checks ns nt l = Wrote (fname (name k) (shape_name s) single) (if checks then f else mkFile None [] []) /\
  settled (fst (points rand ns nt (mkIn (shape_name s) (name k) single))) = Some ss /\
  placed (snd (points rand ns nt (mkIn (shape_name s) (name k) single))) = Some (map (fun p => (p, zero)) ps) /\
  make_file (name k) ss (List.combine ps (map (pot (name k) ss) ps)) = Done f.
Proof.
  intros rand pot checks ns nt l s k single R. unfold main. rewrite R. unfold compute_potential. cbn [i_type i_kernel i_single]. rewrite points_shape.
  destruct (settled_fill rand s single ns 0 0) as (ss & S & Ls & Ns). destruct (placed_fill rand s nt 0 (ns * (numbers s + signs single))) as (ps & P & Lp & Np).
  cbn [fst snd]. rewrite S, P. rewrite map_map. rewrite (map_ext _ (fun p => (p, pot (name k) ss p))) by (intros p; apply name_eval). rewrite combine_map.
  rewrite fname_length. assert (B : (300 <=? String.length (name k) + String.length (shape_name s) + (if single then 21 else 14))%nat = false) by (destruct k, s, single; reflexivity). rewrite B.
  unfold make_file. destruct (save_all_ok k 0 (List.combine ps (map (pot (name k) ss) ps))) as (r & Er & _ & _). rewrite Er. cbn [andthen].
  exists ss, ps. eexists. split; [reflexivity|]. split; [reflexivity|]. split; [reflexivity|]. unfold make_file. rewrite Er. reflexivity.
Qed.
(** Every accepted command line with an offered distribution and one of the three kernels
    leaves a file of its own name with the points and their exact potentials. *)
Theorem C101_reference : forall rand pot ns nt l s k single, sequence rand -> MakeModel.read_arguments l = Some (mkIn (shape_name s) (name k) single) -> exists f h,
  main rand pot true ns nt l = Wrote (fname (name k) (shape_name s) single) f /\ f_head f = Some h /\
  n_sources h = Z.of_nat ns /\ n_targets h = Z.of_nat nt /\ refinement h = 40 /\ yukawa_param h = (1 / 10)%R /\ helmholtz_param h = (1 / 10)%R /\ only k h /\
  length (f_sources f) = ns /\ length (f_targets f) = nt /\
  (forall j x, nth_error (f_sources f) j = Some x -> s_index x = Z.of_nat j /\ charge_ok single (s_charge x) /\ position_from rand s (j * (numbers s + signs single)) (s_pos x)) /\
  (forall j t, nth_error (f_targets f) j = Some t ->
    t_index t = Z.of_nat j /\ position_from rand s (ns * (numbers s + signs single) + j * numbers s) (t_pos t) /\
    value k t = pot (name k) (map (fun x => (ToolsModel.s_pos x, s_charge x)) (f_sources f)) (t_pos t) /\
    t_phi t = (0%R, 0%R) /\ forall k', k' <> k -> value k' t = (0%R, 0%R)).
Proof.
  intros rand pot ns nt l s k single H R. destruct (runs rand pot true ns nt l s k single R) as (ss & ps & f & M & S & P & F).
  unfold make_file in F. destruct (save_all_ok k 0 (List.combine ps (map (pot (name k) ss) ps))) as (r & Er & Lr & Nr). rewrite Er in F. cbn [andthen] in F. injection F as <-.
  destruct (points rand ns nt (mkIn (shape_name s) (name k) single)) as [a b] eqn:E. cbn [fst snd] in *.
  destruct (C101_points rand ns nt s (name k) single a b H E) as (La & Lb & Na & Nb). rewrite points_shape in E. injection E as Ea Eb.
  destruct (settled_fill rand s single ns 0 0) as (ss' & S' & Ls & Ns). rewrite Ea, S in S'. injection S' as <-. rewrite Ea in Ns.
  destruct (placed_fill rand s nt 0 (ns * (numbers s + signs single))) as (ps' & P' & Lp & Np). rewrite Eb, P in P'. injection P' as P'. rewrite Eb in Np.
  assert (ps = ps'). { apply (f_equal (map fst)) in P'. rewrite !map_map in P'. cbn [fst] in P'. rewrite !map_id in P'. exact P'. } subst ps'. clear P'.
  rewrite combine_length, map_length, Nat.min_id in Lr.
  cbn beta iota in M. eexists. eexists. split; [exact M|]. split; [reflexivity|]. cbn [n_sources n_targets refinement yukawa_param helmholtz_param f_sources f_targets].
  split; [exact (f_equal Z.of_nat Ls)|]. split; [rewrite combine_length, map_length, Nat.min_id; exact (f_equal Z.of_nat Lp)|]. split; [reflexivity|]. split; [lra|]. split; [lra|].
  split. { destruct k; (split; [reflexivity|]); intros [] D; try reflexivity; contradiction. }
  rewrite save_sources_length. split; [exact Ls|]. split; [lia|].
  assert (back : map (fun x => (ToolsModel.s_pos x, s_charge x)) (save_sources 0 ss) = ss).
  { generalize 0. clear. induction ss as [|[p q] ss IH]; intros i; cbn; [reflexivity|]. rewrite IH. reflexivity. }
  split.
  - intros j x X. assert (Hj : (j < length a)%nat). { rewrite La, <- (eq_trans (save_sources_length 0 ss) Ls). apply nth_error_Some. rewrite X. discriminate. }
    destruct (nth_error a j) as [y|] eqn:Y; [|apply nth_error_None in Y; lia]. destruct (Ns j y Y) as (q & Q & C). rewrite (save_sources_at _ 0 j _ _ Q) in X. injection X as <-.
    destruct (Na j y Y) as (_ & _ & F & q' & C' & G & _). rewrite C in C'. injection C' as <-. cbn [s_index s_charge ToolsModel.s_pos]. split; [lia|]. split; [exact G|exact F].
  - intros j t T. assert (Hj : (j < length b)%nat). { rewrite Lb, <- (eq_trans Lr Lp). apply nth_error_Some. rewrite T. discriminate. }
    destruct (nth_error b j) as [y|] eqn:Y; [|apply nth_error_None in Y; lia]. pose proof (Np j y Y) as Q.
    destruct (Nr j (q_pos y) (pot (name k) ss (q_pos y))) as (t' & T' & B1 & B2 & B3 & B4 & B5).
    { rewrite <- combine_map. apply map_nth_error with (f := fun p => (p, pot (name k) ss p)). exact Q. }
    rewrite T in T'. injection T' as <-. destruct (Nb j y Y) as (_ & _ & F & _). rewrite back, B1. split; [lia|]. split; [exact F|]. split; [exact B4|]. split; [exact B3|exact B5].
Qed.
Print Assumptions C101_reference.

(** Three runs that differ in the kernel only make files that can be combined (C97_three): the
    result has the exact potentials of two kernels for the same points. *)
Theorem C101_combined : forall rand pot ns nt s single k1 k2 k3 l1 l2 l3 n1 n2 n3 f1 f2 f3 fs to rest, sequence rand -> k1 <> k2 -> k1 <> k3 -> k2 <> k3 ->
  MakeModel.read_arguments l1 = Some (mkIn (shape_name s) (name k1) single) -> MakeModel.read_arguments l2 = Some (mkIn (shape_name s) (name k2) single) -> MakeModel.read_arguments l3 = Some (mkIn (shape_name s) (name k3) single) ->
  main rand pot true ns nt l1 = Wrote n1 f1 -> main rand pot true ns nt l2 = Wrote n2 f2 -> main rand pot true ns nt l3 = Wrote n3 f3 ->
  fs n1 = Some f1 -> fs n2 = Some f2 -> fs n3 = Some f3 ->
  n1 <> n2 /\ n1 <> n3 /\ n2 <> n3 /\
  exists f h, combine_main fs (n1 :: n2 :: n3 :: to :: rest) true = mkEnd (Some 0) true (Some (to, f)) /\ f_head f = Some h /\ has k1 h = true /\ has k3 h = true /\ has k2 h = false /\
    length (f_sources f) = ns /\ length (f_targets f) = nt /\
    forall j t, nth_error (f_targets f) j = Some t -> let ss := map (fun x => (ToolsModel.s_pos x, s_charge x)) (f_sources f) in
      t_index t = Z.of_nat j /\ inside s (t_pos t) /\ value k1 t = pot (name k1) ss (t_pos t) /\ value k3 t = pot (name k3) ss (t_pos t) /\ value k2 t = (0%R, 0%R).
Proof.
  intros rand pot ns nt s single k1 k2 k3 l1 l2 l3 n1 n2 n3 f1 f2 f3 fs to rest H D12 D13 D23 R1 R2 R3 M1 M2 M3 F1 F2 F3.
  destruct (runs rand pot true ns nt l1 s k1 single R1) as (ss & ps & g1 & A1 & S1 & P1 & G1).
  destruct (runs rand pot true ns nt l2 s k2 single R2) as (ss2 & ps2 & g2 & A2 & S2 & P2 & G2).
  destruct (runs rand pot true ns nt l3 s k3 single R3) as (ss3 & ps3 & g3 & A3 & S3 & P3 & G3).
  rewrite M1 in A1. injection A1 as -> <-. rewrite M2 in A2. injection A2 as -> <-. rewrite M3 in A3. injection A3 as -> <-.
  rewrite (C101_same rand ns nt (shape_name s) (name k2) (name k1)) in S2, P2. rewrite (C101_same rand ns nt (shape_name s) (name k3) (name k1)) in S3, P3.
  rewrite S1 in S2, S3. injection S2 as <-. injection S3 as <-. rewrite P1 in P2, P3.
  assert (inj : forall a b : list point, Some (map (fun p => (p, zero)) a) = Some (map (fun p => (p, zero)) b) -> a = b).
  { intros a b E. injection E as E. apply (f_equal (map fst)) in E. rewrite !map_map in E. cbn [fst] in E. rewrite !map_id in E. exact E. }
  apply inj in P2, P3. subst ps2 ps3.
  assert (nm : forall a b, fname (name a) (shape_name s) single = fname (name b) (shape_name s) single -> a = b).
  { intros a b E. assert (I : In (shape_name s) ["cube"; "sphere"; "plummer"]%string) by (destruct s; cbn; auto). destruct (fname_inj _ _ _ _ _ _ I I E) as (K & _). destruct a, b; try reflexivity; discriminate K. }
  split; [intros E; apply D12, nm, E|]. split; [intros E; apply D13, nm, E|]. split; [intros E; apply D23, nm, E|].
  destruct (C97_three fs k1 k2 k3 (fname (name k1) (shape_name s) single) (fname (name k2) (shape_name s) single) (fname (name k3) (shape_name s) single) to rest ss ps (map (pot (name k1) ss) ps) (map (pot (name k2) ss) ps) (map (pot (name k3) ss) ps) f1 f2 f3 D12 D13 D23) as (f & h & C & Hh & H1 & H3 & H2 & Sf & Lf & V); try apply map_length; try eassumption.
  destruct (C101_reference rand pot ns nt l1 s k1 single H R1) as (f1' & h1 & M1' & _ & _ & _ & _ & _ & _ & _ & Ls & Lt & _ & T1). rewrite M1 in M1'. injection M1' as <-.
  exists f, h. split; [exact C|]. split; [exact Hh|]. split; [exact H1|]. split; [exact H3|]. split; [exact H2|]. split; [rewrite Sf; exact Ls|].
  assert (Lp : length ps = nt).
  { unfold make_file in G1. destruct (save_all_ok k1 0 (List.combine ps (map (pot (name k1) ss) ps))) as (r & Er & Lr & _). rewrite Er in G1. cbn [andthen] in G1. injection G1 as <-. cbn [f_targets] in Lt. rewrite combine_length, map_length, Nat.min_id in Lr. lia. }
  split; [exact (eq_trans Lf Lp)|]. intros j t T.
  assert (Hj : (j < length ps)%nat) by (apply (Nat.lt_le_trans _ (length (f_targets f))); [apply nth_error_Some; rewrite T; discriminate|exact (Nat.eq_le_incl _ _ Lf)]).
  destruct (nth_error ps j) as [p|] eqn:Ep; [|apply nth_error_None in Ep; lia].
  destruct (V j p (pot (name k1) ss p) (pot (name k3) ss p) Ep (map_nth_error _ _ _ Ep) (map_nth_error _ _ _ Ep)) as (t' & T' & B1 & B2 & B3 & B4 & B5). rewrite T in T'. injection T' as <-.
  assert (Sb : map (fun x => (ToolsModel.s_pos x, s_charge x)) (f_sources f) = ss).
  { rewrite Sf. unfold make_file in G1. destruct (save_all _ _ _); [|discriminate]. cbn [andthen] in G1. injection G1 as <-. cbn [f_sources]. generalize 0. clear. induction ss as [|[p q] ss IH]; intros i; cbn; [reflexivity|]. rewrite IH. reflexivity. }
  rewrite Sb, B1. split; [exact B2|]. split; [|split; [exact B3|split; [exact B4|exact B5]]].
  destruct (nth_error (f_targets f1) j) as [u|] eqn:U; [|apply nth_error_None in U; lia].
  destruct (T1 j u U) as (_ & Pu & _). pose proof (from_inside rand H s _ _ Pu) as I.
  replace p with (t_pos u); [exact I|]. unfold make_file in G1. destruct (save_all_ok k1 0 (List.combine ps (map (pot (name k1) ss) ps))) as (r & Er & Lr & Nr). rewrite Er in G1. cbn [andthen] in G1. injection G1 as <-. cbn [f_targets] in U.
  destruct (Nr j p (pot (name k1) ss p)) as (u' & U' & X & _).
  { rewrite <- combine_map. apply map_nth_error with (f := fun p => (p, pot (name k1) ss p)). exact Ep. }
  congruence.
Qed.
Print Assumptions C101_combined.

(** Runs of different arguments do not overwrite each other's files. *)
Theorem C101_names : forall a b la lb, MakeModel.read_arguments la = Some a -> MakeModel.read_arguments lb = Some b ->
  fname (i_kernel a) (i_type a) (i_single a) = fname (i_kernel b) (i_type b) (i_single b) -> a = b.
Proof.
  assert (K : forall l a, MakeModel.read_arguments l = Some a -> In (i_type a) ["cube"; "sphere"; "plummer"]%string).
  { intros l a R. unfold MakeModel.read_arguments in R. destruct (MakeModel.read_options _ l) as [x|]; [|discriminate]. destruct (MakeModel.accepted x) eqn:A; [|discriminate]. injection R as ->.
    unfold MakeModel.accepted in A. cbn [In]. destruct (String.eqb_spec (i_type a) "cube") as [E|_]; [left; congruence|]. destruct (String.eqb_spec (i_type a) "sphere") as [E|_]; [right; left; congruence|].
    destruct (String.eqb_spec (i_type a) "plummer") as [E|_]; [right; right; left; congruence|discriminate A]. }
  intros a b la lb Ra Rb E. destruct (fname_inj _ _ _ _ _ _ (K _ _ Ra) (K _ _ Rb) E) as (X & Y & Z). destruct a, b; cbn in *; congruence.
Qed.
Print Assumptions C101_names.

(** "Every accepted command line makes a file of reference data": not with the distribution
    plummer, of which nothing is set, *)
Theorem C101_plummer_refuted :
  MakeModel.read_arguments [OData "plummer"] = Some (mkIn "plummer" "laplace" false) /\
  forall rand pot checks ns nt l kernel single, (0 < ns + nt)%nat -> MakeModel.read_arguments l = Some (mkIn "plummer" kernel single) ->
    main rand pot checks ns nt l = Unset /\
    forall x, In x (fst (points rand ns nt (mkIn "plummer" kernel single))) -> p_pos x = (0%R, 0%R, 0%R) /\ p_charge x = None /\ p_index x = None.
Proof.
  split; [reflexivity|]. intros rand pot checks ns nt l kernel single N R. split.
  - unfold main. rewrite R. unfold compute_potential, points. cbn. destruct ns as [|ns]; [|reflexivity]. destruct nt as [|nt]; [lia|reflexivity].
  - cbn. intros x I. apply repeat_spec in I. subst. repeat split.
Qed.
Print Assumptions C101_plummer_refuted.
(** nor with a kernel of another name: an exception, or more characters than the name has room for. *)
Theorem C101_kernel_refuted : forall rand pot checks ns nt l s kernel single, (0 < nt)%nat ->
  kernel <> "laplace"%string -> kernel <> "yukawa"%string -> kernel <> "helmholtz"%string -> MakeModel.read_arguments l = Some (mkIn (shape_name s) kernel single) ->
  main rand pot checks ns nt l = (if (String.length (fname kernel (shape_name s) single) <? 300)%nat then Uncaught (fname kernel (shape_name s) single) BadCall else LongName).
Proof.
  intros rand pot checks ns nt l s kernel single N A B C R. unfold main. rewrite R. unfold compute_potential. cbn [i_type i_kernel i_single]. rewrite points_shape.
  destruct (settled_fill rand s single ns 0 0) as (ss & S & Ls & Ns). destruct (placed_fill rand s nt 0 (ns * (numbers s + signs single))) as (ps & P & Lp & Np). rewrite S, P.
  destruct (Nat.leb_spec 300 (String.length (fname kernel (shape_name s) single))) as [G|G]; destruct (Nat.ltb_spec (String.length (fname kernel (shape_name s) single)) 300) as [G'|G']; try lia; [reflexivity|].
  destruct ps as [|p ps]; [cbn in Lp; lia|]. cbn [map]. unfold make_file. destruct (evaluate pot kernel ss (p, zero)) as [x v]. rewrite save_unknown by assumption. reflexivity.
Qed.
Print Assumptions C101_kernel_refuted.
(** Compiled with NDEBUG nothing is written at all, and combine says that it has combined. *)
Theorem C101_release_refuted : forall rand pot ns nt l s k single, MakeModel.read_arguments l = Some (mkIn (shape_name s) (name k) single) ->
  exists f, main rand pot false ns nt l = Wrote (fname (name k) (shape_name s) single) f /\ f_head f = None /\ f_sources f = [] /\ f_targets f = [] /\
    forall fs two three to rest room, fs (fname (name k) (shape_name s) single) = Some f ->
      combine_main fs (fname (name k) (shape_name s) single :: two :: three :: to :: rest) room = mkEnd (Some 0) true None.
Proof.
  intros rand pot ns nt l s k single R. destruct (runs rand pot false ns nt l s k single R) as (ss & ps & f & M & _). eexists. split; [exact M|]. do 3 (split; [reflexivity|]).
  intros fs two three to rest room F. unfold combine_main, open_file. rewrite F. reflexivity.
Qed.
Print Assumptions C101_release_refuted.

Definition all_zero (i : nat) : Z := 0.
Definition counted (kernel : string) (ss : list (point * R)) (p : point) : cpx := (INR (length ss), 0%R).
Example C101_nonvacuous :
  sequence all_zero /\
  MakeModel.read_arguments [OKernel "yukawa"; OData "cube"; OSingle "yes"; OData "sphere"] = Some (mkIn (shape_name Sphere) (name KYukawa) true) /\
  MakeModel.read_arguments [OKernel "gauss"] = Some (mkIn (shape_name Cube) "gauss" false) /\
  MakeModel.read_arguments [OData "square"] = None /\
  (exists f, main all_zero counted true 2 3 [OKernel "yukawa"; OData "cube"; OSingle "yes"; OData "sphere"] = Wrote "prepared.yukawa.sphere.single.dat" f /\ length (f_targets f) = 3%nat) /\
  main all_zero counted true 2 3 [OKernel "gauss"] = Uncaught "prepared.gauss.cube.dat" BadCall.
Proof.
  split; [intros i; unfold all_zero; lia|]. do 3 (split; [reflexivity|]). split; [|reflexivity]. eexists. split; reflexivity.
Qed.
