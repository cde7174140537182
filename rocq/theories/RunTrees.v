(** The trees of a whole evaluation have what the methods need. *)
From Coq Require Import Reals Qreals ZArith QArith List Bool Arith Lia Lra Permutation.
From Verif Require Import Base ListFacts IndexModel IndexSpec GridModel GridSpec ArrayModel ArraySpec TreeModel TreeFacts RefineModel RefineSpec RefineProofs GeomModel GeomSpec GeomProps GroupModel ReduceModel ReduceSpec
  MessageModel MessageSpec ExchangeModel ExchangeSpec MergeModel MergeSpec BuildModel BuildSpec BuildProofs DagModel DagSpec WholeModel WholeSpec WholeGrow WholeProofs WholeDone WholeProps LapModel LapSpec TranModel TranSpec PotModel PotSpec PotFacts PotProofs RunModel RunSpec RunProofs.
Import ListNotations.
Open Scope nat_scope.

Lemma Q2R_pos x : (0 < x)%Q -> (0 < Q2R x)%R.
Proof. intros H. apply Qlt_Rlt in H. replace (Q2R 0) with 0%R in H by (unfold Q2R; cbn; lra). exact H. Qed.

Section Run.
Context {A B : Type} (pos_s : A -> point) (pos_t : B -> point) (q : A -> R).
Variable L : Z.
Hypothesis HL : (1 <= L <= 9)%Z.
Variable same : bool.
Variable users : list (list A * list B).
Variables (zs : serializer A) (zt : serializer B).
Hypothesis Hw : well_posed pos_s pos_t zs zt same users.
Variable order : otree.
Hypothesis Ho : ArraySpec.all_ranks (length users) order.
Notation d := (domain_for pos_s pos_t same users order).
Notation srcs := (all_sources users).
Notation tgts := (all_targets users).

Lemma same_points : same = true -> map pos_t tgts = map pos_s srcs.
Proof.
  intros E. destruct Hw as (_ & _ & _ & _ & _ & _ & H & _). specialize (H E). unfold all_targets, all_sources. clear -H. induction users as [|u us IH]; [reflexivity|]. cbn [map concat]. rewrite !map_app, H by (left; reflexivity). f_equal. apply IH. intros v Hv. apply H. right. exact Hv.
Qed.
Notation counted_points := (concat (map (fun st => fst st ++ (if same then [] else snd st)) (map (fun u => (map pos_s (fst u), map pos_t (snd u))) users))).
Lemma points_in x : In x counted_points <-> In x (all_points pos_s pos_t users).
Proof.
  unfold all_points. rewrite in_app_iff. rewrite map_map. cbn [fst snd]. pose proof same_points as Sm. unfold all_targets, all_sources in *. rewrite in_concat. split.
  - intros (l & Hl & Hx). apply in_map_iff in Hl. destruct Hl as (u & <- & Hu). apply in_app_iff in Hx. destruct Hx as [Hx|Hx].
    + left. apply in_map_iff in Hx. destruct Hx as (y & <- & Hy). apply in_map. apply in_concat. exists (fst u). split; [apply in_map, Hu|exact Hy].
    + right. destruct same; [contradiction|]. apply in_map_iff in Hx. destruct Hx as (y & <- & Hy). apply in_map. apply in_concat. exists (snd u). split; [apply in_map, Hu|exact Hy].
  - assert (Left : In x (map pos_s (concat (map fst users))) -> exists l, In l (map (fun u => map pos_s (fst u) ++ (if same then [] else map pos_t (snd u))) users) /\ In x l).
    { intros Hx. apply in_map_iff in Hx. destruct Hx as (y & <- & Hy). apply in_concat in Hy. destruct Hy as (l & Hl & Hy). apply in_map_iff in Hl. destruct Hl as (u & <- & Hu). eexists. split; [apply in_map_iff; exists u; split; [reflexivity|exact Hu]|]. apply in_or_app. left. apply in_map, Hy. }
    intros [Hx|Hx]; [exact (Left Hx)|]. destruct same; [rewrite (Sm eq_refl) in Hx; exact (Left Hx)|].
    apply in_map_iff in Hx. destruct Hx as (y & <- & Hy). apply in_concat in Hy. destruct Hy as (l & Hl & Hy). apply in_map_iff in Hl. destruct Hl as (u & <- & Hu). eexists. split; [apply in_map_iff; exists u; split; [reflexivity|exact Hu]|]. apply in_or_app. right. apply in_map, Hy.
Qed.
Lemma domain_ok : (0 < dsize d)%Q /\ placed pos_s d srcs /\ placed pos_t d tgts.
Proof.
  destruct Hw as (Ns & Nt & Is & It & _ & _ & _ & Hb & (x & y & a & Hx & Hy & Hxy)).
  assert (Hull : hull (reduce_bounds order (map (fun st => rank_bounds same (fst st) (snd st)) (map (fun u => (map pos_s (fst u), map pos_t (snd u))) users))) counted_points).
  { apply C10_hull; [rewrite map_length; exact Ho| |intros p a' Hp; apply Hb, points_in, Hp]. intros E. apply points_in in Hx. rewrite E in Hx. contradiction. }
  destruct (C10_cube _ _ Hull) as (C1 & _ & C3 & _). fold d in C1, C3. assert (Dm : forall p, In p (all_points pos_s pos_t users) -> in_domain d p) by (intros p Hp; apply C1, points_in, Hp).
  split; [|split; (split; [intros z Hz; apply Dm, in_or_app|assumption]); [left|right]; apply in_map, Hz].
  destruct (Hull a) as (H & _). specialize (C3 a). pose proof (H x (proj2 (points_in x) Hx)) as [H1 _]. pose proof (H y (proj2 (points_in y) Hy)) as [_ H2]. revert H1 H2 C3 Hxy. clear. intros. 
  apply Qlt_le_trans with (coord a y - coord a x)%Q; [apply (Qplus_lt_l _ _ (coord a x)); ring_simplify; exact Hxy|]. eapply Qle_trans; [|exact C3]. apply Qplus_le_compat; [exact H2|]. apply Qopp_le_compat. exact H1.
Qed.

Variables (junk : nat -> nat -> Z) (rw sm tm : Z).
Variables (part_s : index -> nat -> (A -> bool) -> list A -> list A * list A) (part_t : index -> nat -> (B -> bool) -> list B -> list B * list B) (pp : (A -> bool) -> list A -> nat).
Hypothesis Ps : partition_contract part_s.
Hypothesis Pt : partition_contract part_t.
Hypothesis Pp : partition_point_contract pp.
Variables (thr fuel : nat) (rank_map : nat -> nat).
Hypothesis Hm : forall i, i < Z.to_nat (8 ^ L) -> rank_map i < length users.
Variables (S : tree (list charge)) (T : tree (list pt)).
Hypothesis Ht : trees_built pos_s pos_t q L same users zs zt junk rw sm tm d part_s part_t pp thr fuel rank_map S T.
Notation few pos all := (forall p, length p = Z.to_nat L + fuel -> Forall (fun w => w < 8) p -> length (members (lows pos d) root_index p all) <= thr).

Lemma whole_sources locals unif sources : counted pos_s pos_t d L same users locals unif ->
  sources_built L same zs zt junk rw sm tm (fun a i x => below_centre d a i (pos_s x)) part_s thr fuel rank_map locals unif sources ->
  grown_at (lows pos_s d) srcs (Z.to_nat L) thr [] (whole L rank_map sources) /\ few pos_s srcs.
Proof.
  intros (El & t & Htt & Eu) [Lr Hr]. destruct domain_ok as (Hd & [Is Ns] & [It Nt]). destruct Hw as (Nes & _ & _ & _ & Zs & Zt & _).
  destruct (locals_ok A B pos_s pos_t d Hd L ltac:(lia) same users Is It) as (locals' & E & F1 & F2). rewrite El in E. injection E as <-.
  destruct (unif_ok A B pos_s pos_t d L ltac:(lia) same users Ns Nt locals F1 F2 t Htt) as (unif' & E & Us & Ut). rewrite Eu in E. injection E as <-.
  refine (whole_grown pos_s d Hd L ltac:(lia) rank_map (map fst users) (map fst locals) Is Ns F1 (count_src unif) Us part_s Ps thr fuel (grid_index L) (fun i G E => grid_index_ok L i HL G E) sources _ _ _ Nes).
  - rewrite map_length. exact Lr.
  - intros i Hi. rewrite map_length. apply Hm. exact Hi.
  - intros me r Er. destruct (Hr me r Er) as (l & log & Eln & Ea & R). destruct (arrivals_ok A B pos_s pos_t d L ltac:(lia) same users Is It Ns Nt locals F1 F2 zs zt Zs Zt rank_map junk rw sm tm me) as (log' & E & T1 & _). rewrite Ea in E. injection E as <-.
    exists (fst l). split; [exact (map_nth_error fst _ _ Eln)|]. rewrite <- T1. exact R.
Qed.
Lemma whole_targets locals unif targets : same = false -> counted pos_s pos_t d L same users locals unif ->
  targets_built L same zs zt junk rw sm tm (fun a i x => below_centre d a i (pos_t x)) part_t thr fuel rank_map locals unif targets ->
  grown_at (lows pos_t d) tgts (Z.to_nat L) thr [] (whole L rank_map targets) /\ few pos_t tgts.
Proof.
  intros Sm (El & t & Htt & Eu) [Lr Hr]. destruct domain_ok as (Hd & [Is Ns] & [It Nt]). destruct Hw as (_ & Net & _ & _ & Zs & Zt & _).
  destruct (locals_ok A B pos_s pos_t d Hd L ltac:(lia) same users Is It) as (locals' & E & F1 & F2). rewrite El in E. injection E as <-.
  destruct (unif_ok A B pos_s pos_t d L ltac:(lia) same users Ns Nt locals F1 F2 t Htt) as (unif' & E & Us & Ut). rewrite Eu in E. injection E as <-.
  assert (F2' : Forall2 (sort_facts (cell_at pos_t d L) (Z.to_nat (8 ^ L)) true) (map snd users) (map snd locals)) by (replace true with (negb same) by (rewrite Sm; reflexivity); exact F2).
  refine (whole_grown pos_t d Hd L ltac:(lia) rank_map (map snd users) (map snd locals) It Nt F2' (count_tar L unif) Ut part_t Pt thr fuel (grid_index L) (fun i G E => grid_index_ok L i HL G E) targets _ _ _ Net).
  - rewrite map_length. exact Lr.
  - intros i Hi. rewrite map_length. apply Hm. exact Hi.
  - intros me r Er. destruct (Hr me r Er) as (l & log & Eln & Ea & R). destruct (arrivals_ok A B pos_s pos_t d L ltac:(lia) same users Is It Ns Nt locals F1 F2 zs zt Zs Zt rank_map junk rw sm tm me) as (log' & E & _ & T2 & _). rewrite Ea in E. injection E as <-.
    exists (snd l). split; [exact (map_nth_error snd _ _ Eln)|]. rewrite Sm in T2. rewrite T2 in R. exact R.
Qed.

(** What is known of the tree of some records. *)
Definition kept {X Y} (pos : X -> point) (f : X -> Y) (at_ : Y -> pt) (all : list X) (t : tree (list Y)) : Prop :=
  eight t /\ deep (Z.to_nat L) t /\ gathered t /\ Permutation (info t) (map f all) /\ boxed at_ (real (dlow d)) (Q2R (dsize d)) t /\ levels (Z.to_nat L + fuel) t /\
  forall p, sub t p <> None -> in_grid (idx_of p) /\ ilevel (idx_of p) = Z.of_nat (length p).
Lemma grown_kept {X Y} (pos : X -> point) (f : X -> Y) at_ all t : (forall x, In x all -> in_domain d (pos x)) -> (forall x, at_ (f x) = real (pos x)) -> grown_at (lows pos d) all (Z.to_nat L) thr [] t -> few pos all -> kept pos f at_ all (tree_map f t).
Proof.
  intros Hin Hf G F. destruct domain_ok as (Hd & _). split; [eapply one_eight, G|]. split; [eapply one_deep, G|]. split; [eapply one_gathered, G|]. split; [eapply one_info, G|]. split; [eapply one_boxed; eassumption|]. split; [eapply one_levels; eassumption|]. eapply one_grid, G.
Qed.
Lemma kept_sources : kept pos_s (fun x => mkCharge (q x) (real (pos_s x))) cpos srcs S.
Proof.
  destruct Ht as (locals & unif & sources & Hc & Hb & -> & _). destruct (whole_sources locals unif sources Hc Hb) as [G F]. destruct domain_ok as (_ & [Is _] & _). apply grown_kept; [exact Is|reflexivity|exact G|exact F].
Qed.
Lemma kept_targets : exists X (pos : X -> point) all, map pos all = map pos_t tgts /\ kept pos (fun x => real (pos x)) (fun x => x) all T.
Proof.
  destruct domain_ok as (Hd & Pls & Plt). pose proof Hw as (_ & _ & _ & _ & Zs & _ & Hsm & _). destruct Ht as (locals & unif & sources & Hc & Hb & E1 & Ct). destruct (whole_sources locals unif sources Hc Hb) as [G F]. pose proof same_points as Sm. pose proof (whole_targets locals unif) as Wt. revert Hc Hb Ct Sm Wt Hsm.
  generalize (grown_kept pos_s (fun x => real (pos_s x)) (fun x => x) srcs (whole L rank_map sources) (proj1 Pls) (fun x => eq_refl) G F). intros Ks.
  destruct (Bool.bool_dec same true) as [Es|Es]; [|apply Bool.not_true_is_false in Es].
  - intros Hc Hb Ct Sm _ Hsm. revert Hc Hb Ct Ks. rewrite Es in Hd, Pls, Plt |- *. intros Hc Hb (targets & Hb' & ->) Ks. exists A, pos_s, srcs. split; [symmetry; apply Sm; exact Es|].
    replace targets with sources; [exact Ks|]. symmetry. exact (C73_same A B pos_s pos_t _ L zs zt users locals unif rank_map junk rw sm tm part_s pp thr fuel sources targets Hd HL Pls Plt Zs (Hsm Es) Ps Pp Hm Hc Hb Hb').
  - intros Hc Hb Ct Sm Wt _. pose proof (grown_kept pos_t (fun x => real (pos_t x)) (fun x => x) tgts) as Kt. clear Ks G F E1. set (dd := d) in *. clearbody dd. rewrite Es in Ct. destruct Ct as (targets & Hb' & ->).
    assert (Hb'' := Hb'). rewrite <- Es in Hb''. destruct (Wt targets Es Hc Hb'') as [G' F']. exists B, pos_t, tgts. split; [reflexivity|]. apply Kt; [apply Plt|reflexivity|exact G'|exact F'].
Qed.

Notation corner := (real (dlow d)).
Notation size := (Q2R (dsize d)).
Notation charges := (map (fun x => mkCharge (q x) (real (pos_s x))) srcs).
Notation places := (map (fun x => real (pos_t x)) tgts).
Lemma depth_ok : levels (Z.to_nat L + fuel) S /\ levels (Z.to_nat L + fuel) T.
Proof. destruct kept_targets as (X & pos & all & _ & K). split; [apply kept_sources|apply K]. Qed.
Lemma info_ok : Permutation (info S) charges /\ Permutation (info T) places.
Proof.
  destruct kept_targets as (X & pos & all & E & K). split; [apply kept_sources|]. destruct K as (_ & _ & _ & P & _). rewrite P. rewrite <- (map_map pos real), E, map_map. reflexivity.
Qed.
Lemma lower_of {X} (t : tree X) h g : levels h t -> h < g -> lower g t.
Proof. intros H Hg p n Hn. specialize (H p). rewrite Hn in H. specialize (H ltac:(discriminate)). lia. Qed.
Lemma usable_ok g h : levels h S -> levels h T -> h < g -> usable (Z.to_nat L) g S T /\ gathered S /\ gathered T.
Proof.
  intros LS LT Hg. destruct kept_sources as (E1 & D1 & G1 & _). destruct kept_targets as (X & pos & all & _ & E2 & D2 & G2 & _).
  split; [|split; assumption]. split; [exact E1|]. split; [exact E2|]. split; [exact (lower_of S h g LS Hg)|]. split; [exact (lower_of T h g LT Hg)|]. split; assumption.
Qed.
Lemma scene_ok h : levels h S -> levels h T -> clear_points d h (all_points pos_s pos_t users) -> (0 < size)%R /\ scene corner size S T.
Proof.
  intros LS LT Cl. destruct domain_ok as (Hd & _). split; [apply Q2R_pos, Hd|]. destruct info_ok as [IS IT]. destruct kept_sources as (_ & _ & G1 & _ & B1 & _ & R1). destruct kept_targets as (X & pos & all & _ & _ & _ & G2 & _ & B2 & _ & R2).
  assert (Cl' : forall x, In x (all_points pos_s pos_t users) -> plain corner size S T (real x)).
  { intros x Hx p [Hp|Hp]; [destruct (R1 p Hp) as [Gp Lp]; specialize (LS p Hp)|destruct (R2 p Hp) as [Gp Lp]; specialize (LT p Hp)]; (apply Cl; [exact Hx|exact Gp|lia]). }
  split; [exact G1|]. split; [exact G2|]. split; [exact B1|]. split; [exact B2|]. split.
  - intros s Hs. rewrite IS in Hs. apply in_map_iff in Hs. destruct Hs as (x & <- & Hx). apply Cl'. apply in_or_app. left. apply in_map, Hx.
  - intros t Hu. rewrite IT in Hu. apply in_map_iff in Hu. destruct Hu as (x & <- & Hx). apply Cl'. apply in_or_app. right. apply in_map, Hx.
Qed.
End Run.

Lemma delivers_perm {M} zero add (pots : list cplx -> M) op_val sources targets ts l l' err : Permutation l l' -> delivers_in zero add pots op_val sources targets ts l err -> delivers_in zero add pots op_val sources targets ts l' err.
Proof.
  intros P D loc num_ranks inc outs H1 H2 H3 s0 s H4 H5 H6 H7 q Hq. destruct (D loc num_ranks inc outs H1 H2 H3 s0 s H4 H5 H6 H7 q Hq) as (phis & E & C). exists phis. split; [exact E|]. exact (close_perm l l' err _ _ P C).
Qed.
Lemma every_target {A} (S : tree A) T ts tgts : good_dag S T ts -> gathered T -> Permutation (info T) tgts -> each_target T ts tgts.
Proof. intros G Hg P. destruct (all_once S T ts G Hg) as (qs & N & I & F). exists qs. split; [exact N|]. split; [exact I|]. rewrite F. exact P. Qed.
