From Coq Require Import ZArith QArith Qround Qabs List Bool Arith Lia Lqa Permutation.
From Verif Require Import Base ListFacts IndexModel IndexSpec IndexProofs GridModel GridSpec GridProofs GridProps ArrayModel TreeModel TreeFacts RefineModel RefineSpec RefineProofs RefineProofs2 RefineProps
  GeomModel GeomSpec GeomProofs GroupModel MessageModel MessageProofs ExchangeModel ExchangeSpec ExchangeProofs MergeModel MergeProofs BuildModel BuildSpec BuildProofs DagModel DagSpec DagProofs WholeModel WholeSpec WholeGrow WholeProofs.
Import ListNotations.
Open Scope nat_scope.

(** ** The uniform cells *)
Lemma grid_index_ok L i : (1 <= L <= 9)%Z -> in_grid i -> ilevel i = L -> grid_index L (Z.to_nat (slot_of i L)) = i.
Proof.
  intros HL G E. destruct (C03_top_tree_complete (Z.to_nat L) ltac:(lia)) as (b & u & Eb & H & _). unfold grid_index. rewrite Eb. destruct (H i G ltac:(lia)) as (p & n & _ & Ld & Ei & Ep & _). rewrite Z2Nat.id in Ep by lia.
  pose proof (slot_bounds i L ltac:(lia) E G) as Sb. rewrite Z2Nat.id by lia. rewrite <- (Ep E). unfold b_load in Ld. destruct ((0 <=? p)%Z && (p <? b_size b)%Z); [|discriminate]. injection Ld as <-. exact Ei.
Qed.

(** ** Termination *)
Section Places.
Context {X : Type} (pos : X -> point) (d : domain) (Hd : (0 < dsize d)%Q).
Lemma same_place_ok x y : same_place pos x y = true <-> forall a, (coord a (pos x) == coord a (pos y))%Q.
Proof. unfold same_place. rewrite forallb_forall. split; intros H a; [apply Qeq_bool_iff, H; destruct a; cbn; auto|intros _; apply Qeq_bool_iff, H]. Qed.
Lemma close_in_box i x y a : (0 <= ilevel i)%Z -> in_closed d i x -> in_closed d i y -> (Qabs (coord a x - coord a y) * inject_Z (2 ^ ilevel i) <= dsize d)%Q.
Proof.
  intros HL Hx Hy. specialize (Hx a). specialize (Hy a). cbv zeta in *. pose proof (pow_pos (ilevel i) HL) as P. set (q := inject_Z (2 ^ ilevel i)) in *. set (k := inject_Z (icoord a i)) in *.
  assert (E1 : (inject_Z (icoord a i + 1) == k + 1)%Q) by (unfold k; rewrite inject_Z_plus; reflexivity). rewrite E1 in Hx, Hy.
  assert (B : (Qabs (coord a x - coord a y) <= dsize d / q)%Q) by (apply Qabs_Qle_condition; lra).
  apply (Qmult_le_r _ _ q P) in B. setoid_replace (dsize d / q * q)%Q with (dsize d) in B by (field; lra). exact B.
Qed.
Lemma far_apart x y : same_place pos x y = false -> exists D, forall i, (Z.of_nat D <= ilevel i)%Z -> in_closed d i (pos x) -> in_closed d i (pos y) -> False.
Proof.
  intros H. assert (A : exists a, ~ (coord a (pos x) == coord a (pos y))%Q).
  { unfold same_place in H. cbn [forallb] in H. rewrite andb_true_r in H. destruct (Qeq_bool (coord AX (pos x)) (coord AX (pos y))) eqn:E1; [|exists AX; intros C; apply Qeq_bool_iff in C; congruence].
    destruct (Qeq_bool (coord AY (pos x)) (coord AY (pos y))) eqn:E2; [|exists AY; intros C; apply Qeq_bool_iff in C; congruence]. exists AZ. intros C. apply Qeq_bool_iff in C. rewrite C in H. discriminate. }
  destruct A as (a & Na). set (e := Qabs (coord a (pos x) - coord a (pos y))). assert (He : (0 < e)%Q).
  { destruct (Qlt_le_dec 0 e) as [G|G]; [exact G|exfalso]. unfold e in G. pose proof (Qabs_nonneg (coord a (pos x) - coord a (pos y))) as G'. apply Na. apply Qabs_Qle_condition in G. lra. }
  exists (Z.to_nat (Qceiling (dsize d / e))). intros i Hi Hx Hy. assert (H0 : (0 <= ilevel i)%Z) by lia. pose proof (close_in_box i _ _ a H0 Hx Hy) as C. fold e in C.
  assert (P : (dsize d / e <= inject_Z (ilevel i))%Q) by (eapply Qle_trans; [apply Qle_ceiling|]; apply inj_le; lia).
  assert (P2 : (ilevel i < 2 ^ ilevel i)%Z) by (apply Z.pow_gt_lin_r; lia). apply inj_lt in P2.
  apply (Qmult_le_r _ _ e He) in P. setoid_replace (dsize d / e * e)%Q with (dsize d) in P by (field; lra).
  assert (Q2 : (inject_Z (ilevel i) * e < inject_Z (2 ^ ilevel i) * e)%Q) by (apply Qmult_lt_r; assumption). lra.
Qed.
Lemma all_apart (all : list X) : exists D, forall x y i, In x all -> In y all -> (Z.of_nat D <= ilevel i)%Z -> in_closed d i (pos x) -> in_closed d i (pos y) -> same_place pos x y = true.
Proof.
  assert (G : forall l : list (X * X), exists D, forall x y i, In (x, y) l -> (Z.of_nat D <= ilevel i)%Z -> in_closed d i (pos x) -> in_closed d i (pos y) -> same_place pos x y = true).
  { intros l. induction l as [|[x y] l (D & IH)]; [exists 0; intros x y i []|]. destruct (same_place pos x y) eqn:E.
    - exists D. intros x' y' i [H|H] Hi Hx Hy; [injection H as <- <-; exact E|]. eapply IH; eassumption.
    - destruct (far_apart x y E) as (D' & HD). exists (Nat.max D D'). intros x' y' i [H|H] Hi Hx Hy; [injection H as <- <-; exfalso; apply (HD i); [lia|exact Hx|exact Hy]|]. eapply IH; [exact H| |exact Hx|exact Hy]. lia. }
  destruct (G (list_prod all all)) as (D & HD). exists D. intros x y i Hx Hy. apply HD. apply in_prod; assumption.
Qed.
Lemma filter_le : forall (f g : X -> bool) l, (forall x, In x l -> f x = true -> g x = true) -> length (filter f l) <= length (filter g l).
Proof.
  intros f g l. induction l as [|x l IH]; intros H; [cbn; lia|]. cbn [filter]. specialize (IH (fun y Hy => H y (or_intror Hy))). destruct (f x) eqn:Ef; [rewrite (H x (or_introl eq_refl) Ef); cbn [length]; lia|]. destruct (g x); cbn [length]; lia.
Qed.
Lemma depth_bound (all : list X) thr : (forall x, In x all -> in_domain d (pos x)) -> (forall x, In x all -> length (filter (same_place pos x) all) <= thr) ->
  exists D, forall p, D <= length p -> length (members (lows pos d) root_index p all) <= thr.
Proof.
  intros Hin Hthr. destruct (all_apart all) as (D & HD). exists D. intros p Hp. destruct (members (lows pos d) root_index p all) as [|x0 l] eqn:E; [cbn; lia|]. rewrite <- E.
  assert (F : Forall (fun w => w < 8) p) by (apply (at_digits (lows pos d) all); congruence). destruct (idx_grid p F) as [G Lv].
  assert (B : forall x, In x all -> in_cell (lows pos d) root_index p x = true -> in_closed d (idx_of p) (pos x)).
  { intros x Hx C. apply box_closed. apply in_cell_box; auto. }
  assert (H0 : In x0 (members (lows pos d) root_index p all)) by (rewrite E; left; reflexivity). unfold members in H0. apply filter_In in H0. destruct H0 as [I0 C0].
  etransitivity; [|apply (Hthr x0 I0)]. unfold members. apply filter_le. intros x Hx C. apply (HD x0 x (idx_of p)); auto. lia.
Qed.
End Places.

Section Finish.
Context {X : Type} (low : axis -> index -> X -> bool) (part : index -> nat -> (X -> bool) -> list X -> list X * list X) (Hp : partition_contract part).
Variables (thr fuel : nat) (cell_index : nat -> index) (dim3 : nat) (rank_map : nat -> nat) (me : nat) (gc : nat -> nat).
Lemma branches_run : forall mem, length mem = num_points dim3 rank_map me gc ->
  (forall j, j < dim3 -> rank_map j = me -> gc j <> 0 -> exists r, refine low part thr fuel (cell_index j) (global_offset rank_map me gc j) (at_cell rank_map me gc mem j) = Ok r) ->
  exists r, partition_branches low part thr fuel cell_index dim3 rank_map me gc mem = Ok r.
Proof.
  intros mem Lm Hr. unfold partition_branches. match goal with |- exists r, foldM ?f _ _ = _ => set (step := f) end.
  assert (G : forall l m b, NoDup l -> (forall i, In i l -> i < dim3) -> length m = length mem -> (forall j, In j l -> rank_map j = me -> at_cell rank_map me gc m j = at_cell rank_map me gc mem j) -> exists r, foldM step l (m, b) = Ok r).
  { intros l. induction l as [|i l IH]; intros m b ND Hl Lk Ha; cbn [foldM]; [eexists; reflexivity|]. inversion ND as [|? ? Ni ND']; subst. unfold step at 1.
    destruct (owned rank_map me i) eqn:Ow; cbn [negb]; [|cbn [bind]; apply IH; [assumption|intros j Hj; apply Hl; right; assumption|assumption|intros j Hj; apply Ha; right; assumption]].
    destruct (Nat.eqb_spec (gc i) 0) as [Z|Z]; [cbn [bind]; apply IH; [assumption|intros j Hj; apply Hl; right; assumption|assumption|intros j Hj; apply Ha; right; assumption]|].
    cbv zeta. set (o := global_offset rank_map me gc i) in *. pose proof (cell_fits dim3 rank_map me gc i (Hl i (or_introl eq_refl)) Ow) as Cf. fold o in Cf.
    unfold read_range. rewrite (proj2 (Nat.leb_le o (o + gc i))) by lia. rewrite (proj2 (Nat.leb_le (o + gc i) (length m))) by lia. cbn [andb bind].
    replace (o + gc i - o) with (gc i) by lia. assert (Ri : rank_map i = me) by (apply Nat.eqb_eq; exact Ow). specialize (Ha i (or_introl eq_refl) Ri) as Hi. unfold at_cell in Hi at 1. fold o in Hi. rewrite Hi.
    destruct (Hr i (Hl i (or_introl eq_refl)) Ri Z) as ([t out] & Er). fold o in Er. rewrite Er. cbn [bind snd fst].
    destruct (C15_refinement _ _ _ _ _ _ _ _ _ _ Hp Er) as (Pc & _). pose proof (Permutation_length Pc) as Lo. rewrite <- Hi, firstn_length_le in Lo by (rewrite skipn_length; lia).
    unfold write_range. rewrite <- Lo. rewrite (proj2 (Nat.leb_le (o + gc i) (length m))) by lia. cbn [bind]. rewrite Lo.
    apply IH; [assumption|intros j Hj; apply Hl; right; assumption|rewrite !app_length, firstn_length_le, skipn_length by lia; lia|]. intros j Hj Rj. rewrite <- (Ha j (or_intror Hj) Rj).
    assert (Oj : owned rank_map me j = true) by (apply Nat.eqb_eq; assumption). assert (Sh : share rank_map me gc j = gc j) by (unfold share; rewrite Oj; reflexivity). assert (Si : share rank_map me gc i = gc i) by (unfold share; rewrite Ow; reflexivity). unfold at_cell.
    destruct (Nat.lt_trichotomy j i) as [Lt|[->|Gt]]; [|contradiction|].
    - rewrite splice_before; [reflexivity| |lia]. pose proof (off_next dim3 rank_map me gc j i Lt) as On. rewrite Sh in On. exact On.
    - rewrite splice_after; [reflexivity| |lia]. pose proof (off_next dim3 rank_map me gc i j Gt) as On. rewrite Si in On. fold o in On. lia. }
  apply G; [apply seq_NoDup|intros i Hi; apply in_seq in Hi; lia|reflexivity|reflexivity].
Qed.
Lemma offset_ext gc' : forall i, i <= dim3 -> (forall j, j < dim3 -> gc j = gc' j) -> global_offset rank_map me gc i = global_offset rank_map me gc' i.
Proof. induction i as [|i IH]; intros Hi H; [reflexivity|]. cbn [global_offset]. rewrite IH by (try lia; assumption). unfold share. rewrite H by lia. reflexivity. Qed.
Lemma foldM_ext_in : forall (S I : Type) (f g : S -> I -> res S) l s, (forall s i, In i l -> f s i = g s i) -> foldM f l s = foldM g l s.
Proof. intros S I f g l. induction l as [|i l IH]; intros s H; [reflexivity|]. cbn [foldM]. rewrite (H s i (or_introl eq_refl)). destruct (g s i); cbn [bind]; [|reflexivity]. apply IH. intros s' j Hj. apply H. right. exact Hj. Qed.
Lemma branches_ext gc' : forall mem, (forall i, i < dim3 -> gc i = gc' i) -> partition_branches low part thr fuel cell_index dim3 rank_map me gc mem = partition_branches low part thr fuel cell_index dim3 rank_map me gc' mem.
Proof. intros mem H. unfold partition_branches. apply foldM_ext_in. intros [m bs] i Hi. apply in_seq in Hi. rewrite (H i) by lia. rewrite (offset_ext gc' i) by (try lia; exact H). reflexivity. Qed.
(** Searching the split points afterwards changes nothing and makes the same branches. *)
Lemma branches_point pp mem mem' bs : partition_point_contract pp -> length mem = num_points dim3 rank_map me gc ->
  partition_branches low part thr fuel cell_index dim3 rank_map me gc mem = Ok (mem', bs) ->
  partition_branches low (part_of_point pp) thr fuel cell_index dim3 rank_map me gc mem' = Ok (mem', bs).
Proof.
  intros Hq Lm H. destruct (branches_ok low part Hp thr fuel cell_index dim3 rank_map me gc mem mem' bs Lm H) as [L' M].
  assert (Ref : forall j, j < dim3 -> rank_map j = me -> gc j <> 0 -> exists t, lookup j bs = Some t /\ refine low (part_of_point pp) thr fuel (cell_index j) (global_offset rank_map me gc j) (at_cell rank_map me gc mem' j) = Ok (t, at_cell rank_map me gc mem' j)).
  { intros j Hj Rj Nz. specialize (M j Hj Rj). unfold made in M. destruct (Nat.eqb_spec (gc j) 0); [contradiction|]. destruct M as (t & El & R). exists t. split; [exact El|]. exact (C17_same_tree _ _ _ _ _ _ _ _ _ _ _ Hp Hq R). }
  assert (Shape : exists new, bs = new /\ map fst new = filter (fun i => owned rank_map me i && negb (gc i =? 0)) (seq 0 dim3)).
  { exists bs. split; [reflexivity|]. unfold partition_branches in H. match type of H with foldM ?f _ _ = _ => set (step := f) in H end.
    assert (G : forall l m b m' b', foldM step l (m, b) = Ok (m', b') -> map fst b' = map fst b ++ filter (fun i => owned rank_map me i && negb (gc i =? 0)) l).
    { intros l. induction l as [|i l IH]; intros m b m' b' E; cbn [foldM] in E; [injection E as <- <-; symmetry; apply app_nil_r|]. unfold step at 1 in E. cbn [filter]. destruct (owned rank_map me i); cbn [negb andb] in *; [|apply IH in E; exact E].
      destruct (gc i =? 0); cbn [negb] in *; [apply IH in E; exact E|]. cbv zeta in E. destruct (read_range _ _ _ _) as [c|]; cbn [bind] in E; [|discriminate]. destruct (refine _ _ _ _ _ _ _) as [[t out]|]; cbn [bind snd fst] in E; [|discriminate].
      destruct (write_range _ _ _ _) as [m1|]; cbn [bind] in E; [|discriminate]. apply IH in E. rewrite E, map_app, <- app_assoc. reflexivity. }
    apply G in H. exact H. }
  destruct Shape as (? & <- & Sh). unfold partition_branches. match goal with |- foldM ?f _ _ = _ => set (step := f) end.
  assert (Uq : NoDup (map fst bs)) by (rewrite Sh; apply NoDup_filter, seq_NoDup).
  assert (Lk : forall pre i t post, bs = pre ++ (i, t) :: post -> lookup i bs = Some t).
  { intros pre i t post ->. rewrite lookup_app. replace (lookup i pre) with (@None (tree rnode)); [unfold lookup; cbn [find fst]; rewrite Nat.eqb_refl; reflexivity|]. symmetry. unfold lookup.
    destruct (find (fun b => fst b =? i) pre) as [[j u]|] eqn:E; [|reflexivity]. exfalso. apply find_some in E. destruct E as [E1 E2]. cbn [fst] in E2. apply Nat.eqb_eq in E2. subst j. rewrite map_app in Uq. cbn [map fst] in Uq. apply NoDup_remove_2 in Uq. apply Uq. apply in_or_app. left. apply (in_map fst) in E1. exact E1. }
  assert (G : forall l pre post, bs = pre ++ post -> (forall i, In i l -> i < dim3) -> map fst post = filter (fun i => owned rank_map me i && negb (gc i =? 0)) l -> foldM step l (mem', pre) = Ok (mem', bs)).
  { intros l. induction l as [|i l IH]; intros pre post Eb Hl Hf; cbn [foldM filter] in *; [destruct post; [|discriminate]; rewrite app_nil_r in Eb; subst; reflexivity|]. unfold step at 1.
    revert Hf. destruct (owned rank_map me i) eqn:Ow; cbn [negb andb]; [|cbn [bind]; intros Hf; apply (IH pre post); auto; intros j Hj; apply Hl; right; exact Hj]. destruct (Nat.eqb_spec (gc i) 0) as [Z|Z]; intros Hf; cbn [negb] in *; [cbn [bind]; apply (IH pre post); auto; intros j Hj; apply Hl; right; exact Hj|].
    destruct post as [|[j t] post]; cbn [map fst] in Hf; [discriminate Hf|]. injection Hf as -> Hf. assert (Ri : rank_map i = me) by (apply Nat.eqb_eq; exact Ow). destruct (Ref i (Hl i (or_introl eq_refl)) Ri Z) as (t' & El & R). rewrite (Lk pre i t post Eb) in El. injection El as <-.
    cbv zeta. set (o := global_offset rank_map me gc i) in *. pose proof (cell_fits dim3 rank_map me gc i (Hl i (or_introl eq_refl)) Ow) as Cf. fold o in Cf.
    unfold read_range. rewrite (proj2 (Nat.leb_le o (o + gc i))) by lia. rewrite (proj2 (Nat.leb_le (o + gc i) (length mem'))) by lia. cbn [andb bind]. replace (o + gc i - o) with (gc i) by lia.
    unfold at_cell in R. fold o in R. rewrite R. cbn [bind snd fst]. assert (Lc : length (firstn (gc i) (skipn o mem')) = gc i) by (rewrite firstn_length_le; [reflexivity|rewrite skipn_length; lia]).
    unfold write_range. rewrite Lc. rewrite (proj2 (Nat.leb_le (o + gc i) (length mem'))) by lia. cbn [bind].
    replace (firstn o mem' ++ firstn (gc i) (skipn o mem') ++ skipn (o + gc i) mem') with mem'.
    - apply (IH (pre ++ [(i, t)]) post); [rewrite <- app_assoc; exact Eb|intros j Hj; apply Hl; right; exact Hj|exact Hf].
    - rewrite <- (skipn_skipn' X (gc i) o mem'). rewrite firstn_skipn, firstn_skipn. reflexivity. }
  apply (G (seq 0 dim3) [] bs eq_refl); [intros i Hi; apply in_seq in Hi; lia|exact Sh].
Qed.
End Finish.

(** ** The tree in the words of the specification *)
Section Words.
Context {X : Type} (pos : X -> point) (d : domain) (Hd : (0 < dsize d)%Q) (all : list X) (Hin : forall x, In x all -> in_domain d (pos x)).
Lemma grown_tree_of L thr t : grown_at (lows pos d) all L thr [] t -> tree_of pos d L thr all t.
Proof.
  intros G. assert (M : forall p, Forall (fun w => w < 8) p -> members (lows pos d) root_index p all = of_box pos d (idx_of p) all) by (intros p F; apply members_box; assumption). split.
  - intros p n Hn. destruct (grown_node _ _ _ _ _ G p n Hn) as [I K]. split; [|exact K]. rewrite <- M; [exact I|]. apply (at_digits (lows pos d) all). apply (proj1 (grown_shape _ _ _ _ _ G p) (ex_intro _ n Hn)).
  - intros p. rewrite (grown_shape _ _ _ _ _ G p). unfold present. split.
    + intros [Ne C]. pose proof (at_digits _ _ _ Ne) as F. split; [exact F|]. rewrite <- M by exact F. split; [exact Ne|]. intros q q' E Nq Lq. rewrite <- M; [exact (C q q' E Nq Lq)|]. subst p. apply Forall_app in F. apply F.
    + intros (F & Ne & C). rewrite <- M in Ne by exact F. split; [exact Ne|]. intros q q' E Nq Lq. rewrite M; [exact (C q q' E Nq Lq)|]. subst p. apply Forall_app in F. apply F.
Qed.
End Words.

(** ** Paths and indices of the top *)
Lemma path_of_idx p : Forall (fun w => w < 8) p -> path_to (idx_of p) = map Z.of_nat p.
Proof.
  induction p as [|w p IH] using rev_ind; intros F; [reflexivity|]. apply Forall_app in F. destruct F as [F Fw]. inversion Fw; subst. destruct (idx_grid p F) as [G Lv].
  rewrite idx_snoc.
  destruct (child_facts (Z.of_nat w) (idx_of p) ltac:(lia) G) as (Gc & Lc & Pc & Wc). rewrite path_to_step by (try assumption; lia). rewrite Pc, Wc, IH, map_app by assumption. reflexivity.
Qed.
Lemma parent_of_path p q : Forall (fun w => w < 8) (p ++ q) -> parent (Z.of_nat (length q)) (idx_of (p ++ q)) = idx_of p.
Proof.
  induction q as [|w q IH] using rev_ind; intros F; [rewrite app_nil_r in *; apply parent_0; destruct (idx_grid p F) as [_ Lv]; lia|]. rewrite app_assoc in F |- *. apply Forall_app in F. destruct F as [F Fw]. inversion Fw; subst. destruct (idx_grid _ F) as [G Lv].
  rewrite idx_snoc.
  destruct (child_facts (Z.of_nat w) (idx_of (p ++ q)) ltac:(lia) G) as (Gc & Lc & Pc & _). rewrite app_length. cbn [length]. replace (Z.of_nat (length q + 1)) with (1 + Z.of_nat (length q))%Z by lia. 
  rewrite <- (IH F). rewrite <- Pc at 2. rewrite parent_parent by lia. f_equal; lia.
Qed.
Lemma grid_path i : in_grid i -> exists p, Forall (fun w => w < 8) p /\ idx_of p = i /\ length p = Z.to_nat (ilevel i).
Proof.
  intros G. remember (Z.to_nat (ilevel i)) as n eqn:En. revert i G En. induction n as [|n IH]; intros i G En.
  - exists []. split; [constructor|]. split; [|reflexivity]. destruct i as [x y z l]. destruct G as (G0 & G1 & G2 & G3). cbn in *. assert (l = 0%Z) by lia. subst l. cbn in *. unfold idx_of. cbn. unfold root_index. f_equal; lia.
  - assert (H1 : (1 <= ilevel i)%Z) by lia. pose proof (parent_in_grid 1 i ltac:(lia) G) as Gp. destruct (IH (parent 1 i) Gp) as (p & F & E & Lp); [rewrite level_of_parent by lia; lia|].
    destruct (octant_of_parent i G H1) as [_ W]. exists (p ++ [Z.to_nat (which_child i)]). split; [apply Forall_app; split; [exact F|constructor; [lia|constructor]]|]. split; [|rewrite app_length; cbn [length]; lia].
    rewrite idx_snoc, E. rewrite Z2Nat.id by lia. apply child_of_parent; assumption.
Qed.

Section Top.
Context {X : Type} (pos : X -> point) (d : domain) (Hd : (0 < dsize d)%Q) (all : list X) (Hin : forall x, In x all -> in_domain d (pos x)).
Lemma at_below p n : members (lows pos d) root_index p all <> [] -> exists q, length q = n /\ Forall (fun w => w < 8) q /\ members (lows pos d) root_index (p ++ q) all <> [].
Proof.
  induction n as [|n IH]; intros H; [exists []; rewrite app_nil_r; auto|]. destruct (IH H) as (q & Lq & F & N). destruct (at_child (lows pos d) all _ N) as (w & Hw & Nw). exists (q ++ [w]). rewrite app_length, app_assoc. cbn [length].
  split; [lia|]. split; [apply Forall_app; auto|exact Nw].
Qed.
(** A box of the upper levels has records iff one of the uniform cells below it has. *)
Lemma top_live L p counts : (0 <= L)%Z -> Forall (fun w => w < 8) p -> (Z.of_nat (length p) <= L)%Z ->
  (forall i, in_grid i -> ilevel i = L -> counts (slot_of i L) = Z.of_nat (length (of_box pos d i all))) ->
  (exists j, in_grid j /\ ilevel j = L /\ parent (L - ilevel (idx_of p)) j = idx_of p /\ (0 < counts (slot_of j L))%Z) <-> of_box pos d (idx_of p) all <> [].
Proof.
  intros HL F Lp Hc. destruct (idx_grid p F) as [G Lv]. rewrite Lv. rewrite <- (members_box pos d Hd all p Hin F). split.
  - intros (j & Gj & Lj & Pj & Nj). rewrite (Hc j Gj Lj) in Nj. destruct (grid_path j Gj) as (p' & F' & E' & L'). rewrite <- E' in *. rewrite Lj in L'. rewrite <- (members_box pos d Hd all p' Hin F') in Nj.
    rewrite <- (firstn_skipn (length p) p') in F', Pj, Nj. set (a := firstn (length p) p') in *. set (b := skipn (length p) p') in *. assert (La : length a = length p) by (unfold a; rewrite firstn_length_le; lia). assert (Lb : Z.of_nat (length b) = (L - Z.of_nat (length p))%Z) by (unfold b; rewrite skipn_length; lia).
    rewrite <- Lb, parent_of_path in Pj by exact F'. rewrite at_app in Nj. assert (Fa : Forall (fun w => w < 8) a) by (apply Forall_app in F'; apply F').
    rewrite (members_box pos d Hd all p Hin F), <- Pj, <- (members_box pos d Hd all a Hin Fa). intros Z. rewrite Z in Nj. cbn in Nj. lia.
  - intros N. destruct (at_below p (Z.to_nat (L - Z.of_nat (length p))) N) as (q & Lq & Fq & Nq). assert (Fpq : Forall (fun w => w < 8) (p ++ q)) by (apply Forall_app; auto). destruct (idx_grid _ Fpq) as [Gq Lvq]. rewrite app_length in Lvq.
    exists (idx_of (p ++ q)). split; [exact Gq|]. split; [lia|]. split; [replace (L - Z.of_nat (length p))%Z with (Z.of_nat (length q)) by lia; apply parent_of_path; exact Fpq|].
    rewrite (Hc _ Gq) by lia. rewrite <- (members_box pos d Hd all _ Hin Fpq). destruct (members (lows pos d) root_index (p ++ q) all); [contradiction|cbn [length]; lia].
Qed.
End Top.

(** ** All the ranks *)
Section Ended.
Context {X : Type} (pos : X -> point) (d : domain) (Hd : (0 < dsize d)%Q) (L : Z) (HL : (1 <= L <= 9)%Z).
Let dim3 := Z.to_nat (8 ^ L).
Variables (rank_map : nat -> nat) (users : list (list X)) (locs : list (sorted X)).
Let all := concat users.
Hypothesis Hin : forall x, In x all -> in_domain d (pos x).
Hypothesis Hn : (Z.of_nat (length all) < 2 ^ 31)%Z.
Hypothesis Hloc : Forall2 (sort_facts (cell_at pos d L) dim3 true) users locs.
Variable gc : nat -> nat.
Hypothesis Hgc : forall i, i < dim3 -> gc i = length (of_cell (cell_at pos d L) i all).
Variable part : index -> nat -> (X -> bool) -> list X -> list X * list X.
Hypothesis Hp : partition_contract part.
Variable thr : nat.

Lemma count_box i : in_grid i -> ilevel i = L -> gc (Z.to_nat (slot_of i L)) = length (of_box pos d i all).
Proof using Hd HL Hin Hgc rank_map thr.
  intros G Lv. destruct (grid_path i G) as (p & F & <- & Lp). pose proof (slot_bounds (idx_of p) L ltac:(lia) Lv G) as Sb. rewrite <- (pow8 L ltac:(lia)) in Sb. rewrite Hgc by (unfold dim3; lia).
  rewrite <- (members_cell pos d Hd L all p) by (try assumption; lia). rewrite (members_box pos d Hd all p Hin F). reflexivity.
Qed.

Lemma rank_end : (forall x, In x all -> length (filter (same_place pos x) all) <= thr) ->
  exists D, forall fuel me loc fresh evs, D <= fuel -> nth_error locs me = Some loc -> length fresh = num_points dim3 rank_map me gc -> Permutation evs (shipped dim3 rank_map locs me) ->
  exists mem r, segment dim3 rank_map me gc loc fresh evs = Ok mem /\ partition_branches (lows pos d) part thr fuel (grid_index L) dim3 rank_map me gc mem = Ok r.
Proof.
  intros Ht. destruct (depth_bound pos d Hd all thr Hin Ht) as (D & HD). exists D. intros fuel me loc fresh evs HF El Lf Pe.
  destruct (segment_ok (cell_at pos d L) dim3 rank_map users locs Hloc Hn gc Hgc me loc fresh evs El Lf Pe) as (mem & Es & Lm & Pm). exists mem.
  destruct (branches_run (lows pos d) part Hp thr fuel (grid_index L) dim3 rank_map me gc mem Lm) as (r & Er); [|exists r; auto].
  intros j Hj Hr Nz. destruct (slot_surj (Z.of_nat j) L ltac:(lia)) as (i & Gi & Li & Si); [unfold dim3 in Hj; lia|]. destruct (grid_path i Gi) as (p & F & <- & Lp).
  assert (Ej : j = Z.to_nat (slot_of (idx_of p) L)) by lia. assert (Eg : grid_index L j = idx_of p) by (rewrite Ej; apply grid_index_ok; assumption).
  assert (Pj : Permutation (at_cell rank_map me gc mem j) (members (lows pos d) root_index p all)).
  { unfold at_cell. rewrite (Pm j Hj Hr). rewrite (members_cell pos d Hd L all p) by (try assumption; lia). rewrite Ej. reflexivity. }
  apply (refine_terminates (lows pos d) part Hp thr D); [exact HF| |].
  - intros Z. rewrite Z in Pj. apply Permutation_length in Pj. rewrite (members_cell pos d Hd L all p) in Pj by (try assumption; lia). rewrite <- Ej, <- (Hgc j Hj) in Pj. cbn in Pj. lia.
  - intros q Lq. rewrite Eg. etransitivity; [|apply (HD (p ++ q)); rewrite app_length; lia]. rewrite at_app. unfold members at 1. rewrite (Permutation_length (perm_filter _ _ _ _ Pj)). reflexivity.
Qed.
End Ended.
