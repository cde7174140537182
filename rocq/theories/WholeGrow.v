From Coq Require Import ZArith QArith List Bool Arith Lia Permutation.
From Verif Require Import Base ListFacts IndexModel IndexSpec IndexProofs GridModel GridSpec GridProofs GridProps ArrayModel TreeModel TreeFacts RefineModel RefineSpec RefineProofs RefineProofs2 RefineProps
  GeomModel GeomSpec GeomProofs GroupModel MessageModel MessageProofs ExchangeModel ExchangeSpec ExchangeProofs MergeModel MergeProofs BuildModel BuildSpec BuildProofs DagModel WholeModel WholeSpec.
Import ListNotations.
Open Scope nat_scope.

(** ** The branches of one rank *)
Lemma find_app : forall X (f : X -> bool) l m, find f (l ++ m) = match find f l with Some x => Some x | None => find f m end.
Proof. intros X f l m. induction l as [|x l IH]; [reflexivity|]. cbn. destruct (f x); [reflexivity|assumption]. Qed.
Definition lookup (i : nat) (bs : list (nat * tree rnode)) : option (tree rnode) := match find (fun b => fst b =? i) bs with Some (_, t) => Some t | None => None end.
Lemma lookup_app : forall i a b, lookup i (a ++ b) = match lookup i a with Some t => Some t | None => lookup i b end.
Proof. intros i a b. unfold lookup. rewrite find_app. destruct (find _ a) as [[? ?]|]; reflexivity. Qed.

Section Branches.
Context {X : Type} (low : axis -> index -> X -> bool) (part : index -> nat -> (X -> bool) -> list X -> list X * list X) (Hp : partition_contract part).
Variables (thr fuel : nat) (cell_index : nat -> index) (dim3 : nat) (rank_map : nat -> nat) (me : nat) (gc : nat -> nat).
Let off := global_offset rank_map me gc.

Definition made (m m' : list X) (bs : list (nat * tree rnode)) (j : nat) : Prop :=
  if gc j =? 0 then lookup j bs = None
  else exists t, lookup j bs = Some t /\ refine low part thr fuel (cell_index j) (off j) (at_cell rank_map me gc m j) = Ok (t, at_cell rank_map me gc m' j).

Lemma branches_ok : forall mem mem' bs, length mem = num_points dim3 rank_map me gc ->
  partition_branches low part thr fuel cell_index dim3 rank_map me gc mem = Ok (mem', bs) ->
  length mem' = length mem /\ forall j, j < dim3 -> rank_map j = me -> made mem mem' bs j.
Proof.
  intros mem mem' bs Lm H. unfold partition_branches in H.
  set (step := fun st i => _) in H.
  assert (G : forall l m b m' b', NoDup l -> (forall i, In i l -> i < dim3) -> length m = length mem -> foldM step l (m, b) = Ok (m', b') ->
    length m' = length mem /\ exists new, b' = b ++ new /\ forall j, j < dim3 -> rank_map j = me ->
      (~ In j l -> at_cell rank_map me gc m' j = at_cell rank_map me gc m j /\ lookup j new = None) /\ (In j l -> made m m' new j)).
  { clear H mem' bs. intros l. induction l as [|i l IH]; intros m b m' b' ND Hl Lk E; cbn [foldM] in E.
    - injection E as <- <-. split; [assumption|]. exists []. rewrite app_nil_r. split; [reflexivity|]. intros j Hj Hr. split; [intros _; split; reflexivity|contradiction].
    - inversion ND as [|? ? Ni ND']; subst. unfold step at 1 in E.
      assert (Skip : (owned rank_map me i = false \/ gc i = 0) -> foldM step l (m, b) = Ok (m', b') -> length m' = length mem /\ exists new, b' = b ++ new /\ forall j, j < dim3 -> rank_map j = me ->
        (~ In j (i :: l) -> at_cell rank_map me gc m' j = at_cell rank_map me gc m j /\ lookup j new = None) /\ (In j (i :: l) -> made m m' new j)).
      { intros Hi E'. destruct (IH m b m' b' ND' (fun j Hj => Hl j (or_intror Hj)) Lk E') as (L' & new & Eb & N). split; [assumption|]. exists new. split; [assumption|]. intros j Hj Hr. destruct (N j Hj Hr) as [N1 N2]. split; [intros Hn; apply N1; intros C; apply Hn; right; assumption|].
        intros [<-|Hin]; [|apply N2; assumption]. destruct Hi as [Hi|Hi]; [unfold owned in Hi; rewrite Hr, Nat.eqb_refl in Hi; discriminate|]. unfold made. rewrite Hi. cbn [Nat.eqb]. apply N1. assumption. }
      destruct (owned rank_map me i) eqn:Ow; cbn [negb] in E; [|apply Skip; [left; reflexivity|exact E]].
      destruct (Nat.eqb_spec (gc i) 0) as [Z|Z]; [apply Skip; [right; exact Z|exact E]|]. clear Skip.
      cbv zeta in E. fold off in E. set (o := off i) in *. pose proof (cell_fits dim3 rank_map me gc i (Hl i (or_introl eq_refl)) Ow) as Cf. fold off in Cf. fold o in Cf.
      unfold read_range in E. rewrite (proj2 (Nat.leb_le o (o + gc i))) in E by lia. rewrite (proj2 (Nat.leb_le (o + gc i) (length m))) in E by lia. cbn [andb bind] in E.
      replace (o + gc i - o) with (gc i) in E by lia. set (c := firstn (gc i) (skipn o m)) in *. assert (Lc : length c = gc i) by (unfold c; rewrite firstn_length_le; [reflexivity|rewrite skipn_length; lia]).
      destruct (refine low part thr fuel (cell_index i) o c) as [[t out]|] eqn:Er; cbn [bind snd fst] in E; [|discriminate].
      destruct (C15_refinement _ _ _ _ _ _ _ _ _ _ Hp Er) as (Pc & _). pose proof (Permutation_length Pc) as Lo. rewrite Lc in Lo.
      unfold write_range in E. rewrite <- Lo in E. rewrite (proj2 (Nat.leb_le (o + gc i) (length m))) in E by lia. cbn [bind] in E. rewrite Lo in E.
      set (m1 := firstn o m ++ out ++ skipn (o + length out) m) in *.
      assert (L1 : length m1 = length mem). { unfold m1. rewrite !app_length, firstn_length_le, skipn_length by lia. lia. }
      assert (Si : share rank_map me gc i = gc i) by (unfold share; rewrite Ow; reflexivity).
      assert (Other : forall j, j < dim3 -> rank_map j = me -> j <> i -> at_cell rank_map me gc m1 j = at_cell rank_map me gc m j).
      { intros j Hj Hr Nj. assert (Oj : owned rank_map me j = true) by (apply Nat.eqb_eq; assumption). assert (Sh : share rank_map me gc j = gc j) by (unfold share; rewrite Oj; reflexivity). unfold at_cell.
        destruct (Nat.lt_trichotomy j i) as [Lt|[->|Gt]]; [|contradiction|].
        - unfold m1. rewrite splice_before; [reflexivity| |lia]. pose proof (off_next dim3 rank_map me gc j i Lt) as On. rewrite Sh in On. exact On.
        - unfold m1. rewrite splice_after; [reflexivity| |lia]. pose proof (off_next dim3 rank_map me gc i j Gt) as On. rewrite Si in On. fold off in On. fold o in On. fold off. lia. }
      assert (Here : at_cell rank_map me gc m1 i = out).
      { unfold at_cell. fold off. fold o. rewrite Lo. unfold m1. apply splice_at. lia. }
      destruct (IH m1 (b ++ [(i, t)]) m' b' ND' (fun j Hj => Hl j (or_intror Hj)) L1 E) as (L' & new & Eb & N). split; [assumption|]. exists ((i, t) :: new). split; [rewrite Eb, <- app_assoc; reflexivity|].
      intros j Hj Hr. destruct (N j Hj Hr) as [N1 N2]. split.
      + intros Hn. assert (Nj : j <> i) by (intros ->; apply Hn; left; reflexivity). destruct N1 as [N1 N1']; [intros C; apply Hn; right; assumption|]. split; [rewrite N1; apply Other; assumption|].
        unfold lookup. cbn [find fst]. replace (i =? j) with false by (symmetry; apply Nat.eqb_neq; congruence). exact N1'.
      + intros [<-|Hin].
        * destruct (N1 Ni) as [N1a _]. unfold made. destruct (Nat.eqb_spec (gc i) 0); [contradiction|]. exists t. split; [unfold lookup; cbn [find fst]; rewrite Nat.eqb_refl; reflexivity|]. rewrite N1a, Here. exact Er.
        * assert (Nj : j <> i) by (intros ->; contradiction). specialize (N2 Hin). unfold made in *. rewrite Other in N2 by assumption.
          assert (El : lookup j ((i, t) :: new) = lookup j new) by (unfold lookup; cbn [find fst]; replace (i =? j) with false by (symmetry; apply Nat.eqb_neq; congruence); reflexivity). rewrite El. exact N2. }
  destruct (G (seq 0 dim3) mem [] mem' bs (seq_NoDup _ _) (fun i Hi => proj2 (proj1 (in_seq _ _ _) Hi)) eq_refl H) as (L' & new & Eb & N). cbn [app] in Eb. subst new. split; [assumption|].
  intros j Hj Hr. apply (N j Hj Hr). apply in_seq. lia.
Qed.

(** The arrays are those of [partition_cells]. *)
Lemma branches_cells : forall mem, partition_cells low part thr fuel cell_index dim3 rank_map me gc mem = (do r <- partition_branches low part thr fuel cell_index dim3 rank_map me gc mem; Ok (fst r)).
Proof.
  intros mem. unfold partition_cells, partition_branches. match goal with |- context [foldM ?f _ (mem, [])] => set (step := f) end. generalize (@nil (nat * tree rnode)) as b. generalize (seq 0 dim3) as l. intros l. revert mem. induction l as [|i l IH]; intros m b; cbn [foldM]; [reflexivity|]. unfold step at 1.
  destruct (negb (owned rank_map me i)); cbn [bind]; [apply IH|]. destruct (gc i =? 0); cbn [bind]; [apply IH|]. cbv zeta.
  destruct (read_range X m _ _) as [c|]; cbn [bind]; [|reflexivity]. destruct (refine _ _ _ _ _ _ _) as [[t out]|]; cbn [bind snd fst]; [|reflexivity]. destruct (write_range _ _ _ _) as [m1|]; cbn [bind]; [apply IH|reflexivity].
Qed.
End Branches.

(** ** The records of the nodes of a branch *)
Lemma fill_kid : forall X (mem : list X) t w, kid (fill mem t) w = match kid t w with Some c => Some (fill mem c) | None => None end.
Proof.
  intros X mem [a cs] w. unfold kid. cbn [fill kids]. rewrite nth_error_map. destruct (nth_error cs w) as [[c|]|]; reflexivity.
Qed.
Lemma fill_sub : forall X (mem : list X) p t, sub (fill mem t) p = match sub t p with Some c => Some (fill mem c) | None => None end.
Proof.
  intros X mem p. induction p as [|w p IH]; intros t; [reflexivity|]. cbn [sub]. rewrite fill_kid. destruct (kid t w); [apply IH|reflexivity].
Qed.
Lemma fill_info : forall X (mem : list X) t, info (fill mem t) = firstn (r_cnt (info t)) (skipn (r_off (info t)) mem).
Proof. intros X mem [a cs]. reflexivity. Qed.
Lemma fill_kids : forall X (mem : list X) t, length (kids (fill mem t)) = length (kids t).
Proof. intros X mem [a cs]. cbn. apply map_length. Qed.
Lemma slice_slice : forall X (m : list X) o g a n, o <= a -> a + n <= o + g -> firstn n (skipn (a - o) (firstn g (skipn o m))) = firstn n (skipn a m).
Proof.
  intros X m o g a n H1 H2. rewrite skipn_firstn_comm, firstn_firstn. rewrite skipn_skipn'. f_equal; [lia|]. f_equal. lia.
Qed.

(** ** The whole tree *)
Section Grown.
Context {X : Type} (low : axis -> index -> X -> bool) (all : list X) (L thr : nat).
Notation at_path p := (members low root_index p all).

Lemma idx_app p q : idx_of (p ++ q) = follow (idx_of p) q.
Proof. unfold idx_of, follow. apply fold_left_app. Qed.
Lemma at_app p q : at_path (p ++ q) = members low (idx_of p) q (at_path p).
Proof. apply members_app. Qed.
Lemma at_digits p : at_path p <> [] -> Forall (fun w => w < 8) p.
Proof.
  intros H. destruct (at_path p) as [|x l] eqn:E; [contradiction|]. assert (Hx : In x (at_path p)) by (rewrite E; left; reflexivity). unfold members in Hx. apply filter_In in Hx. destruct Hx as [_ Hx]. clear -Hx. revert Hx. generalize root_index as i.
  induction p as [|w p IH]; intros i Hx; [constructor|]. cbn [in_cell] in Hx. apply andb_true_iff in Hx. destruct Hx as [H1 H2]. apply Nat.eqb_eq in H1. constructor; [|eapply IH; exact H2]. rewrite <- H1. apply octant_lt.
Qed.
Lemma at_split p : Permutation (at_path p) (flat_map (fun w => at_path (p ++ [w])) (seq 0 8)).
Proof.
  rewrite flat_map_concat_map. rewrite (map_ext _ (fun k => of_cell (octant low (idx_of p)) k (at_path p))).
  - rewrite split_keys by apply seq_NoDup. rewrite filter_all; [reflexivity|]. intros x _. apply existsb_exists. exists (octant low (idx_of p) x). split; [apply in_seq; pose proof (octant_lt low (idx_of p) x); lia|apply Nat.eqb_refl].
  - intros w. rewrite at_app. unfold members at 1, of_cell. apply filter_eq. intros x _. cbn [in_cell]. apply andb_true_r.
Qed.
Lemma at_child p : at_path p <> [] -> exists w, w < 8 /\ at_path (p ++ [w]) <> [].
Proof.
  intros H. destruct (at_path p) as [|x l] eqn:E; [contradiction|]. assert (Hx : In x (at_path p)) by (rewrite E; left; reflexivity). rewrite at_split in Hx. apply in_flat_map in Hx. destruct Hx as (w & Hw & Hx). apply in_seq in Hw. exists w. split; [lia|]. intros C. rewrite C in Hx. contradiction.
Qed.

Definition present (p : list nat) : Prop := at_path p <> [] /\ forall q q', p = q ++ q' -> q' <> [] -> L <= length q -> thr < length (at_path q).
Lemma present_short p : length p <= L -> present p <-> at_path p <> [].
Proof.
  intros H. split; [intros [A _]; exact A|]. intros A. split; [exact A|]. intros q q' -> N C. rewrite app_length in H. destruct q'; [contradiction|]. cbn [length] in H. lia.
Qed.
(** A tree of these records from the node at [p] on. *)
Definition grown_at (p : list nat) (t : tree (list X)) : Prop :=
  (forall q n, sub t q = Some n -> Permutation (info n) (at_path (p ++ q)) /\ length (kids n) = 8) /\
  (forall q, (exists n, sub t q = Some n) <-> present (p ++ q)).

Section Above.
Variable branch : index -> option (tree (list X)).
Hypothesis Hb : forall p, length p = L -> Forall (fun w => w < 8) p -> match branch (idx_of p) with Some t => grown_at p t | None => at_path p = [] end.

Lemma above_ok : forall n p, length p + n = L -> Forall (fun w => w < 8) p -> match above branch n (idx_of p) with Some t => grown_at p t | None => at_path p = [] end.
Proof.
  intros n. induction n as [|n IH]; intros p Lp Fp; [apply Hb; [lia|assumption]|]. cbn [above]. set (cs := map (fun w => above branch n (child (Z.of_nat w) (idx_of p))) (seq 0 8)).
  assert (Hc : forall w, w < 8 -> nth_error cs w = Some (above branch n (idx_of (p ++ [w])))).
  { intros w Hw. unfold cs. rewrite nth_error_map_seq by assumption. cbn [plus]. rewrite idx_app. reflexivity. }
  assert (Ih : forall w, w < 8 -> match above branch n (idx_of (p ++ [w])) with Some t => grown_at (p ++ [w]) t | None => at_path (p ++ [w]) = [] end).
  { intros w Hw. apply IH; [rewrite app_length; cbn [length]; lia|]. apply Forall_app. split; [assumption|]. constructor; [assumption|constructor]. }
  destruct (forallb none cs) eqn:En.
  - destruct (at_path p) as [|x l] eqn:E; [reflexivity|]. exfalso. destruct (at_child p) as (w & Hw & H); [congruence|]. specialize (Ih w Hw). rewrite forallb_forall in En. specialize (En _ (nth_error_In _ _ (Hc w Hw))). destruct (above branch n (idx_of (p ++ [w]))); [discriminate|contradiction].
  - assert (Lk : length cs = 8) by (unfold cs; rewrite map_length; reflexivity).
    assert (Hk : forall w, kid (T (flat_map parts_of cs) cs) w = if w <? 8 then above branch n (idx_of (p ++ [w])) else None).
    { intros w. unfold kid. cbn [kids]. destruct (Nat.ltb_spec w 8) as [H|H]; [rewrite (Hc w H); destruct (above branch n _); reflexivity|]. rewrite (proj2 (nth_error_None cs w)) by lia. reflexivity. }
    assert (Info : Permutation (flat_map parts_of cs) (at_path p)).
    { rewrite at_split. unfold cs. rewrite flat_map_concat_map, map_map, <- flat_map_concat_map. assert (G : forall l, (forall w, In w l -> w < 8) -> Permutation (flat_map (fun w => parts_of (above branch n (child (Z.of_nat w) (idx_of p)))) l) (flat_map (fun w => at_path (p ++ [w])) l)).
      { intros l. induction l as [|w l IHl]; intros Hl; [reflexivity|]. cbn [flat_map]. apply Permutation_app; [|apply IHl; intros v Hv; apply Hl; right; assumption]. specialize (Ih w (Hl w (or_introl eq_refl))). rewrite idx_app in Ih. cbn [follow fold_left] in Ih.
        change (follow (idx_of p) [w]) with (child (Z.of_nat w) (idx_of p)) in Ih. destruct (above branch n (child (Z.of_nat w) (idx_of p))) as [t|]; [|rewrite Ih; reflexivity]. cbn [parts_of]. destruct Ih as [I1 _]. specialize (I1 [] t eq_refl). rewrite app_nil_r in I1. apply I1. }
      apply G. intros w Hw. apply in_seq in Hw. lia. }
    assert (Ne : at_path p <> []).
    { intros C. assert (A : forallb none cs = true); [|congruence]. apply forallb_forall. intros o Ho. apply In_nth_error in Ho. destruct Ho as [w Ew]. assert (Hw : w < 8) by (rewrite <- Lk; apply nth_error_Some; congruence). rewrite (Hc w Hw) in Ew. injection Ew as <-.
      specialize (Ih w Hw). destruct (above branch n (idx_of (p ++ [w]))) as [t|]; [|reflexivity]. exfalso. destruct Ih as [_ I2]. assert (Pr : present ((p ++ [w]) ++ [])) by (apply I2; exists t; reflexivity). destruct Pr as [Pr _]. rewrite app_nil_r in Pr. apply Pr.
      rewrite at_app, C. reflexivity. }
    clearbody cs. split.
    + intros q m Hq. destruct q as [|w q]; cbn [sub] in Hq; [injection Hq as <-; rewrite app_nil_r; split; [exact Info|exact Lk]|]. rewrite Hk in Hq. destruct (Nat.ltb_spec w 8) as [Hw|]; [|discriminate]. specialize (Ih w Hw).
      destruct (above branch n (idx_of (p ++ [w]))) as [t|]; [|discriminate]. destruct Ih as [I1 _]. specialize (I1 q m Hq). rewrite <- app_assoc in I1. exact I1.
    + intros q. destruct q as [|w q]; cbn [sub]; [rewrite app_nil_r; split; [intros _; apply present_short; [lia|exact Ne]|intros _; eexists; reflexivity]|]. rewrite Hk. replace (p ++ w :: q) with ((p ++ [w]) ++ q) by (rewrite <- app_assoc; reflexivity).
      destruct (Nat.ltb_spec w 8) as [Hw|Hw].
      * specialize (Ih w Hw). destruct (above branch n (idx_of (p ++ [w]))) as [t|]; [apply Ih|]. split; [intros (m & Hm); discriminate|]. intros [Pr _]. exfalso. apply Pr. rewrite at_app, Ih. reflexivity.
      * split; [intros (m & Hm); discriminate|]. intros [Pr _]. apply at_digits in Pr. rewrite <- app_assoc in Pr. apply Forall_app in Pr. destruct Pr as [_ Pr]. inversion Pr; subst. lia.
Qed.
Lemma above_root : all <> [] -> exists t, above branch L root_index = Some t /\ grown_at [] t.
Proof.
  intros Ne. pose proof (above_ok L [] eq_refl (Forall_nil _)) as H. change (idx_of []) with root_index in H. destruct (above branch L root_index) as [t|]; [exists t; auto|]. exfalso. apply Ne. rewrite members_nil in H. exact H.
Qed.
End Above.

(** A finished refinement of the records of a cell makes such a tree below it. *)
Lemma refined part fuel i o l t out mem p : partition_contract part -> refine low part thr fuel i o l = Ok (t, out) -> i = idx_of p -> length p = L -> Permutation l (at_path p) ->
  out = firstn (length l) (skipn o mem) -> grown_at p (fill mem t).
Proof.
  intros Hp H -> Lp P Eo. destruct (C15_refinement _ _ _ _ _ _ _ _ _ _ Hp H) as (Po & It & _ & N). pose proof (C15_shape _ _ _ _ _ _ _ _ _ _ Hp H) as Sh.
  assert (Pm : forall q, Permutation (members low (idx_of p) q l) (at_path (p ++ q))) by (intros q; rewrite at_app; apply members_perm; exact P). split.
  - intros q n Hq. rewrite fill_sub in Hq. destruct (sub t q) as [c|] eqn:Es; [|discriminate]. injection Hq as <-. destruct (N q c Es) as (_ & Lk & _ & O1 & O2 & Pc & _). rewrite fill_info, fill_kids. split; [|exact Lk].
    rewrite <- Pm, <- Pc. unfold contents. rewrite Eo, (slice_slice X mem o (length l) (r_off (info c)) (r_cnt (info c))) by assumption. reflexivity.
  - intros q. rewrite fill_sub. transitivity (exists n, sub t q = Some n); [destruct (sub t q); split; intros (n & Hn); try discriminate; eexists; reflexivity|]. rewrite Sh. unfold present.
    assert (Nil : forall q', members low (idx_of p) q' l = [] <-> at_path (p ++ q') = []).
    { intros q'. specialize (Pm q'). split; intros E; rewrite E in Pm; [apply Permutation_nil in Pm|apply Permutation_sym, Permutation_nil in Pm]; exact Pm. }
    split; intros [A B]; (split; [rewrite Nil in *; exact A|]).
    + intros r r' E Nr Lr. apply app_eq_app in E. destruct E as (s & [[E1 E2]|[E1 E2]]).
      * subst p. assert (s = []) as -> by (rewrite app_length in Lp; destruct s; [reflexivity|cbn [length] in Lp; lia]). cbn [app] in E2. subst r'. specialize (B [] q eq_refl Nr). rewrite (Permutation_length (Pm [])) in B. rewrite !app_nil_r in *. exact B.
      * subst r q. specialize (B s r' eq_refl Nr). rewrite (Permutation_length (Pm s)) in B. exact B.
    + intros r r' -> Nr. rewrite (Permutation_length (Pm r)). apply (B (p ++ r) r'); [apply app_assoc|exact Nr|rewrite app_length; lia].
Qed.
Lemma refined_depth part fuel i o l t out p : partition_contract part -> refine low part thr fuel i o l = Ok (t, out) -> i = idx_of p -> Permutation l (at_path p) ->
  forall q, length q = fuel -> length (at_path (p ++ q)) <= thr.
Proof.
  intros Hp H -> P q Hq. pose proof (refine_bounded low part Hp thr _ _ _ _ _ H q Hq) as B. rewrite at_app, <- (Permutation_length (members_perm low (idx_of p) q _ _ P)). exact B.
Qed.
End Grown.
