From Coq Require Import ZArith QArith List Bool Arith Lia Permutation.
From Verif Require Import Base ListFacts IndexModel IndexSpec IndexProofs GridModel GridSpec GridProofs GridProps ArrayModel TreeModel TreeFacts RefineModel RefineSpec RefineProofs RefineProofs2 RefineProps
  GeomModel GeomSpec GeomProofs GroupModel MessageModel MessageProofs ExchangeModel ExchangeSpec ExchangeProofs MergeModel MergeProofs BuildModel BuildSpec BuildProofs DagModel DagSpec WholeModel WholeSpec WholeGrow.
Import ListNotations.
Open Scope nat_scope.

Lemma root_grid : in_grid root_index.
Proof. unfold in_grid, root_index. cbn. lia. Qed.

(** ** Boxes and paths *)
Lemma in_partb_ok low size L k x : in_partb low size L k x = true <-> in_part low size L k x.
Proof.
  unfold in_partb, in_part. cbv zeta. rewrite andb_true_iff, orb_true_iff, andb_true_iff, !Qle_bool_iff, Qltb_lt, Z.eqb_eq. tauto.
Qed.
Lemma in_boxb_ok d i p : in_boxb d i p = true <-> in_box d i p.
Proof.
  unfold in_boxb, in_box. rewrite forallb_forall. split; intros H a; [apply in_partb_ok, H; destruct a; cbn; auto|intros _; apply in_partb_ok, H].
Qed.

Section Boxes.
Context {X : Type} (pos : X -> point) (d : domain) (Hd : (0 < dsize d)%Q).
Definition lows (a : axis) (i : index) (x : X) : bool := below_centre d a i (pos x).
Lemma in_cell_pos p : forall i x, in_cell lows i p x = in_cell (below_centre d) i p (pos x).
Proof. induction p as [|w p IH]; intros i x; [reflexivity|]. cbn [in_cell]. rewrite IH. reflexivity. Qed.
Fixpoint route (n : nat) (i : index) (x : X) : list nat :=
  match n with O => [] | S n' => let w := octant lows i x in w :: route n' (child (Z.of_nat w) i) x end.
Lemma route_ok n : forall i x, in_cell lows i (route n i x) x = true /\ length (route n i x) = n /\ Forall (fun w => w < 8) (route n i x).
Proof.
  induction n as [|n IH]; intros i x; [repeat split; constructor|]. cbn [route in_cell length]. destruct (IH (child (Z.of_nat (octant lows i x)) i) x) as (A & B & C). rewrite Nat.eqb_refl, A, B. repeat split. constructor; [apply octant_lt|exact C].
Qed.
Lemma root_box x : in_domain d x -> in_box d root_index x.
Proof.
  intros H. destruct (box_exists d Hd 0 x (Z.le_refl _) H) as [G B]. replace (index_of d 0 x) with root_index in B; [exact B|].
  apply in_grid_coords in G. destruct G as [_ G]. apply index_coords; [reflexivity|]. intros a. specialize (G a). cbn [ilevel index_of] in G. change (2 ^ 0)%Z with 1%Z in G. destruct a; cbn [icoord root_index ix iy iz index_of] in *; lia.
Qed.
Lemma idx_grid p : Forall (fun w => w < 8) p -> in_grid (idx_of p) /\ ilevel (idx_of p) = Z.of_nat (length p).
Proof. intros F. destruct (follow_facts p root_index root_grid F) as (G & Lv & _). split; [exact G|exact Lv]. Qed.
Lemma in_cell_box p x : in_domain d (pos x) -> Forall (fun w => w < 8) p -> in_cell lows root_index p x = true <-> in_box d (idx_of p) (pos x).
Proof.
  intros Hx F. split.
  - intros H. rewrite in_cell_pos in H. apply box_cell; [exact Hd|cbn; lia|apply root_box; exact Hx|exact H].
  - intros H. destruct (route_ok (length p) root_index x) as (A & B & C). set (r := route (length p) root_index x) in *.
    assert (Br : in_box d (idx_of r) (pos x)) by (rewrite in_cell_pos in A; apply box_cell; [exact Hd|cbn; lia|apply root_box; exact Hx|exact A]).
    destruct (idx_grid p F) as [G1 L1], (idx_grid r C) as [G2 L2].
    assert (E : idx_of p = idx_of r) by (eapply box_unique; [exact Hd|exact G1|exact G2|congruence|exact H|exact Br]).
    rewrite (follow_inj p r root_index root_grid F C (eq_sym B) E). exact A.
Qed.
Lemma members_box all p : (forall x, In x all -> in_domain d (pos x)) -> Forall (fun w => w < 8) p -> members lows root_index p all = of_box pos d (idx_of p) all.
Proof.
  intros Hall F. unfold members, of_box. apply filter_eq. intros x Hx. apply eq_true_iff_eq. rewrite in_boxb_ok. apply in_cell_box; [apply Hall; exact Hx|exact F].
Qed.
Lemma members_cell (L : Z) all p : (0 <= L)%Z -> (forall x, In x all -> in_domain d (pos x)) -> Forall (fun w => w < 8) p -> Z.of_nat (length p) = L ->
  members lows root_index p all = of_cell (cell_at pos d L) (Z.to_nat (slot_of (idx_of p) L)) all.
Proof.
  intros HL Hall F Lp. unfold members, of_cell. apply filter_eq. intros x Hx. apply eq_true_iff_eq. rewrite in_cell_box by (auto; apply Hall; exact Hx). rewrite Nat.eqb_eq. unfold cell_at.
  destruct (idx_grid p F) as [G Lv]. destruct (box_exists d Hd L (pos x) HL (Hall x Hx)) as [G' B']. split.
  - intros H. do 2 f_equal. eapply box_unique; [exact Hd|exact G'|exact G|cbn [ilevel index_of]; congruence|exact B'|exact H].
  - intros H. assert (Eq : index_of d L (pos x) = idx_of p); [|rewrite Eq in B'; exact B'].
    pose proof (slot_bounds (idx_of p) L HL ltac:(congruence) G) as S1. pose proof (slot_bounds (index_of d L (pos x)) L HL eq_refl G') as S2.
    apply (slot_inj (index_of d L (pos x)) (idx_of p) L); [reflexivity|congruence|exact G'|exact G|lia].
Qed.
End Boxes.

(** ** Putting the ranks together *)
Section Ranks.
Context {X : Type} (pos : X -> point) (d : domain) (Hd : (0 < dsize d)%Q) (L : Z) (HL : (0 <= L <= 9)%Z).
Notation low := (lows pos d).
Let dim3 := Z.to_nat (8 ^ L).
Variables (rank_map : nat -> nat) (users : list (list X)) (locs : list (sorted X)).
Let all := concat users.
Hypothesis Hin : forall x, In x all -> in_domain d (pos x).
Hypothesis Hn : (Z.of_nat (length all) < 2 ^ 31)%Z.
Hypothesis Hloc : Forall2 (sort_facts (cell_at pos d L) dim3 true) users locs.
Variable gc : nat -> nat.
Hypothesis Hgc : forall i, i < dim3 -> gc i = length (of_cell (cell_at pos d L) i all).
Variable part : index -> nat -> (X -> bool) -> list X -> list X * list X.
Hypothesis Hp : partition_contract part.
Variables (thr fuel : nat) (cell_index : nat -> index).
Hypothesis Hci : forall i, in_grid i -> ilevel i = L -> cell_index (Z.to_nat (slot_of i L)) = i.
Variable ranks : list (list X * list (nat * tree rnode)).
Hypothesis Hr : length ranks = length locs.
Hypothesis Hmap : forall i, i < dim3 -> rank_map i < length users.
Hypothesis Hrank : forall me r, nth_error ranks me = Some r -> exists loc, nth_error locs me = Some loc /\ rank_tree low part thr fuel cell_index dim3 rank_map gc loc (shipped dim3 rank_map locs me) me r.

Lemma cell_facts p : length p = Z.to_nat L -> Forall (fun w => w < 8) p -> let k := Z.to_nat (slot_of (idx_of p) L) in
  k < dim3 /\ get_unif_grid_index (idx_of p) L = slot_of (idx_of p) L /\ cell_index k = idx_of p /\ of_cell (cell_at pos d L) k all = members low root_index p all.
Proof.
  intros Lp F k. destruct (idx_grid p F) as [G Lv]. assert (Lz : Z.of_nat (length p) = L) by lia. rewrite Lz in Lv. pose proof (slot_bounds (idx_of p) L ltac:(lia) Lv G) as Sb. rewrite <- (pow8 L ltac:(lia)) in Sb.
  split; [unfold k, dim3; lia|]. split; [|split].
  - destruct (C02_ancestor_slot (idx_of p) L ltac:(lia) G) as [C _]. rewrite C by lia. rewrite Lv, Z.sub_diag. rewrite parent_0 by (rewrite Lv; lia). reflexivity.
  - apply Hci; assumption.
  - symmetry. apply members_cell; [exact Hd|lia|exact Hin|exact F|exact Lz].
Qed.

Lemma rank_cell me mem' bs : nth_error ranks me = Some (mem', bs) -> forall k, k < dim3 -> rank_map k = me ->
  exists l, Permutation l (of_cell (cell_at pos d L) k all) /\
    (gc k = 0 /\ lookup k bs = None \/
     gc k <> 0 /\ exists t, lookup k bs = Some t /\ refine low part thr fuel (cell_index k) (global_offset rank_map me gc k) l = Ok (t, firstn (length l) (skipn (global_offset rank_map me gc k) mem'))).
Proof.
  intros Er k Hk Hm. destruct (Hrank me _ Er) as (loc & El & evs & fresh & mem & Pe & Lf & Es & Ep).
  destruct (segment_ok (cell_at pos d L) dim3 rank_map users locs Hloc Hn gc Hgc me loc fresh evs El Lf Pe) as (mem1 & E1 & L1 & P1). rewrite Es in E1. injection E1 as <-.
  destruct (branches_ok low part Hp thr fuel cell_index dim3 rank_map me gc mem mem' bs L1 Ep) as [_ M]. specialize (M k Hk Hm). unfold made in M. exists (at_cell rank_map me gc mem k). split; [apply P1; assumption|].
  destruct (Nat.eqb_spec (gc k) 0) as [Z|Z]; [left; auto|right]. split; [exact Z|]. destruct M as (t & Et & R). exists t. split; [exact Et|]. replace (length (at_cell rank_map me gc mem k)) with (gc k); [exact R|]. rewrite (Hgc k Hk). symmetry. apply Permutation_length, P1; assumption.
Qed.

Lemma branch_ok p : length p = Z.to_nat L -> Forall (fun w => w < 8) p ->
  match branch_of rank_map ranks (Z.to_nat (get_unif_grid_index (idx_of p) L)) with
  | Some t => grown_at low all (Z.to_nat L) thr p t
  | None => members low root_index p all = []
  end /\ forall q, length q = fuel -> length (members low root_index (p ++ q) all) <= thr.
Proof.
  intros Lp F. destruct (cell_facts p Lp F) as (Hk & Eg & Ec & Em). rewrite Eg. set (k := Z.to_nat (slot_of (idx_of p) L)) in *. unfold branch_of.
  assert (Hm : rank_map k < length ranks) by (rewrite Hr, <- (forall2_len _ _ _ _ _ Hloc); apply Hmap; exact Hk). destruct (nth_error ranks (rank_map k)) as [[mem' bs]|] eqn:En; [|apply nth_error_None in En; lia].
  destruct (rank_cell (rank_map k) mem' bs En k Hk eq_refl) as (l & Pl & C). rewrite Em in Pl. fold (lookup k bs).
  replace (match find (fun b => fst b =? k) bs with Some (_, t) => Some (fill mem' t) | None => None end) with (match lookup k bs with Some t => Some (fill mem' t) | None => None end) by (unfold lookup; destruct (find _ bs) as [[? ?]|]; reflexivity).
  destruct C as [[Z ->]|[Z (t & -> & R)]].
  - assert (E : members low root_index p all = []) by (rewrite Hgc, Em in Z by assumption; apply length_zero_iff_nil; exact Z). split; [exact E|]. intros q _. rewrite members_app, E. cbn. lia.
  - split; [eapply refined; [exact Hp|exact R|exact Ec|exact Lp|exact Pl|reflexivity]|]. intros q Hq. eapply refined_depth; [exact Hp|exact R|exact Ec|exact Pl|exact Hq].
Qed.

Lemma whole_grown : all <> [] -> grown_at low all (Z.to_nat L) thr [] (whole L rank_map ranks) /\
  forall p, length p = Z.to_nat L + fuel -> Forall (fun w => w < 8) p -> length (members low root_index p all) <= thr.
Proof.
  intros Ne. destruct (above_root low all (Z.to_nat L) thr (fun i => branch_of rank_map ranks (Z.to_nat (get_unif_grid_index i L))) (fun p Lp F => proj1 (branch_ok p Lp F)) Ne) as (t & Et & Gt).
  split; [unfold whole; change (mkIndex 0 0 0 0) with root_index; rewrite Et; exact Gt|]. intros p Lp F. rewrite <- (firstn_skipn (Z.to_nat L) p) in *. rewrite <- (firstn_skipn (Z.to_nat L) p) in F. rewrite firstn_skipn in F. apply Forall_app in F.
  apply branch_ok; [rewrite firstn_length_le; [reflexivity|]|apply F|]; rewrite app_length, firstn_length, skipn_length in Lp; [lia|]. rewrite skipn_length. lia.
Qed.
End Ranks.

(** ** What such a tree is *)
Lemma Permutation_flat_map' : forall A B (f g : A -> list B) l, (forall x, In x l -> Permutation (f x) (g x)) -> Permutation (flat_map f l) (flat_map g l).
Proof. intros A B f g l. induction l as [|x l IH]; intros H; [constructor|]. cbn [flat_map]. apply Permutation_app; [apply H; left; reflexivity|apply IH; intros y Hy; apply H; right; exact Hy]. Qed.
Lemma Permutation_concat_eq : forall A (l m : list (list A)), l = m -> Permutation (concat l) (concat m).
Proof. intros A l m ->. reflexivity. Qed.
Lemma map_nth_all : forall A (l : list A) x, map (fun w => nth w l x) (seq 0 (length l)) = l.
Proof.
  intros A l x. apply nth_error_ext. intros k. destruct (Nat.lt_ge_cases k (length l)) as [H|H]; [rewrite nth_error_map_seq by assumption; symmetry; apply nth_error_nth'; assumption|].
  rewrite !(proj2 (nth_error_None _ _)); rewrite ?map_length, ?seq_length; [reflexivity|assumption|assumption].
Qed.
Lemma list_end : forall A (l : list A), l <> [] -> exists r v, l = r ++ [v].
Proof. intros A l H. destruct (exists_last H) as (r & v & E). exists r, v. exact E. Qed.
Section Facts.
Context {X : Type} (low : axis -> index -> X -> bool) (all : list X) (L thr : nat) (t : tree (list X)).
Hypothesis G : grown_at low all L thr [] t.
Notation at_path p := (members low root_index p all).

Lemma grown_node p n : sub t p = Some n -> Permutation (info n) (at_path p) /\ length (kids n) = 8.
Proof. intros H. exact (proj1 G p n H). Qed.
Lemma grown_shape p : (exists n, sub t p = Some n) <-> present low all L thr p.
Proof. exact (proj2 G p). Qed.
Lemma grown_eight : eight t.
Proof. intros p n H. apply (grown_node p n H). Qed.
Lemma grown_kid p n w : sub t p = Some n -> kid n w = sub t (p ++ [w]).
Proof. intros H. rewrite sub_app, H. cbn [sub]. destruct (kid n w); reflexivity. Qed.
Lemma grown_deep : deep L t.
Proof.
  intros p (n & Hn & Hl). destruct (Nat.lt_ge_cases (length p) L) as [Lt|Ge]; [exfalso|exact Ge]. destruct (proj1 (grown_shape p) (ex_intro _ n Hn)) as [Ne _]. destruct (at_child low all p Ne) as (w & Hw & Nw).
  destruct (proj2 (grown_shape (p ++ [w]))) as (c & Hc); [apply present_short; [rewrite app_length; cbn [length]; lia|exact Nw]|]. specialize (Hl w). rewrite (grown_kid p n w Hn) in Hl. congruence.
Qed.
Lemma grown_levels fuel : (forall p, length p = L + fuel -> Forall (fun w => w < 8) p -> length (at_path p) <= thr) -> forall p n, sub t p = Some n -> length p <= L + fuel.
Proof.
  intros H p n Hn. destruct (Nat.le_gt_cases (length p) (L + fuel)) as [Le|Gt]; [exact Le|exfalso]. destruct (proj1 (grown_shape p) (ex_intro _ n Hn)) as [Ne C]. pose proof (at_digits low all p Ne) as F.
  assert (E : p = firstn (L + fuel) p ++ skipn (L + fuel) p) by (symmetry; apply firstn_skipn). assert (Lf : length (firstn (L + fuel) p) = L + fuel) by (rewrite firstn_length_le; lia).
  specialize (C _ _ E). rewrite Lf in C. specialize (H (firstn (L + fuel) p) Lf). rewrite E in F. apply Forall_app in F. specialize (H (proj1 F)).
  assert (N : skipn (L + fuel) p <> []) by (intros Z; apply (f_equal (@length _)) in Z; rewrite skipn_length in Z; cbn in Z; lia). specialize (C N ltac:(lia)). lia.
Qed.
Lemma grown_gathered p n : sub t p = Some n -> ~ leaf_at t p -> Permutation (info n) (flat_map (fun o => match o with Some c => info c | None => [] end) (kids n)).
Proof.
  intros Hn Nl. destruct (grown_node p n Hn) as [I L8]. rewrite I.
  assert (Kid : exists w c, sub t (p ++ [w]) = Some c).
  { destruct (forallb none (kids n)) eqn:En.
    - exfalso. apply Nl. exists n. split; [exact Hn|]. intros w. unfold kid. destruct (nth_error (kids n) w) as [[c|]|] eqn:E; try reflexivity. exfalso. rewrite forallb_forall in En. specialize (En _ (nth_error_In _ _ E)). discriminate.
    - destruct (existsb (fun o => negb (none o)) (kids n)) eqn:Ex.
      + apply existsb_exists in Ex. destruct Ex as ([c|] & Hc & Hn'); [|discriminate]. destruct (in_kid _ n c Hc) as (w & Hw). exists w, c. rewrite <- (grown_kid p n w Hn). exact Hw.
      + exfalso. assert (A : forallb none (kids n) = true); [|congruence]. apply forallb_forall. intros o Ho. destruct (none o) eqn:E; [reflexivity|]. assert (B : existsb (fun o => negb (none o)) (kids n) = true) by (apply existsb_exists; exists o; rewrite E; auto). congruence. }
  assert (Th : L <= length p -> thr < length (at_path p)).
  { destruct Kid as (w & c & Hc). destruct (proj1 (grown_shape (p ++ [w])) (ex_intro _ c Hc)) as [_ C]. apply (C p [w]); [reflexivity|discriminate]. }
  assert (Pp : present low all L thr p) by (apply grown_shape; exists n; exact Hn).
  rewrite (at_split low all p). transitivity (flat_map (fun w => match kid n w with Some c => info c | None => [] end) (seq 0 8)).
  - apply Permutation_flat_map'. intros w Hw. apply in_seq in Hw. rewrite (grown_kid p n w Hn). destruct (sub t (p ++ [w])) as [c|] eqn:E; [symmetry; apply (grown_node _ c E)|].
    destruct (at_path (p ++ [w])) as [|x l] eqn:Ex; [constructor|]. exfalso. destruct (proj2 (grown_shape (p ++ [w]))) as (c & Hc); [|congruence]. split; [congruence|]. intros q q' Eq Nq Lq.
    destruct (list_end _ q' Nq) as (r & v & ->). rewrite app_assoc in Eq. apply app_inj_tail in Eq. destruct Eq as [Eq _]. destruct r as [|u r]; [rewrite app_nil_r in Eq; subst q; apply Th; exact Lq|]. apply (proj2 Pp q (u :: r)); [exact Eq|discriminate|exact Lq].
  - rewrite flat_map_concat_map. rewrite (flat_map_concat_map _ (kids n)). apply Permutation_concat_eq. clear -L8. unfold kid.
    transitivity (map (fun o : option (tree (list X)) => match o with Some c => info c | None => [] end) (map (fun w => nth w (kids n) None) (seq 0 8))).
    + rewrite map_map. apply map_ext_in. intros w Hw. apply in_seq in Hw. rewrite (nth_error_nth' (kids n) None) by lia. destruct (nth w (kids n) None); reflexivity.
    + rewrite <- L8. f_equal. apply map_nth_all.
Qed.
End Facts.
