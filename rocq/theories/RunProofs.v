From Coq Require Import Reals Qreals ZArith QArith List Bool Arith Lia Lra Permutation.
From Verif Require Import Base ListFacts IndexModel IndexSpec ArrayModel TreeModel TreeFacts RefineModel RefineSpec RefineProofs GeomModel GeomSpec GeomProofs GridSpec GroupModel MessageModel ExchangeModel ExchangeSpec MergeModel BuildModel BuildSpec DagModel DagSpec WholeModel WholeSpec WholeGrow WholeProofs WholeDone LapModel LapSpec TranModel TranSpec PotModel PotSpec PotFacts RunModel.
Import ListNotations.
Open Scope nat_scope.

(** ** Mapping the records *)
Section Map.
Context {X Y : Type} (f : X -> Y).
Lemma map_info t : info (tree_map f t) = map f (info t).
Proof. destruct t. reflexivity. Qed.
Lemma map_kids t : length (kids (tree_map f t)) = length (kids t).
Proof. destruct t. apply map_length. Qed.
Lemma map_kid t w : kid (tree_map f t) w = match kid t w with Some c => Some (tree_map f c) | None => None end.
Proof. destruct t as [a cs]. unfold kid. cbn [kids tree_map]. rewrite nth_error_map. destruct (nth_error cs w) as [[c|]|]; reflexivity. Qed.
Lemma map_sub p : forall t, sub (tree_map f t) p = match sub t p with Some c => Some (tree_map f c) | None => None end.
Proof. induction p as [|w p IH]; intros t; [reflexivity|]. cbn [sub]. rewrite map_kid. destruct (kid t w); [apply IH|reflexivity]. Qed.
Lemma map_some p t n : sub (tree_map f t) p = Some n -> exists m, sub t p = Some m /\ n = tree_map f m.
Proof. rewrite map_sub. destruct (sub t p) as [m|]; [|discriminate]. intros H. injection H as <-. exists m. auto. Qed.
Lemma map_leaf t p : leaf_at (tree_map f t) p <-> leaf_at t p.
Proof.
  split; intros (n & Hn & K).
  - destruct (map_some _ _ _ Hn) as (m & Hm & ->). exists m. split; [exact Hm|]. intros w. specialize (K w). rewrite map_kid in K. destruct (kid m w); [discriminate|reflexivity].
  - exists (tree_map f n). rewrite map_sub, Hn. split; [reflexivity|]. intros w. rewrite map_kid, K. reflexivity.
Qed.
Lemma map_records t p : records (tree_map f t) p = map f (records t p).
Proof. unfold records. rewrite map_sub. destruct (sub t p); [apply map_info|reflexivity]. Qed.
Lemma map_flat (cs : list (option (tree (list X)))) : flat_map (fun o => match o with Some c => info c | None => [] end) (map (fun o => match o with Some c => Some (tree_map f c) | None => None end) cs) = map f (flat_map (fun o => match o with Some c => info c | None => [] end) cs).
Proof. induction cs as [|[c|] cs IH]; cbn [map flat_map]; [reflexivity| |exact IH]. rewrite map_app, IH, map_info. reflexivity. Qed.
Lemma map_gathered t : (forall p n, sub t p = Some n -> ~ leaf_at t p -> Permutation (info n) (flat_map (fun o => match o with Some c => info c | None => [] end) (kids n))) -> gathered (tree_map f t).
Proof.
  intros G p n Hn Nl. destruct (map_some _ _ _ Hn) as (m & Hm & ->). rewrite map_leaf in Nl. rewrite map_info. destruct m as [a cs]. cbn [tree_map kids]. rewrite map_flat. apply Permutation_map. exact (G p _ Hm Nl).
Qed.
End Map.

(** ** Boxes over the reals *)
Open Scope R_scope.
Lemma Q2R_Z z : Q2R (inject_Z z) = IZR z.
Proof. unfold Q2R, inject_Z. cbn. field. Qed.
Lemma pow2_R l : (0 <= l)%Z -> powerRZ 2 l = IZR (2 ^ l).
Proof. intros H. rewrite <- (Z2Nat.id l H) at 1. rewrite <- pow_powerRZ. rewrite pow_IZR. rewrite Z2Nat.id by exact H. reflexivity. Qed.
Lemma closed_inside d i p : (0 <= ilevel i)%Z -> in_closed d i p -> inside (real (dlow d)) (Q2R (dsize d)) i (real p).
Proof.
  intros H0 Hc. assert (P : 0 < IZR (2 ^ ilevel i)) by (apply IZR_lt, Z.pow_pos_nonneg; lia).
  assert (A : forall a k, icoord a i = k -> Rabs (Q2R (coord a p) - (Q2R (coord a (dlow d)) + side (Q2R (dsize d)) (ilevel i) * IZR k + side (Q2R (dsize d)) (ilevel i) / 2)) <= side (Q2R (dsize d)) (ilevel i) / 2).
  { intros a k E. specialize (Hc a). cbv zeta in Hc. rewrite E in Hc. destruct Hc as [C1 C2]. apply Qle_Rle in C1, C2. rewrite Q2R_plus, Q2R_mult, Q2R_div, !Q2R_Z in C1, C2 by (intros Z; apply Qeq_eqR in Z; rewrite Q2R_Z in Z; replace (Q2R 0) with 0 in Z by (unfold Q2R; cbn; lra); lra).
    unfold side. rewrite pow2_R by exact H0. set (h := Q2R (dsize d) / IZR (2 ^ ilevel i)) in *. rewrite plus_IZR in C2. apply Rabs_le. nra. }
  unfold inside, middle, real. cbn [LapModel.px LapModel.py LapModel.pz]. split; [|split]; apply A; reflexivity.
Qed.

(** ** Every target once *)
Lemma classes : forall (I K : Type) (P : K -> I -> bool) (ks : list K), NoDup ks -> forall l, (forall i, In i l -> exists k, In k ks /\ P k i = true /\ forall k', In k' ks -> P k' i = true -> k' = k) -> Permutation (flat_map (fun k => filter (P k) l) ks) l.
Proof.
  intros I K P ks ND l. induction l as [|i l IH]; intros H; [induction ks as [|k ks IHk]; [constructor|cbn; apply IHk; [inversion ND; assumption|intros i []]]|].
  destruct (H i (or_introl eq_refl)) as (k & Hk & Pk & U). destruct (in_split k ks Hk) as (a & b & ->). transitivity (i :: flat_map (fun k => filter (P k) l) (a ++ k :: b)); [|apply perm_skip, IH; intros j Hj; apply H; right; exact Hj].
  assert (Na : ~ In k a /\ ~ In k b) by (apply NoDup_remove_2 in ND; split; intros Z; apply ND; apply in_or_app; auto).
  assert (E : forall c, (forall k', In k' c -> In k' (a ++ k :: b)) -> ~ In k c -> flat_map (fun k => filter (P k) (i :: l)) c = flat_map (fun k => filter (P k) l) c).
  { intros c Hc Nc. induction c as [|k' c IHc]; [reflexivity|]. cbn [flat_map]. rewrite IHc by (try (intros k'' H''; apply Hc; right; exact H''); intros Z; apply Nc; right; exact Z). cbn [filter]. destruct (P k' i) eqn:E; [|reflexivity]. exfalso. apply Nc. left. apply U; [apply Hc; left; reflexivity|exact E]. }
  rewrite !flat_map_app. rewrite (E a) by (try apply Na; intros k' H'; apply in_or_app; left; exact H'). cbn [flat_map]. rewrite (E b) by (try apply Na; intros k' H'; apply in_or_app; right; right; exact H'). cbn [filter]. rewrite Pk.
  cbn [app]. symmetry. apply Permutation_middle.
Qed.
Definition prefixb (q p : path) : bool := if list_eq_dec Nat.eq_dec (firstn (length q) p) q then true else false.
Lemma prefixb_ok q p : prefixb q p = true <-> prefix q p.
Proof.
  unfold prefixb. destruct (list_eq_dec Nat.eq_dec (firstn (length q) p) q) as [E|E]; split; intros H; try reflexivity; try discriminate.
  - exists (skipn (length q) p). rewrite <- E at 1. symmetry. apply firstn_skipn.
  - destruct H as (r & ->). exfalso. apply E. rewrite firstn_app, Nat.sub_diag, firstn_all. cbn. apply app_nil_r.
Qed.
Lemma sub_leaf {X} (T : tree X) q n r : sub T q = Some n -> leaf_at T (q ++ r) <-> leaf_at n r.
Proof. intros H. unfold leaf_at. rewrite sub_app, H. reflexivity. Qed.
Lemma gathered_sub {X} (T : tree (list X)) q n : gathered T -> sub T q = Some n -> gathered n.
Proof. intros G H p m Hm Nl. apply (G (q ++ p) m); [rewrite sub_app, H; exact Hm|]. rewrite (sub_leaf T q n p H). exact Nl. Qed.
Lemma records_leaves {X} (T : tree (list X)) ls q : gathered T -> NoDup ls -> (forall s, In s ls <-> leaf_at T s) -> Permutation (flat_map (records T) (filter (prefixb q) ls)) (records T q).
Proof.
  intros G ND Hl. unfold records at 2. destruct (sub T q) as [n|] eqn:E.
  - destruct (leaf_lists n (gathered_sub T q n G E)) as (ls' & ND' & Hl' & P'). rewrite <- P'.
    assert (Pm : Permutation (filter (prefixb q) ls) (map (fun r => q ++ r) ls')).
    { apply NoDup_Permutation; [apply NoDup_filter, ND|apply FinFun.Injective_map_NoDup; [intros a b H; apply app_inv_head in H; exact H|exact ND']|]. intros s. rewrite filter_In, prefixb_ok, in_map_iff, Hl. split.
      - intros [Ls (r & ->)]. exists r. split; [reflexivity|]. apply Hl'. apply (sub_leaf T q n r E). exact Ls.
      - intros (r & <- & Hr). split; [|exists r; reflexivity]. apply (sub_leaf T q n r E). apply Hl'. exact Hr. }
    rewrite (Permutation_flat_map (records T) Pm). rewrite flat_map_concat_map, map_map, <- flat_map_concat_map. match goal with |- Permutation ?x ?y => replace x with y; [reflexivity|] end. apply flat_map_ext. intros r. unfold records. rewrite sub_app, E. reflexivity.
  - replace (filter (prefixb q) ls) with (@nil path); [reflexivity|]. symmetry. apply filter_none. intros s Hs. destruct (prefixb q s) eqn:Ep; [|reflexivity]. exfalso. apply prefixb_ok in Ep. destruct Ep as (r & ->). apply Hl in Hs. destruct Hs as (m & Hm & _). rewrite sub_app, E in Hm. discriminate.
Qed.
Lemma all_once {A X} (S : tree A) (T : tree (list X)) ts : good_dag S T ts -> gathered T -> exists qs, NoDup qs /\ (forall q, In q qs <-> stops ts q) /\ Permutation (flat_map (records T) qs) (info T).
Proof.
  intros (_ & _ & G & _) Hg. set (qs := nodup (list_eq_dec Nat.eq_dec) (flat_map (fun x => match x with ((TgtTree, q), Parts) => [q] | _ => [] end) (all_adds ts))). exists qs.
  assert (ND : NoDup qs) by apply NoDup_nodup. split; [exact ND|].
  assert (Iq : forall q, In q qs <-> stops ts q).
  { intros q. unfold qs, stops. rewrite nodup_In, in_flat_map. split.
    - intros ([[s p] k] & Hx & Hq). destruct s; [destruct Hq|]. destruct k; try destruct Hq as [<-|[]]; try contradiction. exact Hx.
    - intros H. exists ((TgtTree, q), Parts). split; [exact H|left; reflexivity]. }
  split; [exact Iq|]. destruct (leaf_lists T Hg) as (ls & NDl & Hl & Pl). rewrite <- Pl.
  transitivity (flat_map (records T) (flat_map (fun q => filter (prefixb q) ls) qs)); [|apply Permutation_flat_map, (classes path path prefixb qs ND ls)].
  - clear -Hg NDl Hl. induction qs as [|q qs IH]; [reflexivity|]. cbn [flat_map]. rewrite flat_map_app. apply Permutation_app; [symmetry; apply records_leaves; assumption|exact IH].
  - intros s Hs. apply Hl in Hs. destruct (G s Hs) as (q & [Sq Pq] & U). exists q. split; [apply Iq, Sq|]. split; [apply prefixb_ok, Pq|]. intros q' Hq' Pq'. symmetry. apply U. split; [apply Iq, Hq'|apply prefixb_ok, Pq'].
Qed.

(** ** One tree *)
Open Scope nat_scope.
Section One.
Context {X Y : Type} (pos : X -> point) (d : domain) (Hd : (0 < dsize d)%Q) (all : list X) (Hin : forall x, In x all -> in_domain d (pos x)) (L thr : nat) (t : tree (list X)).
Hypothesis G : grown_at (lows pos d) all L thr [] t.
Variable f : X -> Y.
Lemma one_eight : eight (tree_map f t).
Proof. intros p n Hn. destruct (map_some f _ _ _ Hn) as (m & Hm & ->). rewrite map_kids. exact (grown_eight _ _ _ _ _ G p m Hm). Qed.
Lemma one_deep : deep L (tree_map f t).
Proof. intros p Hp. apply (map_leaf f) in Hp. exact (grown_deep _ _ _ _ _ G p Hp). Qed.
Lemma one_gathered : gathered (tree_map f t).
Proof. apply map_gathered. exact (grown_gathered _ _ _ _ _ G). Qed.
Lemma one_info : Permutation (info (tree_map f t)) (map f all).
Proof. rewrite map_info. apply Permutation_map. destruct (grown_node _ _ _ _ _ G [] t eq_refl) as [I _]. rewrite members_nil in I. exact I. Qed.
Lemma one_boxed at_ : (forall x, at_ (f x) = real (pos x)) -> boxed at_ (real (dlow d)) (Q2R (dsize d)) (tree_map f t).
Proof.
  intros Hf p n y Hn Hy. destruct (map_some f _ _ _ Hn) as (m & Hm & ->). rewrite map_info in Hy. apply in_map_iff in Hy. destruct Hy as (x & <- & Hx). rewrite Hf.
  destruct (grown_tree_of pos d Hd all Hin L thr t G) as [N Sh]. destruct (N p m Hm) as [I _]. destruct (proj1 (Sh p) (ex_intro _ m Hm)) as (F & _). destruct (idx_grid p F) as [_ Lv].
  apply closed_inside; [lia|]. apply box_closed. rewrite I in Hx. apply filter_In in Hx. apply in_boxb_ok. apply Hx.
Qed.
Lemma one_levels fuel : (forall p, length p = L + fuel -> Forall (fun w => w < 8) p -> length (members (lows pos d) root_index p all) <= thr) -> levels (L + fuel) (tree_map f t).
Proof.
  intros H p Hp. destruct (sub (tree_map f t) p) as [n|] eqn:E; [|contradiction]. destruct (map_some f _ _ _ E) as (m & Hm & _). exact (grown_levels _ _ _ _ _ G fuel H p m Hm).
Qed.
Lemma one_grid p : sub (tree_map f t) p <> None -> in_grid (idx_of p) /\ ilevel (idx_of p) = Z.of_nat (length p).
Proof.
  intros Hp. destruct (sub (tree_map f t) p) as [n|] eqn:E; [|contradiction]. destruct (map_some f _ _ _ E) as (m & Hm & _).
  destruct (proj1 (grown_shape _ _ _ _ _ G p) (ex_intro _ m Hm)) as [Ne _]. apply idx_grid. exact (at_digits _ _ _ Ne).
Qed.
End One.
