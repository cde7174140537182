(** The edges of the two multipole methods are those of the interaction lists. *)
From Coq Require Import ZArith List Bool Arith Lia.
From Verif Require Import Base ListFacts IndexModel TreeModel TreeFacts RefineModel LookupModel GeomModel DagModel MethodModel DagSpec DagProofs DagPaths DagExec DagSound MethodProofs MethodTasks MethodSound DirectBHProofs FmmProofs Fmm97Proofs StopsProofs ListsSpec.
Import ListNotations.
Open Scope nat_scope.

(** ** Touching boxes *)
Lemma touch_sym : forall i j, touch i j -> touch j i.
Proof. intros i j H a. destruct (H a). split; assumption. Qed.
Lemma near_sym : forall c p, near c p -> near p c.
Proof. intros c p. apply touch_sym. Qed.
Lemma near_well_sep : forall c p, length c = length p -> (well_sep (idx_of c) (idx_of p) = false <-> near c p).
Proof.
  intros c p L. rewrite <- not_true_iff_false, well_sep_apart. unfold near, touch. rewrite !idx_level, L.
  assert (P : (0 < 2 ^ Z.of_nat (length p))%Z) by (apply Z.pow_pos_nonneg; lia). split.
  - intros H a. assert (Q : (Z.abs (icoord a (idx_of c) - icoord a (idx_of p)) < 2)%Z).
    { destruct (Z.lt_ge_cases (Z.abs (icoord a (idx_of c) - icoord a (idx_of p))) 2); [assumption|]. exfalso. apply H. exists a. assumption. }
    split; apply Z.mul_le_mono_nonneg_r; lia.
  - intros H (a & Q). destruct (H a) as [H1 H2]. apply Z.mul_le_mono_pos_r in H1; [|assumption]. apply Z.mul_le_mono_pos_r in H2; [|assumption]. lia.
Qed.
Lemma near_well_sep_asym : forall c p, length p <= length c -> (well_sep_asym (idx_of c) (idx_of p) = false <-> near c p).
Proof.
  intros c p L. rewrite <- not_true_iff_false, asym_clear by (rewrite !idx_level; lia). unfold near, touch, clear_of. rewrite !idx_level.
  assert (P : (0 < 2 ^ Z.of_nat (length p))%Z) by (apply Z.pow_pos_nonneg; lia).
  assert (E : (2 ^ Z.of_nat (length c) = 2 ^ (Z.of_nat (length c) - Z.of_nat (length p)) * 2 ^ Z.of_nat (length p))%Z) by (rewrite <- Z.pow_add_r by lia; f_equal; lia).
  rewrite E. set (d := (2 ^ (Z.of_nat (length c) - Z.of_nat (length p)))%Z). set (u := (2 ^ Z.of_nat (length p))%Z) in *. cbn zeta. split.
  - intros H a. assert (Q : (icoord a (idx_of c) <= (icoord a (idx_of p) + 1) * d /\ icoord a (idx_of p) * d <= icoord a (idx_of c) + 1)%Z).
    { destruct (Z.le_gt_cases (icoord a (idx_of c)) ((icoord a (idx_of p) + 1) * d)) as [H1|H1]; [destruct (Z.le_gt_cases (icoord a (idx_of p) * d) (icoord a (idx_of c) + 1)) as [H2|H2]; [auto|]|]; exfalso; apply H; (split; [lia|]); exists a; lia. }
    destruct Q as [Q1 Q2]. rewrite !Z.mul_assoc. split; apply Z.mul_le_mono_nonneg_r; lia.
  - intros H (_ & a & Q). destruct (H a) as [H1 H2]. rewrite !Z.mul_assoc in H1, H2. apply Z.mul_le_mono_pos_r in H1; [|assumption]. apply Z.mul_le_mono_pos_r in H2; [|assumption]. lia.
Qed.
Lemma child_coord : forall a n i, n < 8 -> (2 * icoord a i <= icoord a (child (Z.of_nat n) i) <= 2 * icoord a i + 1)%Z /\ ilevel (child (Z.of_nat n) i) = (ilevel i + 1)%Z.
Proof.
  intros a n i H. split; [|reflexivity]. assert (Hn : n = 0 \/ n = 1 \/ n = 2 \/ n = 3 \/ n = 4 \/ n = 5 \/ n = 6 \/ n = 7) by lia.
  unfold child. destruct a; cbn [icoord ix iy iz]; decompose [or] Hn; subst n; cbn; lia.
Qed.
(** What touches a box touches the box around it. *)
Lemma near_up : forall c v p, v < 8 -> near (c ++ [v]) p -> near c p.
Proof.
  intros c v p V8 H a. destruct (H a) as [H1 H2]. rewrite idx_snoc in *. destruct (child_coord a v (idx_of c) V8) as [C E]. rewrite E in *. rewrite !idx_level in *.
  replace (2 ^ (Z.of_nat (length c) + 1))%Z with (2 * 2 ^ Z.of_nat (length c))%Z in * by (rewrite Z.pow_add_r by lia; lia).
  assert (P1 : (0 < 2 ^ Z.of_nat (length c))%Z) by (apply Z.pow_pos_nonneg; lia). assert (P2 : (0 < 2 ^ Z.of_nat (length p))%Z) by (apply Z.pow_pos_nonneg; lia).
  set (u := (2 ^ Z.of_nat (length c))%Z) in *. set (v' := (2 ^ Z.of_nat (length p))%Z) in *. split; nia.
Qed.
Lemma near_prefix : forall c d p, Forall (fun w => w < 8) d -> prefix c d -> near d p -> near c p.
Proof.
  intros c d p F [r ->]. induction r as [|w r IH] using rev_ind; intros H; [rewrite app_nil_r in H; exact H|].
  rewrite app_assoc in H, F. apply Forall_app in F. destruct F as [F1 F2]. inversion F2; subst. apply IH; [assumption|]. eapply near_up; eassumption.
Qed.
Lemma prefix_parent : forall (c : path), prefix (parent_of c) c.
Proof. intros c. destruct c as [|x c _] using rev_ind; [exists []; reflexivity|]. rewrite parent_snoc. exists [x]. reflexivity. Qed.

Section Cons.
Context {A B : Type} (m : method A B) (unif : nat) (same : bool) (S : tree A) (T : tree B) (HS8 : eight S) (HT8 : eight T).
(** What is handed on of one element of [consider]. *)
Definition onward (p : path) (x : path * tree A) : list (path * tree A) :=
  if length (fst x) <? length p then if well_sep_asym (idx_of p) (idx_of (fst x)) then [] else [x]
  else if well_sep (idx_of (fst x)) (idx_of p) then [] else descend x.
Context (Hproc : forall n cons a2 new, process m n cons false = Ok (a2, new) -> new = flat_map (onward (fst n)) cons).
Let V := vis m unif same S T.

Definition considered (p c : path) : Prop :=
  (length c = length p /\ (p = [] \/ near (parent_of c) (parent_of p))) \/ (length c < length p /\ leaf_at S c /\ near c (parent_of p)).

Lemma sub_lt8 : forall X (t : tree X) c, eight t -> sub t c <> None -> Forall (fun w => w < 8) c.
Proof. intros X t c E H. destruct (sub t c) as [n|] eqn:K; [|contradiction]. eapply path_lt8; eassumption. Qed.
Lemma near_parent_l : forall c p, sub S c <> None -> near c p -> near (parent_of c) p.
Proof. intros c p Sc H. eapply near_prefix; [eapply sub_lt8; [exact HS8|exact Sc]|apply prefix_parent|exact H]. Qed.
Lemma near_parent_r : forall c p, sub T p <> None -> near c p -> near c (parent_of p).
Proof. intros c p Tp H. apply near_sym. eapply near_prefix; [eapply sub_lt8; [exact HT8|exact Tp]|apply prefix_parent|apply near_sym; exact H]. Qed.
Lemma considered_near : forall p c, sub T p <> None -> sub S c <> None -> length c = length p -> near c p -> considered p c.
Proof.
  intros p c Tp Sc L N. left. split; [assumption|]. right. apply near_parent_l; [assumption|]. apply near_parent_r; assumption.
Qed.

Lemma cons_iff : forall n pi cons acc, V n pi cons acc -> forall x, In x cons <-> sub S (fst x) = Some (snd x) /\ considered (fst n) (fst x).
Proof.
  intros n pi cons acc H. pose proof H as G. unfold V, vis in H. induction H as [|n pi cons acc a2 cons' k H IH R P I]; intros x.
  - split.
    + intros [<-|[]]. split; [reflexivity|]. left. auto.
    + intros (Sx & [(L & _)|(L & _)]); cbn [fst] in L; [|cbn in L; lia]. destruct x as [c t]. cbn [fst snd] in *. destruct c; [|discriminate L]. cbn in Sx. injection Sx as <-. left. reflexivity.
  - specialize (IH H). pose proof (stops_sub m unif same S T _ _ _ _ H) as Sn. pose proof (stops_sub m unif same S T _ _ _ _ G) as Sk.
    destruct k as [q u]. apply children_in in I. destruct I as (w & W8 & K & ->). cbn [fst snd] in *.
    rewrite (Hproc _ _ _ _ P), in_flat_map. unfold considered at 1. rewrite parent_snoc, app_length. cbn [length].
    assert (Tn : sub T (fst n) <> None) by congruence. set (p := fst n) in *. split.
    + intros (y & Iy & Ix). apply IH in Iy. destruct Iy as [Sy Cy]. unfold onward in Ix. destruct (Nat.ltb_spec (length (fst y)) (length p)) as [L|L].
      * destruct (well_sep_asym (idx_of p) (idx_of (fst y))) eqn:W; [destruct Ix|]. destruct Ix as [<-|[]]. split; [exact Sy|]. right.
        apply near_well_sep_asym in W; [|lia]. destruct Cy as [[L' _]|(_ & Ly & _)]; [lia|]. split; [lia|]. split; [exact Ly|]. apply near_sym. exact W.
      * assert (Ly : length (fst y) = length p) by (destruct Cy as [[L' _]|[L' _]]; lia). destruct (well_sep (idx_of (fst y)) (idx_of p)) eqn:W; [destruct Ix|].
        apply near_well_sep in W; [|exact Ly]. destruct (descend_in S HS8 y x Sy Ix) as [[J Lf]|[-> Lf]].
        -- destruct x as [c t]. pose proof (valid_children S y Sy _ J) as Sc. apply children_in in J. destruct J as (v & V8 & Kv & ->). cbn [fst snd] in *. split; [exact Sc|]. left. rewrite app_length, parent_snoc. cbn. split; [lia|]. right. exact W.
        -- split; [exact Sy|]. right. split; [lia|]. split; [apply (leaf_iff _ _ _ _ HS8 Sy); exact Lf|exact W].
    + intros (Sx & C). destruct C as [[L [N|N]]|(L & Lf & N)].
      * destruct p; discriminate N.
      * destruct (list_eq_dec Nat.eq_dec (fst x) []) as [E|Ne]; [rewrite E in L; cbn in L; lia|]. destruct (snoc_parent (fst x) Ne) as [v Ev]. set (c0 := parent_of (fst x)) in *.
        rewrite Ev, app_length in L. cbn [length] in L. rewrite Ev, sub_app in Sx. destruct (sub S c0) as [t0|] eqn:S0; [|discriminate Sx]. cbn in Sx. destruct (kid t0 v) as [t'|] eqn:Kv; [|discriminate Sx]. injection Sx as Sx.
        exists (c0, t0). split; [apply IH; split; [exact S0|]; cbn [fst]; apply considered_near; [exact Tn|congruence|lia|exact N]|].
        unfold onward. cbn [fst]. replace (length c0 <? length p) with false by (symmetry; apply Nat.ltb_ge; lia). apply near_well_sep in N; [|lia]. rewrite N. apply kids_descend.
        destruct x as [c t]. cbn [fst snd] in *. rewrite Ev. apply children_in. exists v. cbn [fst snd]. split; [eapply kid_lt8; [exact (HS8 _ _ S0)|exact Kv]|]. split; [congruence|reflexivity].
      * exists x. destruct (Nat.eq_dec (length (fst x)) (length p)) as [E|Ne].
        -- split; [apply IH; split; [exact Sx|]; apply considered_near; [exact Tn|congruence|exact E|exact N]|]. unfold onward. rewrite E, Nat.ltb_irrefl. apply near_well_sep in N; [|exact E]. rewrite N.
           apply (leaf_iff _ _ _ _ HS8 Sx) in Lf. unfold descend. rewrite (proj2 (children_nil _ x (HS8 _ _ Sx)) Lf). left. reflexivity.
        -- split; [apply IH; split; [exact Sx|]; right; split; [lia|]; split; [exact Lf|apply near_parent_r; assumption]|]. unfold onward. replace (length (fst x) <? length p) with true by (symmetry; apply Nat.ltb_lt; lia).
           apply near_sym in N. apply near_well_sep_asym in N; [|lia]. rewrite N. left. reflexivity.
Qed.
End Cons.

(** ** The recursion at a target the method stops at *)
Section Pcr.
Context {A : Type} (S : tree A) (HS8 : eight S).
Lemma pcr_iff : forall fuel p n l, sub S (fst n) = Some (snd n) -> length p <= length (fst n) -> proc_coll_recur fuel p n = Ok l -> forall e, In (Link e) l <->
  exists c, prefix (fst n) c /\ ((sub S c <> None /\ ~ near c p /\ (c = fst n \/ near (parent_of c) p) /\ e = mkEdge MtoT (src c, Normal) (tgt p, Parts)) \/
                                 (leaf_at S c /\ near c p /\ e = mkEdge StoT (src c, Parts) (tgt p, Parts))).
Proof.
  induction fuel as [|fuel IH]; intros p n l Sn L H e; [discriminate H|]. cbn [proc_coll_recur] in H. pose proof (near_well_sep_asym (fst n) p L) as W.
  assert (Up : forall c, prefix (fst n) c -> sub S c <> None -> near c p -> near (fst n) p) by (intros c P Sc N; eapply near_prefix; [eapply sub_lt8; [exact HS8|exact Sc]|exact P|exact N]).
  assert (Lo : forall c, prefix (fst n) c -> c = fst n \/ prefix (fst n) (parent_of c)).
  { intros c [r ->]. destruct r as [|v r _] using rev_ind; [left; apply app_nil_r|]. right. rewrite app_assoc, parent_snoc. exists r. reflexivity. }
  assert (Sp : forall c, sub S c <> None -> sub S (parent_of c) <> None).
  { intros c Sc. destruct (prefix_parent c) as [r Er]. rewrite Er, sub_app in Sc. destruct (sub S (parent_of c)); [discriminate|congruence]. }
  destruct (well_sep_asym (idx_of (fst n)) (idx_of p)) eqn:E.
  - injection H as <-. assert (N : ~ near (fst n) p) by (intros X; apply W in X; discriminate X). split.
    + intros [J|[]]. injection J as <-. exists (fst n). split; [exists []; rewrite app_nil_r; reflexivity|]. left. repeat split; auto. congruence.
    + intros (c & Pc & [(Sc & Nc & [->|Pn] & ->)|(Lc & Nc & ->)]).
      * left. reflexivity.
      * destruct (Lo c Pc) as [->|Q]; [left; reflexivity|]. exfalso. apply N. eapply Up; [exact Q|apply Sp; exact Sc|exact Pn].
      * exfalso. apply N. eapply Up; [exact Pc|apply leaf_sub; exact Lc|exact Nc].
  - assert (N : near (fst n) p) by (apply W; reflexivity). clear W E. destruct (is_leaf (snd n)) eqn:Lf.
    + injection H as <-. pose proof (proj2 (leaf_iff _ _ _ _ HS8 Sn) Lf) as Ln. split.
      * intros [J|[]]. injection J as <-. exists (fst n). split; [exists []; rewrite app_nil_r; reflexivity|]. right. auto.
      * intros (c & Pc & [(Sc & Nc & _ & ->)|(Lc & Nc & ->)]).
        -- exfalso. apply Nc. rewrite <- (leaf_prefix S (fst n) c Ln Sc Pc). exact N.
        -- rewrite <- (leaf_prefix S (fst n) c Ln (leaf_sub _ _ Lc) Pc). left. reflexivity.
    + destruct (mapM (proc_coll_recur fuel p) (children n)) as [r|] eqn:M; [|discriminate H]. cbn in H. injection H as <-. rewrite (mapM_concat_in _ _ _ _ _ M). split.
      * intros (k & ys & Ik & Hk & Iy). pose proof (valid_children S n Sn _ Ik) as Sk. destruct k as [q t]. apply children_in in Ik. destruct Ik as (w & W8 & Kw & ->). cbn [fst snd] in *.
        apply (IH p (fst n ++ [w], t) ys) in Iy; [|exact Sk|cbn [fst]; rewrite app_length; lia|exact Hk]. cbn [fst] in Iy. destruct Iy as (c & [r' ->] & D). exists ((fst n ++ [w]) ++ r'). split; [exists (w :: r'); rewrite <- app_assoc; reflexivity|].
        destruct D as [(Sc & Nc & Pn & ->)|D]; [left|right; exact D]. repeat split; auto. right. destruct Pn as [Eq|Pn]; [|exact Pn]. rewrite Eq, parent_snoc. exact N.
      * intros (c & Pc & D). assert (Sc : sub S c <> None) by (destruct D as [(Sc & _)|(Lc & _)]; [exact Sc|apply leaf_sub; exact Lc]). destruct Pc as [[|w r'] ->].
        -- exfalso. rewrite app_nil_r in *. destruct D as [(_ & Nc & _)|(Lc & _)]; [contradiction|]. apply (leaf_iff _ _ _ _ HS8 Sn) in Lc. congruence.
        -- rewrite sub_app, Sn in Sc. cbn in Sc. destruct (kid (snd n) w) as [k|] eqn:Kw; [|congruence].
           assert (W8 : w < 8) by (eapply kid_lt8; [exact (HS8 _ _ Sn)|exact Kw]). assert (Ik : In (fst n ++ [w], k) (children n)) by (apply children_in; exists w; auto).
           destruct (mapM_each _ _ _ _ _ _ M Ik) as (ys & Hys). exists (fst n ++ [w], k), ys. split; [exact Ik|]. split; [exact Hys|].
           apply (IH p (fst n ++ [w], k) ys); [exact (valid_children S n Sn _ Ik)|cbn [fst]; rewrite app_length; lia|exact Hys|]. cbn [fst]. exists (fst n ++ w :: r'). split; [exists r'; rewrite <- app_assoc; reflexivity|].
           destruct D as [(Sc' & Nc & Pn & ->)|D]; [left|right; exact D]. repeat split; auto.
           destruct Pn as [Eq|Pn]; [apply (f_equal (@length nat)) in Eq; rewrite app_length in Eq; cbn in Eq; lia|]. right. exact Pn.
Qed.
End Pcr.

(** ** The links made at one target box *)
Section Links.
Context {A B : Type} (S : tree A) (T : tree B) (HS8 : eight S) (HT8 : eight T) (fuel unif : nat) (same : bool).
Let listed (p : path) (x : path * tree A) : Prop := sub S (fst x) = Some (snd x) /\ considered S p (fst x).

Lemma idx_inj : forall c p, Forall (fun w => w < 8) c -> Forall (fun w => w < 8) p -> length c = length p -> ix (idx_of c) = ix (idx_of p) -> iy (idx_of c) = iy (idx_of p) -> iz (idx_of c) = iz (idx_of p) -> c = p.
Proof.
  intros c p Fc Fp L X Y Z. apply (follow_inj c p root_index root_grid Fc Fp L). fold (idx_of c). fold (idx_of p). pose proof (idx_level c) as Lc. pose proof (idx_level p) as Lp. rewrite L in Lc. destruct (idx_of c), (idx_of p). cbn in *. congruence.
Qed.
Lemma near_refl : forall p, near p p.
Proof. intros p a. assert (0 < 2 ^ ilevel (idx_of p))%Z by (rewrite idx_level; apply Z.pow_pos_nonneg; lia). split; apply Z.mul_le_mono_nonneg_r; lia. Qed.
Lemma prefix_nil_or : forall p c : path, length c = length p -> p = [] -> c = [].
Proof. intros p c L ->. destruct c; [reflexivity|discriminate L]. Qed.

Lemma V_iff : forall p c, list_V S p c <-> exists t, listed p (c, t) /\ length c = length p /\ ~ near c p.
Proof.
  intros p c. unfold list_V, listed, considered. cbn [fst snd]. split.
  - intros (Sc & L & N & P). destruct (sub S c) as [t|]; [|congruence]. exists t. split; [split; [reflexivity|left; auto]|auto].
  - intros (t & (Sc & D) & L & N). split; [congruence|]. split; [assumption|]. split; [assumption|]. destruct D as [[_ [E|D]]|[L' _]]; [|exact D|lia].
    exfalso. apply N. rewrite (prefix_nil_or p c L E), E. apply near_refl.
Qed.
Lemma X_iff : forall p c, list_X S p c <-> exists t, listed p (c, t) /\ length c < length p /\ ~ near c p.
Proof.
  intros p c. unfold list_X, listed, considered. cbn [fst snd]. split.
  - intros (Lc & L & N & P). pose proof Lc as (t & Sc & _). exists t. split; [split; [exact Sc|right; auto]|auto].
  - intros (t & (Sc & D) & L & N). destruct D as [[L' _]|(_ & Lc & P)]; [lia|]. auto.
Qed.
Lemma under : forall p c : path, length p <= length c -> exists x, prefix x c /\ length x = length p.
Proof. intros p c L. exists (firstn (length p) c). split; [exists (skipn (length p) c); symmetry; apply firstn_skipn|apply firstn_length_le; exact L]. Qed.
Lemma sub_prefix : forall x c, prefix x c -> sub S c <> None -> exists t, sub S x = Some t.
Proof. intros x c [r ->] H. rewrite sub_app in H. destruct (sub S x) as [t|]; [eauto|congruence]. Qed.
Lemma W_iff : forall p c, sub T p <> None -> (list_W S p c <-> exists x t, listed p (x, t) /\ length x = length p /\ near x p /\ prefix x c /\ sub S c <> None /\ ~ near c p /\ (c = x \/ near (parent_of c) p)).
Proof.
  intros p c Tp. unfold list_W. split.
  - intros (Sc & L & N & P). destruct (under p c) as (x & Px & Lx); [lia|]. destruct (sub_prefix x c Px Sc) as [t Sx]. exists x, t.
    assert (Nx : near x p).
    { eapply near_prefix; [|  |exact P].
      - eapply sub_lt8; [exact HS8|]. destruct (sub_prefix _ _ (prefix_parent c) Sc) as [t' ->]. discriminate.
      - destruct Px as [r ->]. destruct r as [|v r _] using rev_ind; [rewrite app_nil_r in L; lia|]. rewrite app_assoc, parent_snoc. exists r. reflexivity. }
    split; [split; [exact Sx|]; cbn [fst]; eapply considered_near; [exact HS8|exact HT8|exact Tp|congruence|exact Lx|exact Nx]|]. auto 10.
  - intros (x & t & _ & Lx & Nx & Px & Sc & N & D). split; [assumption|]. assert (Ne : c <> x) by (intros ->; contradiction). split; [|split; [assumption|destruct D; [contradiction|assumption]]].
    destruct Px as [[|v r] ->]; [rewrite app_nil_r in Ne; contradiction|]. rewrite app_length. cbn. lia.
Qed.
Lemma U_iff : forall p c, sub T p <> None -> (list_U S p c <-> (exists t, listed p (c, t) /\ length c < length p /\ near c p) \/
  exists x t, listed p (x, t) /\ length x = length p /\ near x p /\ prefix x c /\ leaf_at S c /\ near c p).
Proof.
  intros p c Tp. unfold list_U. split.
  - intros (Lc & N). destruct (Nat.lt_ge_cases (length c) (length p)) as [L|L].
    + left. pose proof Lc as (t & Sc & _). exists t. split; [|auto]. split; [exact Sc|]. right. cbn [fst]. split; [assumption|]. split; [assumption|]. eapply near_parent_r; eassumption.
    + right. pose proof (leaf_sub _ _ Lc) as Sc. destruct (under p c L) as (x & Px & Lx). destruct (sub_prefix x c Px Sc) as [t Sx]. exists x, t.
      assert (Nx : near x p) by (eapply near_prefix; [eapply sub_lt8; [exact HS8|exact Sc]|exact Px|exact N]).
      split; [split; [exact Sx|]; cbn [fst]; eapply considered_near; [exact HS8|exact HT8|exact Tp|congruence|exact Lx|exact Nx]|]. auto 10.
  - intros [(t & (_ & [[L' _]|(_ & Lc & _)]) & L & N)|(x & t & _ & _ & _ & _ & Lc & N)]; [cbn [fst] in *; lia|auto|auto].
Qed.

(** The links to one considered source box at a target the method stops at. *)
Definition near_links (p : path) (x : path * tree A) (e : edge) : Prop :=
  (length (fst x) < length p /\ near (fst x) p /\ e = mkEdge StoT (src (fst x), Parts) (tgt p, Parts)) \/
  (length (fst x) = length p /\ near (fst x) p /\ exists c, prefix (fst x) c /\
     ((sub S c <> None /\ ~ near c p /\ (c = fst x \/ near (parent_of c) p) /\ e = mkEdge MtoT (src c, Normal) (tgt p, Parts)) \/
      (leaf_at S c /\ near c p /\ e = mkEdge StoT (src c, Parts) (tgt p, Parts)))).
Definition far_links (p : path) (mtol : bool) (x : path * tree A) (e : edge) : Prop :=
  (length (fst x) < length p /\ ~ near (fst x) p /\ e = mkEdge StoL (src (fst x), Parts) (tgt p, Normal)) \/
  (mtol = true /\ length (fst x) = length p /\ ~ near (fst x) p /\ e = mkEdge MtoL (src (fst x), Normal) (tgt p, Normal)).

Lemma listed_le : forall p x, listed p x -> length (fst x) <= length p.
Proof. intros p x (_ & [[L _]|[L _]]); lia. Qed.
Lemma asym_sym : forall p c, length c < length p -> (well_sep_asym (idx_of p) (idx_of c) = false <-> near c p).
Proof. intros p c L. rewrite near_well_sep_asym by lia. split; apply near_sym. Qed.
Ltac one := match goal with |- In (Link ?e) [?a] <-> _ => split; [intros [J|[]]; injection J as <-|] end.
Lemma fmm_leaf_iff : forall p x l, listed p x -> fmm_leaf fuel p x = Ok l -> forall e, In (Link e) l <-> far_links p true x e \/ near_links p x e.
Proof.
  intros p x l Lx H e. pose proof (listed_le _ _ Lx) as Le. unfold fmm_leaf in H. rewrite level_ltb in H. unfold far_links, near_links. destruct (Nat.ltb_spec (length (fst x)) (length p)) as [L|L].
  - pose proof (asym_sym p (fst x) L) as W. destruct (well_sep_asym (idx_of p) (idx_of (fst x))).
    + assert (N : ~ near (fst x) p) by (intros X; apply W in X; discriminate X). injection H as <-. one; [left; left; auto|]. intros [[(_ & _ & ->)|(_ & L' & _)]|[(_ & X & _)|(L' & _)]]; [left; reflexivity|lia|contradiction|lia].
    + assert (N : near (fst x) p) by (apply W; reflexivity). injection H as <-. one; [right; left; auto|]. intros [[(_ & X & _)|(_ & L' & _)]|[(_ & _ & ->)|(L' & _)]]; [contradiction|lia|left; reflexivity|lia].
  - assert (El : length (fst x) = length p) by lia. pose proof (near_well_sep (fst x) p El) as W. destruct (well_sep (idx_of (fst x)) (idx_of p)).
    + assert (N : ~ near (fst x) p) by (intros X; apply W in X; discriminate X). injection H as <-. one; [left; right; auto|]. intros [[(L' & _)|(_ & _ & _ & ->)]|[(L' & _)|(_ & X & _)]]; [lia|left; reflexivity|lia|contradiction].
    + assert (N : near (fst x) p) by (apply W; reflexivity). rewrite (pcr_iff S HS8 fuel p x l (proj1 Lx)) by (try assumption; lia). split.
      * intros D. right. right. auto.
      * intros [[(L' & _)|(_ & _ & X & _)]|[(L' & _)|(_ & _ & D)]]; [lia|contradiction|lia|exact D].
Qed.
Lemma fmm97_leaf_iff : forall p x l, listed p x -> fmm97_leaf fuel p x = Ok l -> forall e, In (Link e) l <-> far_links p false x e \/ near_links p x e.
Proof.
  intros p x l Lx H e. pose proof (listed_le _ _ Lx) as Le. unfold fmm97_leaf in H. rewrite level_ltb in H. unfold far_links, near_links. destruct (Nat.ltb_spec (length (fst x)) (length p)) as [L|L].
  - pose proof (asym_sym p (fst x) L) as W. destruct (well_sep_asym (idx_of p) (idx_of (fst x))).
    + assert (N : ~ near (fst x) p) by (intros X; apply W in X; discriminate X). injection H as <-. one; [left; left; auto|]. intros [[(_ & _ & ->)|(X & _)]|[(_ & X & _)|(L' & _)]]; [left; reflexivity|discriminate X|contradiction|lia].
    + assert (N : near (fst x) p) by (apply W; reflexivity). injection H as <-. one; [right; left; auto|]. intros [[(_ & X & _)|(X & _)]|[(_ & _ & ->)|(L' & _)]]; [contradiction|discriminate X|left; reflexivity|lia].
  - assert (El : length (fst x) = length p) by lia. pose proof (near_well_sep (fst x) p El) as W. destruct (well_sep (idx_of (fst x)) (idx_of p)); cbn [negb] in H.
    + assert (N : ~ near (fst x) p) by (intros X; apply W in X; discriminate X). injection H as <-. split; [intros []|]. intros [[(L' & _)|(X & _)]|[(L' & _)|(_ & X & _)]]; [lia|discriminate X|lia|contradiction].
    + assert (N : near (fst x) p) by (apply W; reflexivity). rewrite (pcr_iff S HS8 fuel p x l (proj1 Lx)) by (try assumption; lia). split.
      * intros D. right. right. auto.
      * intros [[(L' & _)|(X & _)]|[(L' & _)|(_ & _ & D)]]; [lia|discriminate X|lia|exact D].
Qed.
Lemma fmm_inner_iff : forall p x, listed p x -> forall e, In (Link e) (fst (fmm_inner p x)) <-> far_links p true x e.
Proof.
  intros p x Lx e. pose proof (listed_le _ _ Lx) as Le. unfold fmm_inner. rewrite level_ltb. unfold far_links. destruct (Nat.ltb_spec (length (fst x)) (length p)) as [L|L].
  - pose proof (asym_sym p (fst x) L) as W. destruct (well_sep_asym (idx_of p) (idx_of (fst x))); cbn [fst].
    + assert (N : ~ near (fst x) p) by (intros X; apply W in X; discriminate X). one; [left; auto|]. intros [(_ & _ & ->)|(_ & L' & _)]; [left; reflexivity|lia].
    + assert (N : near (fst x) p) by (apply W; reflexivity). split; [intros []|]. intros [(_ & X & _)|(_ & L' & _)]; [contradiction|lia].
  - assert (El : length (fst x) = length p) by lia. pose proof (near_well_sep (fst x) p El) as W. destruct (well_sep (idx_of (fst x)) (idx_of p)); cbn [fst].
    + assert (N : ~ near (fst x) p) by (intros X; apply W in X; discriminate X). one; [right; auto|]. intros [(L' & _)|(_ & _ & _ & ->)]; [lia|left; reflexivity].
    + assert (N : near (fst x) p) by (apply W; reflexivity). split; [intros []|]. intros [(L' & _)|(_ & _ & X & _)]; [lia|contradiction].
Qed.
Lemma fmm97_inner_iff : forall p x, listed p x -> forall e, In (Link e) (fst (fst (fmm97_inner p x))) <-> far_links p false x e.
Proof.
  intros p x Lx e. pose proof (listed_le _ _ Lx) as Le. unfold fmm97_inner. rewrite level_ltb. unfold far_links. destruct (Nat.ltb_spec (length (fst x)) (length p)) as [L|L].
  - pose proof (asym_sym p (fst x) L) as W. destruct (well_sep_asym (idx_of p) (idx_of (fst x))); cbn [fst].
    + assert (N : ~ near (fst x) p) by (intros X; apply W in X; discriminate X). one; [left; auto|]. intros [(_ & _ & ->)|(X & _)]; [left; reflexivity|discriminate X].
    + assert (N : near (fst x) p) by (apply W; reflexivity). split; [intros []|]. intros [(_ & X & _)|(X & _)]; [contradiction|discriminate X].
  - destruct (negb (well_sep (idx_of (fst x)) (idx_of p))); cbn [fst]; (split; [intros []|]); intros [(L' & _)|(X & _)]; [lia|discriminate X|lia|discriminate X].
Qed.

(** Over all considered boxes these are the lists. *)
Lemma far_all : forall p mtol e, (exists x, listed p x /\ far_links p mtol x e) <->
  (exists c, list_X S p c /\ e = mkEdge StoL (src c, Parts) (tgt p, Normal)) \/ (mtol = true /\ exists c, list_V S p c /\ e = mkEdge MtoL (src c, Normal) (tgt p, Normal)).
Proof.
  intros p mtol e. unfold far_links. split.
  - intros ([c t] & Lx & [(L & N & ->)|(M & L & N & ->)]); cbn [fst] in *; [left|right; split; [exact M|]]; exists c; (split; [|reflexivity]); [apply X_iff|apply V_iff]; eauto.
  - intros [(c & H & ->)|(M & c & H & ->)]; [apply X_iff in H|apply V_iff in H]; destruct H as (t & Lx & L & N); exists (c, t); cbn [fst]; auto 10.
Qed.
Lemma near_all : forall p e, sub T p <> None -> (exists x, listed p x /\ near_links p x e) <->
  (exists c, list_W S p c /\ e = mkEdge MtoT (src c, Normal) (tgt p, Parts)) \/ (exists c, list_U S p c /\ e = mkEdge StoT (src c, Parts) (tgt p, Parts)).
Proof.
  intros p e Tp. unfold near_links. split.
  - intros ([x t] & Lx & [(L & N & ->)|(L & N & c & Pc & [(Sc & Nc & D & ->)|(Lc & Nc & ->)])]); cbn [fst] in *.
    + right. exists x. split; [|reflexivity]. apply U_iff; [exact Tp|]. left. eauto.
    + left. exists c. split; [|reflexivity]. apply W_iff; [exact Tp|]. exists x, t. auto 10.
    + right. exists c. split; [|reflexivity]. apply U_iff; [exact Tp|]. right. exists x, t. auto 10.
  - intros [(c & H & ->)|(c & H & ->)].
    + apply W_iff in H; [|exact Tp]. destruct H as (x & t & Lx & L & N & Px & Sc & Nc & D). exists (x, t). split; [exact Lx|]. right. cbn [fst]. split; [exact L|]. split; [exact N|]. exists c. auto 10.
    + apply U_iff in H; [|exact Tp]. destruct H as [(t & Lx & L & N)|(x & t & Lx & L & N & Px & Lc & Nc)].
      * exists (c, t). split; [exact Lx|]. left. auto.
      * exists (x, t). split; [exact Lx|]. right. cbn [fst]. split; [exact L|]. split; [exact N|]. exists c. auto 10.
Qed.
(** What is merged. *)
Lemma I_iff : forall p c, sub T p <> None -> (list_I S p c <-> exists x t, listed p x /\ In (c, t) (snd (fmm97_inner p x))).
Proof.
  intros p c Tp. unfold list_I. split.
  - intros (Sc & L & L1 & N & Ne). destruct (list_eq_dec Nat.eq_dec c []) as [E|Nc]; [rewrite E in L; discriminate L|]. destruct (snoc_parent c Nc) as [v Ev]. set (c0 := parent_of c) in *.
    rewrite Ev, sub_app in Sc. destruct (sub S c0) as [t0|] eqn:S0; [|congruence]. cbn in Sc. destruct (kid t0 v) as [t|] eqn:K; [|congruence]. rewrite Ev, app_length in L. cbn [length] in L.
    exists (c0, t0), t. split; [split; [exact S0|]; cbn [fst]; eapply considered_near; [exact HS8|exact HT8|exact Tp|congruence|lia|exact N]|].
    unfold fmm97_inner. cbn [fst]. rewrite level_ltb. replace (length c0 <? length p) with false by (symmetry; apply Nat.ltb_ge; lia). apply near_well_sep in N; [|lia]. rewrite N. cbn [negb snd].
    match goal with |- In _ (if ?b then _ else _) => assert (E : b = true) end.
    { apply andb_true_iff. split; [unfold level; rewrite idx_level; apply Z.leb_le; lia|]. apply not_false_iff_true. intros E. rewrite !orb_false_iff, !negb_false_iff, !Z.eqb_eq in E. destruct E as [[E1 E2] E3].
      apply Ne. apply idx_inj; auto; [eapply sub_lt8; [exact HS8|congruence]|eapply sub_lt8; [exact HT8|exact Tp]|lia]. }
    rewrite E. rewrite Ev. apply children_in. exists v. cbn [fst snd]. split; [eapply kid_lt8; [exact (HS8 _ _ S0)|exact K]|auto].
  - intros ([x t0] & t & Lx & I). pose proof (listed_le _ _ Lx) as Le. unfold fmm97_inner in I. cbn [fst] in *. rewrite level_ltb in I. destruct (Nat.ltb_spec (length x) (length p)) as [L|L]; [destruct (well_sep_asym (idx_of p) (idx_of x)); destruct I|].
    assert (El : length x = length p) by lia. pose proof (near_well_sep x p El) as W. destruct (well_sep (idx_of x) (idx_of p)); cbn [negb snd] in I; [destruct I|].
    match type of I with In _ (if ?b then _ else _) => destruct b eqn:E; [|destruct I] end. pose proof (valid_children S (x, t0) (proj1 Lx) _ I) as Sc. apply children_in in I. destruct I as (v & V8 & K & ->). cbn [fst snd] in *.
    apply andb_true_iff in E. destruct E as [E1 E2]. unfold level in E1. rewrite idx_level in E1. apply Z.leb_le in E1. split; [congruence|]. rewrite app_length, parent_snoc. cbn [length]. split; [lia|]. split; [lia|]. split; [apply W; reflexivity|].
    intros ->. rewrite !Z.eqb_refl in E2. discriminate E2.
Qed.
End Links.

(** ** The whole edge sets *)
Section Edges.
Context {A B : Type} (S : tree A) (T : tree B) (HS8 : eight S) (HT8 : eight T) (fuel unif : nat) (same : bool).
Context (HSl : lower fuel S) (HTl : lower fuel T) (HSd : deep unif S) (HTd : deep unif T).

Lemma slink_iff : forall isrc e, (exists p n, sub S p = Some n /\ slink lev2 isrc p n e) <->
  (exists c, leaf_at S c /\ 2 <= length c /\ e = mkEdge StoM (src c, Parts) (src c, Normal)) \/
  (exists c w, sub S (c ++ [w]) <> None /\ 2 <= length c /\ e = mkEdge MtoM (src (c ++ [w]), Normal) (src c, Normal)) \/
  (exists c, sub S c <> None /\ isrc c = true /\ e = mkEdge MtoI (src c, Normal) (src c, Interm)).
Proof.
  intros isrc e. split.
  - intros (p & n & Sp & [(-> & L & M)|[(w & K & -> & M)|(-> & I)]]).
    + left. exists p. split; [apply (leaf_iff _ _ _ _ HS8 Sp); exact L|]. split; [apply lev2_iff; exact M|reflexivity].
    + right. left. exists p, w. split; [rewrite sub_app, Sp; cbn; destruct (kid n w); [discriminate|congruence]|]. split; [apply lev2_iff; exact M|reflexivity].
    + right. right. exists p. split; [congruence|]. auto.
  - intros [(c & L & M & ->)|[(c & w & Sc & M & ->)|(c & Sc & I & ->)]].
    + pose proof L as (n & Sn & _). exists c, n. split; [exact Sn|]. left. split; [reflexivity|]. split; [apply (leaf_iff _ _ _ _ HS8 Sn); exact L|apply lev2_iff; exact M].
    + rewrite sub_app in Sc. destruct (sub S c) as [n|] eqn:Sn; [|congruence]. exists c, n. split; [exact Sn|]. right. left. exists w. split; [|split; [reflexivity|apply lev2_iff; exact M]]. cbn in Sc. destruct (kid n w); [discriminate|congruence].
    + destruct (sub S c) as [n|] eqn:Sn; [|congruence]. exists c, n. split; [exact Sn|]. right. right. auto.
Qed.
Lemma inh_iff : forall p pi b e, In (Link e) (inh lev2 p pi b) <->
  (exists p0 w, p = p0 ++ [w] /\ 2 <= length p /\ pi = true /\ e = mkEdge ItoL (tgt p0, Interm) (tgt p, Normal)) \/
  (exists p0 w, p = p0 ++ [w] /\ 2 <= length p0 /\ e = mkEdge LtoL (tgt p0, Normal) (tgt p, Normal)).
Proof.
  intros p pi b e. unfold inh. split.
  - intros J. apply in_app_or in J. destruct J as [J|J]; [destruct b; [destruct J as [J|[]]; discriminate J|destruct J]|]. destruct (lev2 p) eqn:L2; [|destruct J]. apply lev2_iff in L2.
    assert (Np : p <> []) by (intros ->; cbn in L2; lia). destruct (snoc_parent p Np) as [w W]. destruct J as [J|J]; [discriminate J|]. apply in_app_or in J. destruct J as [J|J].
    + destruct pi; [|destruct J]. destruct J as [J|[]]. injection J as <-. left. exists (parent_of p), w. auto.
    + destruct p as [|y r]; [contradiction|]. destruct (lev2 (parent_of (y :: r))) eqn:L3; [|destruct J]. destruct J as [J|[]]. injection J as <-. right. exists (parent_of (y :: r)), w. split; [exact W|]. split; [apply lev2_iff; exact L3|reflexivity].
  - intros [(p0 & w & E & L & -> & ->)|(p0 & w & E & L & ->)]; apply in_or_app; right.
    + replace (lev2 p) with true by (symmetry; apply lev2_iff; exact L). right. apply in_or_app. left. left. rewrite E, parent_snoc. reflexivity.
    + assert (L2 : 2 <= length p) by (rewrite E, app_length; lia). replace (lev2 p) with true by (symmetry; apply lev2_iff; exact L2). right. apply in_or_app. right. assert (Pp : parent_of p = p0) by (rewrite E; apply parent_snoc). clear E. destruct p as [|y r]; [cbn in L2; lia|]. rewrite Pp. replace (lev2 p0) with true by (symmetry; apply lev2_iff; exact L). left. reflexivity.
Qed.

Theorem fmm_edges : exists ss tt, create_dag (@fmm A B fuel) unif same fuel S T = Ok (ss, tt) /\ NoDup (all_edges (ss ++ tt)) /\ forall e, In e (all_edges (ss ++ tt)) <-> fmm_edge unif same S T e.
Proof.
  destruct (fmm_dag_full S T HS8 HT8 fuel unif same HSl HTl HSd HTd) as (ss & tt & Hc & St & Vi & Ed & (Nd & _) & _). exists ss, tt. split; [exact Hc|]. split; [exact Nd|]. clear St Nd Hc.
  set (m := @fmm A B fuel) in *.
  assert (Hp1 : forall n cons a2 new x k, process m n cons false = Ok (a2, new) -> In x cons -> length (fst x) = length (fst n) -> well_sep (idx_of (fst x)) (idx_of (fst n)) = false -> In k (children x) -> In k new).
  { intros n cons a2 new x k P I L W J. cbn [process m fmm] in P. injection P as _ <-. apply in_flat_map. exists x. split; [exact I|]. unfold fmm_inner. rewrite level_ltb, L, Nat.ltb_irrefl, W. cbn [snd]. apply kids_descend. exact J. }
  assert (Hp2 : forall n cons a2 new, process m n cons false = Ok (a2, new) -> new = flat_map (onward (fst n)) cons).
  { intros n cons a2 new P. cbn [process m fmm] in P. injection P as _ <-. apply flat_map_ext. intros x. unfold fmm_inner, onward. rewrite level_ltb. destruct (length (fst x) <? length (fst n)); [destruct (well_sep_asym (idx_of (fst n)) (idx_of (fst x)))|destruct (well_sep (idx_of (fst x)) (idx_of (fst n)))]; reflexivity. }
  assert (Hs : forall n pi cons acc, vis m unif same S T n pi cons acc -> forall x, In x cons -> sub S (fst x) = Some (snd x)).
  { intros n pi cons acc H x I. destruct (Vi _ _ _ _ H) as (_ & ((Va & _) & _)). apply Va. exact I. }
  assert (Hok : forall n pi cons acc, vis m unif same S T n pi cons acc -> exists r, process m n cons (negb (refines m unif same n cons)) = Ok r).
  { intros n pi cons acc H. destruct (Vi _ _ _ _ H) as (Sn & Iv). destruct (fmm_process S T HS8 fuel unif same HSl n cons Sn Iv) as (xs & new & E & _). unfold m. eauto. }
  pose proof (refines_iff m unif same S T HS8 HT8 eq_refl Hp1 Hs) as Rf. pose proof (refined_above m unif same S T HS8 HT8 eq_refl Hp1 Hs) as Ra. pose proof (reach m unif same S T HS8 HT8 eq_refl Hp1 Hs Hok) as Re.
  pose proof (cons_iff m unif same S T HS8 HT8 Hp2) as Ci.
  assert (Lk : forall n pi cons acc a2 c', vis m unif same S T n pi cons acc -> process m n cons (negb (refines m unif same n cons)) = Ok (a2, c') -> forall e, In (Link e) a2 <->
    (exists x, In x cons /\ far_links (fst n) true x e) \/ (refines m unif same n cons = false /\ ((exists x, In x cons /\ near_links S (fst n) x e) \/ (2 <= length (fst n) /\ e = mkEdge LtoT (tgt (fst n), Normal) (tgt (fst n), Parts))))).
  { intros n pi cons acc a2 c' H P e. pose proof (Ci _ _ _ _ H) as C. destruct (refines m unif same n cons) eqn:R; cbn [negb] in P; cbn [process m fmm] in P.
    - injection P as <- _. rewrite in_flat_map. split.
      + intros (x & I & J). left. exists x. split; [exact I|]. apply (fmm_inner_iff S (fst n) x); [apply C; exact I|exact J].
      + intros [(x & I & J)|(X & _)]; [|discriminate X]. exists x. split; [exact I|]. apply (fmm_inner_iff S (fst n) x); [apply C; exact I|exact J].
    - destruct (mapM (fmm_leaf fuel (fst n)) cons) as [l|] eqn:M; [|discriminate P]. cbn [bind] in P. injection P as <- _. rewrite in_app_iff, (mapM_concat_in _ _ _ _ _ M). split.
      + intros [(x & ys & I & Hy & J)|J].
        * apply (fmm_leaf_iff S HS8 fuel (fst n) x ys) in J; [|apply C; exact I|exact Hy]. destruct J as [J|J]; [left; eauto|right; split; [reflexivity|left; eauto]].
        * right. split; [reflexivity|]. right. unfold level in J. rewrite idx_level in J. destruct (Z.leb_spec 2 (Z.of_nat (length (fst n)))); [|destruct J]. destruct J as [J|[]]. injection J as <-. split; [lia|reflexivity].
      + intros D. assert (Q : forall x, In x cons -> far_links (fst n) true x e \/ near_links S (fst n) x e -> exists x0 ys, In x0 cons /\ fmm_leaf fuel (fst n) x0 = Ok ys /\ In (Link e) ys).
        { intros x I J. destruct (mapM_each _ _ _ _ _ _ M I) as (ys & Hy). exists x, ys. split; [exact I|]. split; [exact Hy|]. apply (fmm_leaf_iff S HS8 fuel (fst n) x ys); [apply C; exact I|exact Hy|exact J]. }
        destruct D as [(x & I & J)|(_ & [(x & I & J)|(L & ->)])]; [left; apply (Q x I); auto|left; apply (Q x I); auto|].
        right. unfold level. rewrite idx_level. destruct (Z.leb_spec 2 (Z.of_nat (length (fst n)))); [left; reflexivity|lia]. }
  assert (Ex : forall n pi cons acc (P : path * tree A -> Prop), vis m unif same S T n pi cons acc -> (exists x, In x cons /\ P x) <-> (exists x, (sub S (fst x) = Some (snd x) /\ considered S (fst n) (fst x)) /\ P x)).
  { intros n pi cons acc P H. split; intros (x & I & J); exists x; (split; [|exact J]); apply (Ci _ _ _ _ H); exact I. }
  assert (Vr : forall n pi cons acc, vis m unif same S T n pi cons acc -> reached unif same S T (fst n)).
  { intros n pi cons acc H. split; [rewrite (proj1 (Vi _ _ _ _ H)); discriminate|]. apply (Ra _ _ _ _ H). }
  intros e. rewrite Ed, slink_iff. split.
  - intros [[(c & L & M & ->)|[(c & w & Sc & M & ->)|(c & _ & X & _)]]|(n & pi & cons & a2 & c' & (acc & H) & _ & P & J)]; [constructor; assumption|constructor; assumption|discriminate X|].
    pose proof (Vr _ _ _ _ H) as Rn. assert (Tn : sub T (fst n) <> None) by apply Rn. unfold target_acts in J. apply in_app_or in J. destruct J as [J|J].
    + unfold m in J at 1. rewrite fmm_inherit in J. apply inh_iff in J. destruct J as [(p0 & w & _ & _ & X & _)|(p0 & w & E & L & ->)]; [discriminate X|]. rewrite E in *. apply FE_LtoL; assumption.
    + apply (Lk _ _ _ _ _ _ H P) in J. rewrite !(Ex _ _ _ _ _ H) in J. rewrite (far_all S), (near_all S T HS8 HT8) in J by assumption.
      assert (En : refines m unif same n cons = false -> ended unif same S T (fst n)) by (intros R; split; [exact Rn|]; apply (Rf _ _ _ _ H); exact R).
      destruct J as [[(c & L & ->)|(_ & c & L & ->)]|(R & [[(c & L & ->)|(c & L & ->)]|(L & ->)])]; [apply FE_StoL|apply FE_MtoL|apply FE_MtoT|apply FE_StoT|apply FE_LtoT]; auto.
  - assert (Tg : forall p, reached unif same S T p -> exists n pi cons acc a2 c', vis m unif same S T n pi cons acc /\ fst n = p /\ process m n cons (negb (refines m unif same n cons)) = Ok (a2, c')).
    { intros p [Tp Hp]. destruct (Re p Tp Hp) as (n & pi & cons & acc & H & E). destruct (Hok _ _ _ _ H) as ([a2 c'] & P). exists n, pi, cons, acc, a2, c'. auto. }
    assert (Fin : forall p, reached unif same S T p -> forall n pi cons acc a2 c', vis m unif same S T n pi cons acc -> fst n = p -> process m n cons (negb (refines m unif same n cons)) = Ok (a2, c') ->
      ((exists c, list_X S p c /\ e = mkEdge StoL (src c, Parts) (tgt p, Normal)) \/ (true = true /\ exists c, list_V S p c /\ e = mkEdge MtoL (src c, Normal) (tgt p, Normal))) \/
      (finished unif same S T p /\ (((exists c, list_W S p c /\ e = mkEdge MtoT (src c, Normal) (tgt p, Parts)) \/ (exists c, list_U S p c /\ e = mkEdge StoT (src c, Parts) (tgt p, Parts))) \/ (2 <= length p /\ e = mkEdge LtoT (tgt p, Normal) (tgt p, Parts)))) ->
      In (Link e) a2).
    { intros p Rp n pi cons acc a2 c' H <- P D. apply (Lk _ _ _ _ _ _ H P). rewrite !(Ex _ _ _ _ _ H). rewrite (far_all S), (near_all S T HS8 HT8) by apply Rp. rewrite (Rf _ _ _ _ H). exact D. }
    assert (Go : forall p, reached unif same S T p ->
      ((exists c, list_X S p c /\ e = mkEdge StoL (src c, Parts) (tgt p, Normal)) \/ (true = true /\ exists c, list_V S p c /\ e = mkEdge MtoL (src c, Normal) (tgt p, Normal))) \/
      (finished unif same S T p /\ (((exists c, list_W S p c /\ e = mkEdge MtoT (src c, Normal) (tgt p, Parts)) \/ (exists c, list_U S p c /\ e = mkEdge StoT (src c, Parts) (tgt p, Parts))) \/ (2 <= length p /\ e = mkEdge LtoT (tgt p, Normal) (tgt p, Parts)))) ->
      exists n pi cons a2 c', (exists acc, vis m unif same S T n pi cons acc) /\ fmm_inv S n cons /\ process m n cons (negb (refines m unif same n cons)) = Ok (a2, c') /\ In (Link e) (target_acts m unif same n pi cons a2)).
    { intros p Rp D. destruct (Tg p Rp) as (n & pi & cons & acc & a2 & c' & H & E & P). exists n, pi, cons, a2, c'. split; [eauto|]. split; [apply (Vi _ _ _ _ H)|]. split; [exact P|]. unfold target_acts. apply in_or_app. right. eapply Fin; eassumption. }
    intros F. inversion F as [c L M E|c w Sc M E|c p R L E|c p R L E|c p R L E|c p R L E|p w R L E|p R L E]; subst e.
    + left. left. exists c. auto.
    + left. right. left. exists c, w. auto.
    + right. apply (Go p R). left. right. eauto.
    + right. apply (Go p R). left. left. eauto.
    + right. destruct R as [R Fi]. apply (Go p R). right. split; [exact Fi|]. left. left. eauto.
    + right. destruct R as [R Fi]. apply (Go p R). right. split; [exact Fi|]. left. right. eauto.
    + right. destruct (Tg _ R) as (n & pi & cons & acc & a2 & c' & H & En & P). exists n, pi, cons, a2, c'. split; [eauto|]. split; [apply (Vi _ _ _ _ H)|]. split; [exact P|]. unfold target_acts. apply in_or_app. left. unfold m at 1. rewrite fmm_inherit. apply inh_iff. right. exists p, w. rewrite En. auto.
    + right. destruct R as [R Fi]. apply (Go p R). right. split; [exact Fi|]. right. auto.
Qed.

Theorem fmm97_edges : exists ss tt, create_dag (@fmm97 A B fuel) unif same fuel S T = Ok (ss, tt) /\ NoDup (all_edges (ss ++ tt)) /\ forall e, In e (all_edges (ss ++ tt)) <-> fmm97_edge unif same S T e.
Proof.
  destruct (fmm97_dag_full S T HS8 HT8 fuel unif same HSl HTl HSd HTd) as (ss & tt & Hc & St & Vi & Ed & (Nd & _) & _). exists ss, tt. split; [exact Hc|]. split; [exact Nd|]. clear St Nd Hc.
  set (m := @fmm97 A B fuel) in *.
  assert (Hp1 : forall n cons a2 new x k, process m n cons false = Ok (a2, new) -> In x cons -> length (fst x) = length (fst n) -> well_sep (idx_of (fst x)) (idx_of (fst n)) = false -> In k (children x) -> In k new).
  { intros n cons a2 new x k P I L W J. cbn [process m fmm97] in P. injection P as _ <-. apply in_flat_map. exists x. split; [exact I|]. unfold fmm97_inner. rewrite level_ltb, L, Nat.ltb_irrefl, W. cbn [fst snd negb]. apply kids_descend. exact J. }
  assert (Hp2 : forall n cons a2 new, process m n cons false = Ok (a2, new) -> new = flat_map (onward (fst n)) cons).
  { intros n cons a2 new P. cbn [process m fmm97] in P. injection P as _ <-. apply flat_map_ext. intros x. unfold fmm97_inner, onward. rewrite level_ltb. destruct (length (fst x) <? length (fst n)); [destruct (well_sep_asym (idx_of (fst n)) (idx_of (fst x)))|destruct (well_sep (idx_of (fst x)) (idx_of (fst n)))]; reflexivity. }
  assert (Hs : forall n pi cons acc, vis m unif same S T n pi cons acc -> forall x, In x cons -> sub S (fst x) = Some (snd x)).
  { intros n pi cons acc H x I. destruct (Vi _ _ _ _ H) as (_ & ((Va & _) & _)). apply Va. exact I. }
  assert (Hok : forall n pi cons acc, vis m unif same S T n pi cons acc -> exists r, process m n cons (negb (refines m unif same n cons)) = Ok r).
  { intros n pi cons acc H. destruct (Vi _ _ _ _ H) as (Sn & Iv). destruct (fmm97_process S T HS8 fuel unif same HSl n cons Sn Iv) as (xs & mg & new & E & _). unfold m. eauto. }
  pose proof (refines_iff m unif same S T HS8 HT8 eq_refl Hp1 Hs) as Rf. pose proof (refined_above m unif same S T HS8 HT8 eq_refl Hp1 Hs) as Ra. pose proof (reach m unif same S T HS8 HT8 eq_refl Hp1 Hs Hok) as Re.
  pose proof (cons_iff m unif same S T HS8 HT8 Hp2) as Ci.
  assert (Lk : forall n pi cons acc a2 c', vis m unif same S T n pi cons acc -> process m n cons (negb (refines m unif same n cons)) = Ok (a2, c') -> forall e, In (Link e) a2 <->
    ((exists x, In x cons /\ far_links (fst n) false x e) \/ (refines m unif same n cons = true /\ exists c x t, In x cons /\ In (c, t) (snd (fmm97_inner (fst n) x)) /\ e = mkEdge ItoI (src c, Interm) (tgt (fst n), Interm))) \/ (refines m unif same n cons = false /\ ((exists x, In x cons /\ near_links S (fst n) x e) \/ (2 <= length (fst n) /\ e = mkEdge LtoT (tgt (fst n), Normal) (tgt (fst n), Parts))))).
  { intros n pi cons acc a2 c' H P e. pose proof (Ci _ _ _ _ H) as C. destruct (refines m unif same n cons) eqn:R; cbn [negb] in P; cbn [process m fmm97] in P.
    - injection P as <- _. set (mg := flat_map (fun s => snd (fmm97_inner (fst n) s)) cons). rewrite in_app_iff, in_flat_map.
      assert (Mg : In (Link e) (if nil_list mg then [] else add_interm (tgt (fst n)) :: map (fun s => do_ItoI (tgt (fst n)) (src (fst s))) mg) <-> exists c x t, In x cons /\ In (c, t) (snd (fmm97_inner (fst n) x)) /\ e = mkEdge ItoI (src c, Interm) (tgt (fst n), Interm)).
      { assert (M0 : forall c t, In (c, t) mg <-> exists x, In x cons /\ In (c, t) (snd (fmm97_inner (fst n) x))) by (intros c t; unfold mg; apply in_flat_map). split.
        - intros J. assert (J' : In (Link e) (map (fun s => do_ItoI (tgt (fst n)) (src (fst s))) mg)) by (destruct mg; [destruct J|destruct J as [J|J]; [discriminate J|exact J]]). apply in_map_iff in J'. destruct J' as ([c t] & J1 & J2). injection J1 as <-. apply M0 in J2. destruct J2 as (x & I & J2). exists c, x, t. auto.
        - intros (c & x & t & I & J & ->). assert (J' : In (c, t) mg) by (apply M0; eauto). assert (J2 : In (Link (mkEdge ItoI (src c, Interm) (tgt (fst n), Interm))) (map (fun s => do_ItoI (tgt (fst n)) (src (fst s))) mg)) by (apply in_map_iff; exists (c, t); auto). destruct mg; [destruct J'|right; exact J2]. }
      rewrite Mg. split.
      + intros [(x & I & J)|J]; left; [left|right; auto]. exists x. split; [exact I|]. apply (fmm97_inner_iff S (fst n) x); [apply C; exact I|exact J].
      + intros [[(x & I & J)|(_ & J)]|(X & _)]; [left|right; exact J|discriminate X]. exists x. split; [exact I|]. apply (fmm97_inner_iff S (fst n) x); [apply C; exact I|exact J].
    - destruct (mapM (fmm97_leaf fuel (fst n)) cons) as [l|] eqn:M; [|discriminate P]. cbn [bind] in P. injection P as <- _. rewrite in_app_iff, (mapM_concat_in _ _ _ _ _ M). split.
      + intros [(x & ys & I & Hy & J)|J].
        * apply (fmm97_leaf_iff S HS8 fuel (fst n) x ys) in J; [|apply C; exact I|exact Hy]. destruct J as [J|J]; [left; left; eauto|right; split; [reflexivity|left; eauto]].
        * right. split; [reflexivity|]. right. unfold level in J. rewrite idx_level in J. destruct (Z.leb_spec 2 (Z.of_nat (length (fst n)))); [|destruct J]. destruct J as [J|[]]. injection J as <-. split; [lia|reflexivity].
      + intros D. assert (Q : forall x, In x cons -> far_links (fst n) false x e \/ near_links S (fst n) x e -> exists x0 ys, In x0 cons /\ fmm97_leaf fuel (fst n) x0 = Ok ys /\ In (Link e) ys).
        { intros x I J. destruct (mapM_each _ _ _ _ _ _ M I) as (ys & Hy). exists x, ys. split; [exact I|]. split; [exact Hy|]. apply (fmm97_leaf_iff S HS8 fuel (fst n) x ys); [apply C; exact I|exact Hy|exact J]. }
        destruct D as [[(x & I & J)|(X & _)]|(_ & [(x & I & J)|(L & ->)])]; [left; apply (Q x I); auto|discriminate X|left; apply (Q x I); auto|].
        right. unfold level. rewrite idx_level. destruct (Z.leb_spec 2 (Z.of_nat (length (fst n)))); [left; reflexivity|lia]. }
  assert (Ex : forall n pi cons acc (P : path * tree A -> Prop), vis m unif same S T n pi cons acc -> (exists x, In x cons /\ P x) <-> (exists x, (sub S (fst x) = Some (snd x) /\ considered S (fst n) (fst x)) /\ P x)).
  { intros n pi cons acc P H. split; intros (x & I & J); exists x; (split; [|exact J]); apply (Ci _ _ _ _ H); exact I. }
  assert (Mi : forall n pi cons acc e, vis m unif same S T n pi cons acc -> (exists c x t, In x cons /\ In (c, t) (snd (fmm97_inner (fst n) x)) /\ e = mkEdge ItoI (src c, Interm) (tgt (fst n), Interm)) <-> (exists c, list_I S (fst n) c /\ e = mkEdge ItoI (src c, Interm) (tgt (fst n), Interm))).
  { intros n pi cons acc e H. assert (Tn : sub T (fst n) <> None) by (rewrite (proj1 (Vi _ _ _ _ H)); discriminate). split.
    - intros (c & x & t & I & J & ->). exists c. split; [|reflexivity]. apply (I_iff S T HS8 HT8 _ _ Tn). exists x, t. split; [apply (Ci _ _ _ _ H); exact I|exact J].
    - intros (c & J & ->). apply (I_iff S T HS8 HT8 _ _ Tn) in J. destruct J as (x & t & I & J). exists c, x, t. split; [apply (Ci _ _ _ _ H); exact I|auto]. }
  assert (Pi : forall n pi cons acc, vis m unif same S T n pi cons acc -> (pi = true <-> exists p0 w c, fst n = p0 ++ [w] /\ list_I S p0 c)).
  { intros n pi cons acc H. destruct H as [|n pi cons acc a2 cons' k H R P I].
    - split; [discriminate|]. intros (p0 & w & c & E & _). cbn in E. destruct p0; discriminate E.
    - destruct k as [q u]. apply children_in in I. destruct I as (w & W8 & K & ->). cbn [fst].
      assert (Y : existsb (is_add_interm (fst n)) (target_acts m unif same n pi cons a2) = true <-> exists c, list_I S (fst n) c).
      { rewrite existsb_exists. split.
        - intros (a & Ia & Ha). destruct a as [y|y]; [|discriminate Ha]. cbn in Ha. match type of Ha with (if dnode_dec ?u ?v then _ else _) = _ => destruct (dnode_dec u v) as [->|]; [|discriminate Ha] end.
          unfold target_acts in Ia. rewrite R in Ia. cbn [process m fmm97] in P. injection P as <- _. unfold m in Ia at 1. rewrite fmm97_inherit in Ia. apply in_app_or in Ia. destruct Ia as [Ia|Ia].
          + exfalso. unfold inh in Ia. cbn [negb app] in Ia. destruct (lev2 (fst n)); [|destruct Ia]. destruct Ia as [Ia|Ia]; [discriminate Ia|]. apply in_app_or in Ia. destruct Ia as [Ia|Ia]; [destruct pi; [destruct Ia as [Ia|[]]; discriminate Ia|destruct Ia]|]. destruct (match fst n with [] => false | _ => lev2 (parent_of (fst n)) end); [destruct Ia as [Ia|[]]; discriminate Ia|destruct Ia].
          + apply in_app_or in Ia. destruct Ia as [Ia|Ia].
            * exfalso. apply in_flat_map in Ia. destruct Ia as (x & _ & J). unfold fmm97_inner in J. destruct (ilevel (idx_of (fst x)) <? ilevel (idx_of (fst n)))%Z; [destruct (well_sep_asym (idx_of (fst n)) (idx_of (fst x)))|destruct (negb (well_sep (idx_of (fst x)) (idx_of (fst n))))]; cbn in J; try destruct J as [J|[]]; try discriminate J; destruct J.
            * destruct (flat_map (fun s => snd (fmm97_inner (fst n) s)) cons) as [|[c t] mg] eqn:M; [destruct Ia|]. assert (J : In (c, t) (flat_map (fun s => snd (fmm97_inner (fst n) s)) cons)) by (rewrite M; left; reflexivity).
              apply in_flat_map in J. destruct J as (x & Ix & J). assert (Q : exists c, list_I S (fst n) c /\ mkEdge ItoI (src c, Interm) (tgt (fst n), Interm) = mkEdge ItoI (src c, Interm) (tgt (fst n), Interm)); [|destruct Q as (c0 & Q & _); eauto].
              exists c. split; [|reflexivity]. apply (I_iff S T HS8 HT8); [rewrite (proj1 (Vi _ _ _ _ H)); discriminate|]. exists x, t. split; [apply (Ci _ _ _ _ H); exact Ix|exact J].
        - intros (c & J). apply (I_iff S T HS8 HT8) in J; [|rewrite (proj1 (Vi _ _ _ _ H)); discriminate]. destruct J as (x & t & Ix & J). apply (Ci _ _ _ _ H) in Ix.
          exists (add_interm (tgt (fst n))). split; [|unfold is_add_interm, add_interm; match goal with |- context [dnode_dec ?u ?v] => destruct (dnode_dec u v) as [|Z]; [reflexivity|contradiction Z; reflexivity] end].
          unfold target_acts. cbn [process m fmm97] in P. injection P as <- _. apply in_or_app. right. apply in_or_app. right. assert (J' : In (c, t) (flat_map (fun s => snd (fmm97_inner (fst n) s)) cons)) by (apply in_flat_map; eauto). destruct (flat_map (fun s => snd (fmm97_inner (fst n) s)) cons); [destruct J'|left; reflexivity]. }
      rewrite Y. split; [intros (c & J); exists (fst n), w, c; auto|]. intros (p0 & w' & c & E & J). apply app_inj_tail in E. destruct E as [-> _]. eauto. }
  assert (Vr : forall n pi cons acc, vis m unif same S T n pi cons acc -> reached unif same S T (fst n)).
  { intros n pi cons acc H. split; [rewrite (proj1 (Vi _ _ _ _ H)); discriminate|]. apply (Ra _ _ _ _ H). }
  intros e. rewrite Ed, slink_iff. split.
  - intros [[(c & L & M & ->)|[(c & w & Sc & M & ->)|(c & Sc & M & ->)]]|(n & pi & cons & a2 & c' & (acc & H) & _ & P & J)]; [constructor; assumption|constructor; assumption|constructor; [assumption|apply lev2_iff; assumption]|].
    pose proof (Vr _ _ _ _ H) as Rn. assert (Tn : sub T (fst n) <> None) by apply Rn. unfold target_acts in J. apply in_app_or in J. destruct J as [J|J].
    + unfold m in J at 1. rewrite fmm97_inherit in J. apply inh_iff in J. destruct J as [(p0 & w & E & L & X & ->)|(p0 & w & E & L & ->)].
      * apply (Pi _ _ _ _ H) in X. destruct X as (p1 & w1 & c & E1 & Ic). rewrite E in E1. apply app_inj_tail in E1. destruct E1 as [<- <-]. rewrite E in *. apply (GE_ItoL _ _ _ _ c); assumption.
      * rewrite E in *. apply GE_LtoL; assumption.
    + apply (Lk _ _ _ _ _ _ H P) in J. rewrite (Mi _ _ _ _ _ H) in J. rewrite !(Ex _ _ _ _ _ H) in J. rewrite (far_all S), (near_all S T HS8 HT8) in J by assumption.
      assert (En : refines m unif same n cons = false -> ended unif same S T (fst n)) by (intros R; split; [exact Rn|]; apply (Rf _ _ _ _ H); exact R).
      destruct J as [[[(c & L & ->)|(X & _)]|(R & c & L & ->)]|(R & [[(c & L & ->)|(c & L & ->)]|(L & ->)])]; [apply GE_StoL|discriminate X|apply GE_ItoI|apply GE_MtoT|apply GE_StoT|apply GE_LtoT]; auto.
      split; [exact Rn|]. intros Fi. apply (Rf _ _ _ _ H) in Fi. congruence.
  - assert (Tg : forall p, reached unif same S T p -> exists n pi cons acc a2 c', vis m unif same S T n pi cons acc /\ fst n = p /\ process m n cons (negb (refines m unif same n cons)) = Ok (a2, c')).
    { intros p [Tp Hp]. destruct (Re p Tp Hp) as (n & pi & cons & acc & H & E). destruct (Hok _ _ _ _ H) as ([a2 c'] & P). exists n, pi, cons, acc, a2, c'. auto. }
    assert (Go : forall p, reached unif same S T p ->
      (((exists c, list_X S p c /\ e = mkEdge StoL (src c, Parts) (tgt p, Normal)) \/ (false = true /\ exists c, list_V S p c /\ e = mkEdge MtoL (src c, Normal) (tgt p, Normal))) \/
       (~ finished unif same S T p /\ exists c, list_I S p c /\ e = mkEdge ItoI (src c, Interm) (tgt p, Interm))) \/
      (finished unif same S T p /\ (((exists c, list_W S p c /\ e = mkEdge MtoT (src c, Normal) (tgt p, Parts)) \/ (exists c, list_U S p c /\ e = mkEdge StoT (src c, Parts) (tgt p, Parts))) \/ (2 <= length p /\ e = mkEdge LtoT (tgt p, Normal) (tgt p, Parts)))) ->
      exists n pi cons a2 c', (exists acc, vis m unif same S T n pi cons acc) /\ fmm_inv S n cons /\ process m n cons (negb (refines m unif same n cons)) = Ok (a2, c') /\ In (Link e) (target_acts m unif same n pi cons a2)).
    { intros p Rp D. destruct (Tg p Rp) as (n & pi & cons & acc & a2 & c' & H & <- & P). exists n, pi, cons, a2, c'. split; [eauto|]. split; [apply (Vi _ _ _ _ H)|]. split; [exact P|]. unfold target_acts. apply in_or_app. right.
      apply (Lk _ _ _ _ _ _ H P). rewrite (Mi _ _ _ _ _ H). rewrite !(Ex _ _ _ _ _ H). rewrite (far_all S), (near_all S T HS8 HT8) by apply Rp. rewrite <- (Rf _ _ _ _ H) in D. rewrite not_false_iff_true in D. exact D. }
    intros F. inversion F as [c L M E|c w Sc M E|c Sc M E|c p R L E|c p w R L E|c p R L E|c p R L E|c p R L E|p w R L E|p R L E]; subst e.
    + left. left. exists c. auto.
    + left. right. left. exists c, w. auto.
    + left. right. right. exists c. split; [exact Sc|]. split; [apply lev2_iff; exact M|reflexivity].
    + right. destruct R as [R Fi]. apply (Go p R). left. right. eauto.
    + right. destruct (Tg _ R) as (n & pi & cons & acc & a2 & c' & H & En & P). exists n, pi, cons, a2, c'. split; [eauto|]. split; [apply (Vi _ _ _ _ H)|]. split; [exact P|]. unfold target_acts. apply in_or_app. left. unfold m at 1. rewrite fmm97_inherit. apply inh_iff. left. exists p, w. rewrite En. split; [reflexivity|]. split; [rewrite app_length; cbn; destruct L as (_ & _ & L1 & _); lia|]. split; [|reflexivity]. apply (Pi _ _ _ _ H). rewrite En. eauto.
    + right. apply (Go p R). left. left. left. eauto.
    + right. destruct R as [R Fi]. apply (Go p R). right. split; [exact Fi|]. left. left. eauto.
    + right. destruct R as [R Fi]. apply (Go p R). right. split; [exact Fi|]. left. right. eauto.
    + right. destruct (Tg _ R) as (n & pi & cons & acc & a2 & c' & H & En & P). exists n, pi, cons, a2, c'. split; [eauto|]. split; [apply (Vi _ _ _ _ H)|]. split; [exact P|]. unfold target_acts. apply in_or_app. left. unfold m at 1. rewrite fmm97_inherit. apply inh_iff. right. exists p, w. rewrite En. auto.
    + right. destruct R as [R Fi]. apply (Go p R). right. split; [exact Fi|]. right. auto.
Qed.
End Edges.
