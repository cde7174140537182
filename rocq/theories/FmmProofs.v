(** The two multipole methods. *)
From Coq Require Import ZArith List Bool Arith Lia Permutation.
From Verif Require Import Base ListFacts IndexModel IndexSpec IndexProofs TreeModel TreeFacts RefineModel LookupModel GeomModel DagModel DagSpec DagProofs MethodModel DagPaths DagExec DagSound MethodProofs MethodTasks MethodSound DirectBHProofs.
Import ListNotations.
Open Scope nat_scope.

(** ** Geometry *)
Lemma path_lt8 : forall X p (t n : tree X), eight t -> sub t p = Some n -> Forall (fun w => w < 8) p.
Proof.
  intros X. induction p as [|w p IH]; intros t n E Sn; [constructor|]. cbn in Sn. destruct (kid t w) as [c|] eqn:K; [|discriminate]. constructor.
  - eapply kid_lt8; [exact (E [] t eq_refl)|exact K].
  - apply (IH c n); [|assumption]. intros p' n' S'. apply (E (w :: p')). cbn. rewrite K. assumption.
Qed.
Lemma root_grid : in_grid root_index.
Proof. repeat split; cbn; lia. Qed.
Lemma idx_grid : forall X p (t : tree X), eight t -> sub t p <> None -> in_grid (idx_of p).
Proof.
  intros X p t E Sn. destruct (sub t p) as [n|] eqn:Sp; [|contradiction]. apply follow_facts; [exact root_grid|]. eapply path_lt8; eassumption.
Qed.

Open Scope Z_scope.
Lemma asym_clear : forall i j, ilevel j <= ilevel i -> (well_sep_asym i j = true <-> clear_of i j).
Proof.
  intros i j L. unfold well_sep_asym, clear_of. rewrite !orb_true_iff, !Z.ltb_lt, !Z.shiftl_mul_pow2 by lia. set (d := 2 ^ (ilevel i - ilevel j)). split.
  - intros H. split; [assumption|]. destruct H as [[[[[H|H]|H]|H]|H]|H]; [exists AX; left|exists AX; right|exists AY; left|exists AY; right|exists AZ; left|exists AZ; right]; cbn [icoord]; nia.
  - intros (_ & [| |] & H); cbn [icoord] in H; cbn zeta in H; fold d in H; destruct H as [H|H].
    + left; left; left; left; left; lia.
    + left; left; left; left; right; nia.
    + left; left; left; right; lia.
    + left; left; right; nia.
    + left; right; lia.
    + right; nia.
Qed.
Lemma grid_coord : forall a i, in_grid i -> 0 <= icoord a i < 2 ^ ilevel i.
Proof. intros [| |] i (_ & H); cbn; lia. Qed.
Lemma clear_level : forall i j, in_grid i -> in_grid j -> clear_of i j -> 2 <= ilevel i.
Proof.
  intros i j Gi Gj (L & a & H). pose proof (grid_coord a i Gi) as Hi. pose proof (grid_coord a j Gj) as Hj. cbn zeta in H. pose proof (proj1 Gi). pose proof (proj1 Gj).
  destruct (Z.le_gt_cases 2 (ilevel i)) as [|C]; [assumption|]. exfalso. assert (ilevel i = 0 \/ ilevel i = 1) as [E|E] by lia; rewrite E in *.
  - assert (ilevel j = 0) as Ej by lia. rewrite Ej in *. cbn in *. lia.
  - assert (ilevel j = 0 \/ ilevel j = 1) as [Ej|Ej] by lia; rewrite Ej in *; cbn in *; lia.
Qed.
Lemma apart_level : forall i j, in_grid i -> in_grid j -> ilevel i = ilevel j -> apart i j -> 2 <= ilevel i.
Proof.
  intros i j Gi Gj L (a & H). pose proof (grid_coord a i Gi) as Hi. pose proof (grid_coord a j Gj) as Hj. rewrite <- L in Hj. pose proof (proj1 Gi).
  destruct (Z.le_gt_cases 2 (ilevel i)) as [|C]; [assumption|]. exfalso. assert (ilevel i = 0 \/ ilevel i = 1) as [E|E] by lia; rewrite E in *; cbn in *; lia.
Qed.
Lemma siblings_near : forall i j v w, ix i = ix j -> iy i = iy j -> iz i = iz j -> well_sep (child v i) (child w j) = false.
Proof.
  intros i j v w Hx Hy Hz. unfold well_sep, child. cbn [ix iy iz]. rewrite Hx, Hy, Hz. rewrite !orb_false_iff, !Z.ltb_ge. destruct (Z.land v 1 =? 0), (Z.land w 1 =? 0), (Z.land v 2 =? 0), (Z.land w 2 =? 0), (Z.land v 4 =? 0), (Z.land w 4 =? 0); lia.
Qed.
Open Scope nat_scope.

Lemma level_ltb : forall c p, (ilevel (idx_of c) <? ilevel (idx_of p))%Z = (length c <? length p).
Proof. intros. rewrite !idx_level. destruct (Nat.ltb_spec (length c) (length p)); [apply Z.ltb_lt|apply Z.ltb_ge]; lia. Qed.

Section Fmm.
Context {A B : Type} (S : tree A) (T : tree B) (HS8 : eight S) (HT8 : eight T).

(** A link between the trees made at target node [p]. *)
Inductive flink (p : path) (ref : bool) : act -> Prop :=
| FL_StoL : forall c, leaf_at S c -> length c < length p -> clear_of (idx_of p) (idx_of c) -> flink p ref (do_StoL (tgt p) (src c))
| FL_MtoL : forall c, sub S c <> None -> length c = length p -> apart (idx_of c) (idx_of p) -> flink p ref (do_MtoL (tgt p) (src c))
| FL_MtoT : forall c, ref = false -> sub S c <> None -> length p <= length c -> clear_of (idx_of c) (idx_of p) -> flink p ref (do_MtoT (src c) (tgt p))
| FL_StoT : forall c, ref = false -> leaf_at S c -> flink p ref (do_StoT (tgt p) (src c)).

Lemma leaf_sub : forall c, leaf_at S c -> sub S c <> None.
Proof. intros c (n & Sn & _). rewrite Sn. discriminate. Qed.
Lemma flink_tlink : forall isrc p ref a, sub T p <> None -> flink p ref a -> exists e, a = Link e /\ tlink S lev2 isrc lev2 p false ref e /\ fst (fst (efrom e)) = SrcTree /\ snd (eto e) <> Interm.
Proof.
  intros isrc p ref a Tp H. pose proof (idx_grid _ _ _ HT8 Tp) as Gp.
  assert (K : forall c, (2 <= ilevel (idx_of c))%Z -> lev2 c = true) by (intros c L; apply Z.leb_le; exact L).
  destruct H as [c Lc _ Cl|c Sc Le Ap|c R Sc _ Cl|c R Lc]; eexists; (split; [reflexivity|]); (split; [|split; [reflexivity|discriminate]]).
  - apply TL_StoL; [assumption|]. apply K. apply (clear_level _ (idx_of c)); [assumption|apply (idx_grid _ _ S HS8); apply leaf_sub; assumption|assumption].
  - pose proof (idx_grid _ _ S HS8 Sc) as Gc. assert (L : (2 <= ilevel (idx_of c))%Z) by (apply (apart_level _ (idx_of p)); auto; rewrite !idx_level; lia). apply TL_MtoL; [assumption|apply K; assumption|]. apply K. rewrite idx_level in *. lia.
  - pose proof (idx_grid _ _ S HS8 Sc) as Gc. apply TL_MtoT; auto. apply K. apply (clear_level _ (idx_of p)); assumption.
  - apply TL_StoT; assumption.
Qed.
Lemma flink_cross : forall p ref a, flink p ref a -> exists e, a = Link e /\ fst (fst (efrom e)) = SrcTree /\ fst (fst (eto e)) = TgtTree /\ snd (eto e) <> Interm.
Proof. intros p ref a [c|c|c|c]; eexists; (split; [reflexivity|]); repeat split; discriminate. Qed.

Lemma ocnt_link : forall s (n : path * tree A) e k, efrom e = (src (fst n), k) -> ocnt s [Link e] = cnt s [n].
Proof. intros s n e k H. rewrite cnt_one. unfold ocnt. cbn. rewrite H. cbn. destruct (prefixb (fst n) s); reflexivity. Qed.

(** One element of [consider] is dealt with: [acts] and [new] share its sources. *)
Definition shares (n : path * tree A) (acts : list act) (new : list (path * tree A)) : Prop :=
  (forall s, leaf_at S s -> ocnt s acts + cnt s new = cnt s [n]) /\ forall s, ocnt s acts + cnt s new <= cnt s [n].
Lemma shares_link : forall n e k, efrom e = (src (fst n), k) -> shares n [Link e] [].
Proof. intros n e k H. split; intros; rewrite (ocnt_link _ n e k H); cbn; lia. Qed.
Lemma shares_keep : forall n, shares n [] [n].
Proof. intros n. split; intros; cbn; lia. Qed.
Lemma shares_descend : forall n, sub S (fst n) = Some (snd n) -> shares n [] (descend n).
Proof.
  intros n Sn. unfold descend. destruct (is_leaf (snd n)) eqn:L.
  - replace (children n) with (@nil (path * tree A)); [apply shares_keep|]. symmetry. destruct n as [p t]. apply children_nil; [exact (HS8 _ _ Sn)|exact L].
  - assert (X : shares n [] (children n)) by (split; intros; cbn [ocnt length filter]; [rewrite (cnt_children S HS8) by assumption; reflexivity|apply cnt_children_le]). destruct (children n) eqn:C; [|rewrite <- C in *; exact X].
    exfalso. unfold is_leaf in L. apply Nat.eqb_neq in L. apply L. apply n_children_0; [exact (HS8 _ _ Sn)|]. intros w. destruct (kid (snd n) w) as [c|] eqn:K; [|reflexivity]. assert (I : In (fst n ++ [w], c) (children n)) by (apply children_in; exists w; split; [eapply kid_lt8; [exact (HS8 _ _ Sn)|exact K]|auto]). rewrite C in I. destruct I.
Qed.
Lemma shares_flat : forall cons f g, (forall n, In n cons -> shares n (f n) (g n)) -> 
  (forall s, leaf_at S s -> ocnt s (flat_map f cons) + cnt s (flat_map g cons) = cnt s cons) /\ forall s, ocnt s (flat_map f cons) + cnt s (flat_map g cons) <= cnt s cons.
Proof.
  intros cons f g H. split; intros s; [intros Hs; apply flat_count|apply flat_count_le]; intros n I; apply (H n I); assumption.
Qed.
Lemma shares_concat : forall cons l, Forall2 (fun n x => shares n x []) cons l -> (forall s, leaf_at S s -> ocnt s (concat l) = cnt s cons) /\ forall s, ocnt s (concat l) <= cnt s cons.
Proof.
  intros cons l H. induction H as [|n x cons l [H1 H2] F [I1 I2]]; [split; intros; cbn; lia|]. split; intros s; [intros Hs|]; cbn [concat]; rewrite ocnt_app, (cnt_cons _ s n cons).
  - specialize (H1 s Hs). specialize (I1 s Hs). change (cnt s []) with 0 in H1. lia.
  - specialize (H2 s). specialize (I2 s). change (cnt s []) with 0 in H2. lia.
Qed.

Lemma mapM_forall2 : forall X Y (f : X -> res Y) (P : X -> Y -> Prop) l, (forall x, In x l -> exists y, f x = Ok y /\ P x y) -> exists r, mapM f l = Ok r /\ Forall2 P l r.
Proof.
  intros X Y f P. induction l as [|x l IH]; intros H; [exists []; auto|]. destruct (H x (or_introl eq_refl)) as (y & Hy & Py). destruct IH as (r & Hr & Fr); [intros z I; apply H; right; assumption|]. exists (y :: r). split; [|constructor; assumption]. cbn [mapM]. rewrite Hy. cbn. rewrite Hr. reflexivity.
Qed.

(** ** The recursion at a target leaf *)
Lemma pcr_facts : forall fuel p n, sub T p <> None -> sub S (fst n) = Some (snd n) -> length p <= length (fst n) -> lower fuel (snd n) ->
  exists l, proc_coll_recur fuel p n = Ok l /\ shares n l [] /\ forall a, In a l -> flink p false a.
Proof.
  induction fuel as [|fuel IH]; intros p n Tp Sn Le Lo; [specialize (Lo [] (snd n) eq_refl); cbn in Lo; lia|]. cbn [proc_coll_recur].
  destruct (well_sep_asym (idx_of (fst n)) (idx_of p)) eqn:W.
  - eexists. split; [reflexivity|]. split; [eapply shares_link; reflexivity|]. intros a [<-|[]]. apply FL_MtoT; [reflexivity|rewrite Sn; discriminate|assumption|]. apply asym_clear; [rewrite !idx_level; lia|assumption].
  - destruct (is_leaf (snd n)) eqn:L.
    + eexists. split; [reflexivity|]. split; [eapply shares_link; reflexivity|]. intros a [<-|[]]. apply FL_StoT; [reflexivity|]. apply (leaf_iff _ _ _ _ HS8 Sn). assumption.
    + destruct (mapM_forall2 _ _ (proc_coll_recur fuel p) (fun n x => shares n x [] /\ forall a, In a x -> flink p false a) (children n)) as (r & Hr & Fr).
      * intros [q c] I. pose proof I as I0. apply children_in in I0. destruct I0 as (w & _ & K & Eq). destruct (IH p (q, c) Tp) as (l & Hl & Sh & Fl); [| | |eauto].
        -- exact (valid_children S n Sn _ I).
        -- cbn [fst]. rewrite Eq, app_length. cbn. lia.
        -- intros p' t' X. assert (Y : sub (snd n) (w :: p') = Some t') by (cbn; rewrite K; exact X). specialize (Lo _ _ Y). cbn in Lo. lia.
      * rewrite Hr. cbn. eexists. split; [reflexivity|]. split.
        -- destruct (shares_concat (children n) r) as [C1 C2]; [revert Fr; clear; induction 1 as [|? ? ? ? [] ]; constructor; assumption|]. split.
           ++ intros s Hs. rewrite (C1 s Hs), (cnt_children S HS8) by assumption. change (cnt s []) with 0. lia.
           ++ intros s. specialize (C2 s). pose proof (cnt_children_le _ s n). change (cnt s []) with 0. lia.
        -- intros a I. apply in_concat in I. destruct I as (x & I & J). revert I J. clear - Fr. induction Fr as [|? ? ? ? [_ F] ? IH]; intros I J; [destruct I|]. destruct I as [->|I]; [apply F; assumption|apply IH; assumption].
Qed.

(** ** The invariant of the traversal *)
Definition fmm_inv (n : path * tree B) (cons : list (path * tree A)) : Prop :=
  bh_inv S n cons /\ forall c, In c cons -> length (fst c) <= length (fst n) /\ (length (fst c) < length (fst n) -> is_leaf (snd c) = true).
Lemma fmm_inv_root : fmm_inv ([], T) [([], S)].
Proof. split; [split; [intros n [<-|[]]; reflexivity|intros s; rewrite cnt_one; cbn; lia]|]. intros c [<-|[]]. cbn. split; [lia|]. intros X. lia. Qed.

Lemma descend_in : forall n c, sub S (fst n) = Some (snd n) -> In c (descend n) -> (In c (children n) /\ is_leaf (snd n) = false) \/ (c = n /\ is_leaf (snd n) = true).
Proof.
  intros n c Sn I. unfold descend in I. destruct (is_leaf (snd n)) eqn:L.
  - replace (children n) with (@nil (path * tree A)) in I; [destruct I as [<-|[]]; auto|]. symmetry. destruct n as [p t]. apply children_nil; [exact (HS8 _ _ Sn)|exact L].
  - destruct (children n) eqn:C; [|auto]. exfalso. unfold is_leaf in L. apply Nat.eqb_neq in L. apply L. apply n_children_0; [exact (HS8 _ _ Sn)|]. intros w. destruct (kid (snd n) w) as [k|] eqn:K; [|reflexivity]. assert (J : In (fst n ++ [w], k) (children n)) by (apply children_in; exists w; split; [eapply kid_lt8; [exact (HS8 _ _ Sn)|exact K]|auto]). rewrite C in J. destruct J.
Qed.

(** What is handed on keeps the invariant. *)
Definition handed (p : path) (n : path * tree A) (new : list (path * tree A)) : Prop :=
  forall c, In c new -> sub S (fst c) = Some (snd c) /\ length (fst c) <= Datatypes.S (length p) /\ (length (fst c) < Datatypes.S (length p) -> is_leaf (snd c) = true).
Lemma handed_keep : forall p n, sub S (fst n) = Some (snd n) -> length (fst n) < length p -> is_leaf (snd n) = true -> handed p n [n].
Proof. intros p n Sn L Lf c [<-|[]]. repeat split; auto; lia. Qed.
Lemma handed_descend : forall p n, sub S (fst n) = Some (snd n) -> length (fst n) = length p -> handed p n (descend n).
Proof.
  intros p n Sn Le c I. destruct (descend_in _ _ Sn I) as [[J L]|[-> L]].
  - split; [exact (valid_children S n Sn _ J)|]. destruct c as [q c]. apply children_in in J. destruct J as (w & _ & _ & ->). cbn [fst snd]. rewrite app_length. cbn. split; lia.
  - split; [assumption|]. split; [lia|auto].
Qed.
Lemma handed_inv : forall (n : path * tree B) cons f g c, fmm_inv n cons -> (forall x, In x cons -> shares x (f x) (g x)) -> (forall x, In x cons -> handed (fst n) x (g x)) -> In c (children n) -> fmm_inv c (flat_map g cons).
Proof.
  intros n cons f g c [[V C] L] Sh H I. destruct (shares_flat cons f g Sh) as [_ F]. destruct c as [q t]. apply children_in in I. destruct I as (w & _ & _ & ->). cbn [fst snd] in *. split; [split|].
  - intros x J. apply in_flat_map in J. destruct J as (y & J & K). apply (H y J _ K).
  - intros s. specialize (F s). specialize (C s). lia.
  - intros x J. apply in_flat_map in J. destruct J as (y & J & K). destruct (H y J _ K) as (_ & H1 & H2). cbn [fst]. rewrite app_length. cbn. rewrite Nat.add_1_r. auto.
Qed.

Lemma fmm_source : forall fuel p n, source_acts (@fmm A B fuel) (p, n) = srcacts lev2 (fun _ => false) p n.
Proof.
  intros. unfold source_acts, srcacts, is_leaf, lev2, fmm. cbn [snd fst generate aggregate]. destruct (n_children n =? 0), (2 <=? level p)%Z; try reflexivity. cbn [app]. rewrite app_nil_r. reflexivity.
Qed.
Lemma fmm97_source : forall fuel p n, source_acts (@fmm97 A B fuel) (p, n) = srcacts lev2 lev2 p n.
Proof.
  intros. unfold source_acts, srcacts, is_leaf, lev2, fmm97. cbn [snd fst generate aggregate]. destruct (n_children n =? 0), (2 <=? level p)%Z; reflexivity.
Qed.
Lemma lev3 : forall p, (3 <=? level p)%Z = match p with [] => false | _ => lev2 (parent_of p) end.
Proof.
  intros p. destruct p as [|x p _] using rev_ind; [reflexivity|]. rewrite parent_snoc. unfold level. rewrite idx_level, app_length. cbn [length].
  replace (match p ++ [x] with [] => false | _ :: _ => lev2 p end) with (lev2 p) by (destruct p; reflexivity). unfold lev2, level. rewrite idx_level. destruct (Z.leb_spec 2 (Z.of_nat (length p))); [apply Z.leb_le|apply Z.leb_gt]; lia.
Qed.
Lemma fmm_inherit : forall fuel n pi leaf, inherit (@fmm A B fuel) n pi leaf = inh lev2 (fst n) false leaf.
Proof. intros. unfold fmm, inh. cbn [inherit]. fold (lev2 (fst n)). rewrite lev3. reflexivity. Qed.
Lemma fmm97_inherit : forall fuel n pi leaf, inherit (@fmm97 A B fuel) n pi leaf = inh lev2 (fst n) pi leaf.
Proof. intros. unfold fmm97, inh. cbn [inherit]. fold (lev2 (fst n)). rewrite lev3. reflexivity. Qed.

(** ** The steps of FMM *)
Lemma fmm_inner_facts : forall p n, sub T p <> None -> sub S (fst n) = Some (snd n) -> length (fst n) <= length p -> (length (fst n) < length p -> is_leaf (snd n) = true) ->
  shares n (fst (fmm_inner p n)) (snd (fmm_inner p n)) /\ handed p n (snd (fmm_inner p n)) /\ forall a, In a (fst (fmm_inner p n)) -> flink p true a.
Proof.
  intros p n Tp Sn Le Lf. unfold fmm_inner. rewrite level_ltb. destruct (Nat.ltb_spec (length (fst n)) (length p)) as [L|L].
  - specialize (Lf L). destruct (well_sep_asym (idx_of p) (idx_of (fst n))) eqn:W; cbn [fst snd].
    + split; [eapply shares_link; reflexivity|]. split; [intros c []|]. intros a [<-|[]]. apply FL_StoL; [apply (leaf_iff _ _ _ _ HS8 Sn); assumption|assumption|]. apply asym_clear; [rewrite !idx_level; lia|assumption].
    + split; [apply shares_keep|]. split; [apply handed_keep; assumption|]. intros a [].
  - destruct (well_sep (idx_of (fst n)) (idx_of p)) eqn:W; cbn [fst snd].
    + split; [eapply shares_link; reflexivity|]. split; [intros c []|]. intros a [<-|[]]. apply FL_MtoL; [rewrite Sn; discriminate|lia|]. apply well_sep_apart. assumption.
    + split; [apply shares_descend; assumption|]. split; [apply handed_descend; [assumption|lia]|]. intros a [].
Qed.
Lemma fmm_leaf_facts : forall fuel p n, lower fuel S -> sub T p <> None -> sub S (fst n) = Some (snd n) -> length (fst n) <= length p -> (length (fst n) < length p -> is_leaf (snd n) = true) ->
  exists l, fmm_leaf fuel p n = Ok l /\ shares n l [] /\ forall a, In a l -> flink p false a.
Proof.
  intros fuel p n Lo Tp Sn Le Lf. unfold fmm_leaf. rewrite level_ltb. destruct (Nat.ltb_spec (length (fst n)) (length p)) as [L|L].
  - specialize (Lf L). destruct (well_sep_asym (idx_of p) (idx_of (fst n))) eqn:W; (eexists; split; [reflexivity|]; split; [eapply shares_link; reflexivity|]; intros a [<-|[]]).
    + apply FL_StoL; [apply (leaf_iff _ _ _ _ HS8 Sn); assumption|assumption|]. apply asym_clear; [rewrite !idx_level; lia|assumption].
    + apply FL_StoT; [reflexivity|]. apply (leaf_iff _ _ _ _ HS8 Sn). assumption.
  - destruct (well_sep (idx_of (fst n)) (idx_of p)) eqn:W.
    + eexists; split; [reflexivity|]; split; [eapply shares_link; reflexivity|]; intros a [<-|[]]. apply FL_MtoL; [rewrite Sn; discriminate|lia|]. apply well_sep_apart. assumption.
    + apply pcr_facts; auto. intros p' n' X. pose proof (lower_sub _ _ _ _ _ Lo Sn _ _ X). lia.
Qed.

(** ** Which level 2 targets receive anything *)
Lemma cover_pick : forall s (cons : list (path * tree A)), cnt s cons = 1 -> exists x, In x cons /\ prefix (fst x) s.
Proof.
  intros s cons H. unfold cnt in H. destruct (filter (fun n => prefixb (fst n) s) cons) as [|x l] eqn:F; [discriminate|].
  assert (I : In x (filter (fun n => prefixb (fst n) s) cons)) by (rewrite F; left; reflexivity). apply filter_In in I. destruct I as [I P]. exists x. split; [assumption|]. apply prefixb_iff. assumption.
Qed.
Lemma leaf_prefix : forall c s, leaf_at S c -> sub S s <> None -> prefix c s -> c = s.
Proof.
  intros c s (n & Sn & K) Ss [[|w r] ->]; [rewrite app_nil_r; reflexivity|]. exfalso. apply Ss. rewrite sub_app, Sn. cbn. rewrite K. reflexivity.
Qed.
Lemma leaf_under : forall fuel c, lower fuel S -> sub S c <> None -> exists s, leaf_at S s /\ prefix c s.
Proof.
  intros fuel c Lo Sc. destruct (sub S c) as [n|] eqn:E; [|contradiction]. destruct (leaf_below _ fuel n) as (r & m & Sr & K).
  { intros p' n' X. pose proof (lower_sub _ _ _ _ _ Lo E _ _ X). lia. }
  exists (c ++ r). split; [|exists r; reflexivity]. exists m. split; [rewrite sub_app, E; exact Sr|exact K].
Qed.
Lemma prefix_len : forall a b (s : path), prefix a s -> prefix b s -> length a = length b -> a = b.
Proof. intros a b s [r ->] [r' E] L. revert b E L. induction a as [|x a IH]; intros [|y b] E L; try discriminate; [reflexivity|]. cbn in *. injection E as -> E. f_equal. apply IH; [assumption|lia]. Qed.
(** The element of [consider] covering a box of the level of the target, or a leaf above. *)
Lemma cover_find : forall fuel (n : path * tree B) cons c, lower fuel S -> fmm_inv n cons -> (forall s, leaf_at S s -> cnt s cons = 1) ->
  (sub S c <> None /\ length c = length (fst n)) \/ (leaf_at S c /\ length c < length (fst n)) -> exists x, In x cons /\ fst x = c.
Proof.
  intros fuel n cons c Lo [[V _] L] Cv H. assert (Sc : sub S c <> None) by (destruct H as [[H _]|[H _]]; [assumption|apply leaf_sub; assumption]).
  destruct (leaf_under fuel c Lo Sc) as (s & Hs & Pc). destruct (cover_pick s cons (Cv s Hs)) as (x & I & Px). exists x. split; [assumption|]. destruct (L x I) as [L1 L2].
  destruct (Nat.eq_dec (length (fst x)) (length (fst n))) as [E|N].
  - destruct H as [[_ H]|[H1 H2]]; [apply (prefix_len _ _ s); auto; congruence|]. exfalso. assert (c = s) by (apply (leaf_prefix c s); auto; apply leaf_sub; assumption). subst c. destruct Px as [r Er]. rewrite Er, app_length in H2. lia.
  - assert (X : leaf_at S (fst x)) by (apply (leaf_iff _ _ _ _ HS8 (V x I)); apply L2; lia). assert (fst x = s) by (apply leaf_prefix; auto; apply leaf_sub; assumption). destruct H as [[_ H]|[H1 H2]].
    + exfalso. destruct Pc as [r Er]. rewrite <- H0 in Er. rewrite Er, app_length in N, L1. lia.
    + rewrite H0. symmetry. apply leaf_prefix; auto. apply leaf_sub. assumption.
Qed.
Lemma flink_low : forall p a, sub T p <> None -> length p < 2 -> flink p true a -> False.
Proof.
  intros p a Tp L H. pose proof (idx_grid _ _ _ HT8 Tp) as Gp. inversion H as [c Lc _ Cl|c Sc Le Ap|c R|c R]; try discriminate.
  - pose proof (clear_level _ (idx_of c) Gp (idx_grid _ _ S HS8 (leaf_sub c Lc)) Cl) as X. rewrite idx_level in X. lia.
  - pose proof (apart_level _ (idx_of p) (idx_grid _ _ S HS8 Sc) Gp) as X. rewrite !idx_level in X. specialize (X ltac:(lia) Ap). lia.
Qed.
Lemma flink_normal : forall p rf e q, flink p rf (Link e) -> eto e = (tgt q, Normal) -> q = p /\ far_source S p.
Proof.
  intros p rf e q H E. inversion H as [c Lc Lt Cl Eq|c Sc Le Ap Eq|c R Sc Le Cl Eq|c R Lc Eq]; subst e; try discriminate E; injection E as ->; (split; [reflexivity|]).
  - right. exists c. auto.
  - left. exists c. auto.
Qed.

Section Dag.
Context (fuel unif : nat) (same : bool).
Context (HSl : lower fuel S) (HTl : lower fuel T) (HSd : deep unif S) (HTd : deep unif T).
Let m := @fmm A B fuel.
Let ref n cons := refines m unif same n cons.

(** The links between the trees made at a target node. *)
Lemma fmm_process : forall n cons, sub T (fst n) = Some (snd n) -> fmm_inv n cons ->
  exists xs new, process m n cons (negb (ref n cons)) = Ok (xs ++ (if negb (ref n cons) && lev2 (fst n) then [do_LtoT (tgt (fst n)) (tgt (fst n))] else []), new) /\
    (forall a, In a xs -> flink (fst n) (ref n cons) a) /\ (forall s, ocnt s xs <= cnt s cons) /\
    (forall s, leaf_at S s -> ocnt s xs + (if ref n cons then cnt s new else 0) = cnt s cons) /\
    (ref n cons = true -> forall c, In c (children n) -> fmm_inv c new).
Proof.
  intros n cons Sn Iv. pose proof Iv as [[V C] L]. assert (Tp : sub T (fst n) <> None) by (rewrite Sn; discriminate). unfold m, fmm. cbn [process]. fold (lev2 (fst n)). destruct (ref n cons) eqn:R; cbn [negb andb].
  - exists (flat_map (fun s => fst (fmm_inner (fst n) s)) cons), (flat_map (fun s => snd (fmm_inner (fst n) s)) cons).
    assert (F : forall x, In x cons -> shares x (fst (fmm_inner (fst n) x)) (snd (fmm_inner (fst n) x)) /\ handed (fst n) x (snd (fmm_inner (fst n) x)) /\ forall a, In a (fst (fmm_inner (fst n) x)) -> flink (fst n) true a) by (intros x I; apply fmm_inner_facts; auto; apply L; assumption).
    destruct (shares_flat cons (fun s => fst (fmm_inner (fst n) s)) (fun s => snd (fmm_inner (fst n) s))) as [F1 F2]; [intros x I; apply (F x I)|].
    split; [rewrite app_nil_r; reflexivity|]. split; [|split; [|split]].
    + intros a I. apply in_flat_map in I. destruct I as (x & I & J). apply (F x I). assumption.
    + intros s. specialize (F2 s). lia.
    + exact F1.
    + intros _ c I. eapply (handed_inv n cons (fun s => fst (fmm_inner (fst n) s))); auto; intros x J; apply (F x J).
  - destruct (mapM_forall2 _ _ (fmm_leaf fuel (fst n)) (fun n0 x => shares n0 x [] /\ forall a, In a x -> flink (fst n) false a) cons) as (r & Hr & Fr).
    { intros x I. apply fmm_leaf_facts; auto; apply L; assumption. }
    destruct (shares_concat cons r) as [C1 C2]; [revert Fr; clear; induction 1 as [|? ? ? ? [] ]; constructor; assumption|].
    exists (concat r), cons. rewrite Hr. split; [reflexivity|]. split; [|split; [|split]].
    + intros a I. apply in_concat in I. destruct I as (x & I & J). revert I J. clear - Fr. induction Fr as [|? ? ? ? [_ F] ? IH]; intros I J; [destruct I|]. destruct I as [->|I]; [apply F; assumption|apply IH; assumption].
    + exact C2.
    + intros s Hs. rewrite (C1 s Hs). lia.
    + discriminate.
Qed.

Lemma fmm_cover : forall n pi cons acc, vis m unif same S T n pi cons acc -> length (fst n) <= 2 -> fmm_inv n cons /\ forall s, leaf_at S s -> cnt s cons = 1.
Proof.
  intros n pi cons acc H. unfold vis in H. pose proof H as G. induction H as [|n pi cons acc a2 cons' c H IH R P I]; intros L.
  - split; [apply fmm_inv_root|]. intros s _. rewrite cnt_one. reflexivity.
  - assert (Sn : sub T (fst n) = Some (snd n)) by (apply visited_sub in H; destruct H as (p & Ep & Sp); cbn in Ep, Sp; subst p; exact Sp). destruct c as [q t]. pose proof I as I0. apply children_in in I0. destruct I0 as (w & _ & _ & Eq). cbn [fst] in *. rewrite Eq, app_length in L. cbn in L.
    destruct (IH H) as [Iv Cv]; [lia|]. destruct (fmm_process n cons Sn Iv) as (xs & new & E & Fl & _ & Ct & N). unfold ref in *. rewrite R in *. cbn [negb] in E. rewrite P in E. injection E as _ <-. split; [apply N; [reflexivity|exact I]|].
    intros s Hs. specialize (Ct s Hs). rewrite (Cv s Hs) in Ct. destruct xs as [|a xs]; [exact Ct|]. exfalso. apply (flink_low (fst n) a); [rewrite Sn; discriminate|lia|]. apply Fl. left. reflexivity.
Qed.
Lemma fmm_far : forall n cons a2 c', sub T (fst n) = Some (snd n) -> fmm_inv n cons -> (forall s, leaf_at S s -> cnt s cons = 1) -> process m n cons (negb (ref n cons)) = Ok (a2, c') ->
  far_source S (fst n) -> exists e, In (Link e) a2 /\ eto e = (tgt (fst n), Normal).
Proof.
  intros n cons a2 c' Sn Iv Cv P Hf. assert (K : exists x, In x cons /\ exists e, eto e = (tgt (fst n), Normal) /\ fst (fmm_inner (fst n) x) = [Link e] /\ fmm_leaf fuel (fst n) x = Ok [Link e]).
  { destruct Hf as [(c & Sc & Lc & Ap)|(c & Hc & Lc & Cl)].
    - destruct (cover_find fuel n cons c HSl Iv Cv) as (x & I & <-); [auto|]. exists x. split; [assumption|]. unfold fmm_inner, fmm_leaf. rewrite level_ltb, Lc, Nat.ltb_irrefl. apply well_sep_apart in Ap. rewrite Ap. eexists. split; [|split; reflexivity]. reflexivity.
    - destruct (cover_find fuel n cons c HSl Iv Cv) as (x & I & <-); [auto|]. exists x. split; [assumption|]. unfold fmm_inner, fmm_leaf. rewrite level_ltb. replace (length (fst x) <? length (fst n)) with true by (symmetry; apply Nat.ltb_lt; assumption). apply asym_clear in Cl; [|rewrite !idx_level; lia]. rewrite Cl. eexists. split; [|split; reflexivity]. reflexivity. }
  destruct K as (x & I & e & Et & E1 & E2). exists e. split; [|assumption]. unfold m, fmm in P. cbn [process] in P. destruct (negb (ref n cons)).
  - destruct (mapM (fmm_leaf fuel (fst n)) cons) as [l|] eqn:M; [|discriminate P]. cbn [bind] in P. injection P as <- _. apply in_or_app. left. apply (mapM_concat_in _ _ _ _ _ M). exists x, [Link e]. cbn. auto.
  - injection P as <- _. apply in_flat_map. exists x. rewrite E1. cbn. auto.
Qed.

Lemma fmm_jcnt : forall s q p rf xs, (forall a, In a xs -> flink p rf a) -> jcnt s q (inh lev2 p false (negb rf) ++ xs ++ (if negb rf && lev2 p then [do_LtoT (tgt p) (tgt p)] else [])) = ocnt s xs.
Proof.
  intros s q p rf xs F. rewrite !jcnt_app, (jcnt_ocnt _ _ xs) by (intros a I; eapply flink_cross; exact (F a I)).
  rewrite inh_jcnt. replace (jcnt s q (if negb rf && lev2 p then [do_LtoT (tgt p) (tgt p)] else [])) with 0 by (destruct (negb rf && lev2 p); reflexivity). lia.
Qed.

Theorem fmm_dag_full : exists ss tt, create_dag m unif same fuel S T = Ok (ss, tt) /\
  (forall q, stops (ss ++ tt) q <-> exists n pi cons acc, vis m unif same S T n pi cons acc /\ fst n = q /\ refines m unif same n cons = false) /\
  (forall n pi cons acc, vis m unif same S T n pi cons acc -> sub T (fst n) = Some (snd n) /\ fmm_inv n cons) /\
  (forall e, In e (all_edges (ss ++ tt)) <-> (exists p n, sub S p = Some n /\ slink lev2 (fun _ => false) p n e) \/
     (exists n pi cons a2 c', (exists acc, vis m unif same S T n pi cons acc) /\ fmm_inv n cons /\ process m n cons (negb (refines m unif same n cons)) = Ok (a2, c') /\ In (Link e) (target_acts m unif same n pi cons a2))) /\
  good_dag S T (ss ++ tt) /\
  (forall e, In e (all_edges (ss ++ tt)) -> shape e) /\
  (forall x, In x (all_adds (ss ++ tt)) -> is_start S x \/ (fed (ss ++ tt) x <-> forall p, x = (tgt p, Normal) -> length p = 2 -> far_source S p)) /\
  (forall e, In e (all_edges (ss ++ tt)) -> (exists p n, sub S p = Some n /\ slink lev2 (fun _ => false) p n e) \/
     (exists p rf, sub T p <> None /\ (rf = false -> stops (ss ++ tt) p) /\ (In (Link e) (inh lev2 p false (negb rf)) \/ flink p rf (Link e) \/ (rf = false /\ lev2 p = true /\ e = LtoT_ p)))).
Proof.
  destruct (assemble m unif same fuel S T lev2 (fun _ => false) lev2 false HS8 HT8 HSl HTl HSd HTd) with (Inv := fmm_inv) (pc := fun s (p : path) (cons : list (path * tree A)) => cnt s cons) as (ss & tt & Hc & G & Sh & Ed & St & Vi & Ad & Fe); auto.
  - intros p w. apply lev2_snoc.
  - discriminate.
  - intros p w. apply lev2_snoc.
  - intros. apply fmm_source.
  - apply fmm_inv_root.
  - intros n cons a2 cons' c Sn Iv R P I. destruct (fmm_process n cons Sn Iv) as (xs & new & E & _ & _ & _ & N). unfold ref in *. rewrite R in *. cbn [negb] in E. rewrite P in E. injection E as _ <-. apply N; [reflexivity|assumption].
  - intros n pi cons a2 cons' Sn Iv P Hp1 Hp2 Hp3. destruct pi; [discriminate (Hp3 eq_refl)|]. destruct (fmm_process n cons Sn Iv) as (xs & new & E & Fl & Ct & _ & _). unfold ref in *. rewrite P in E. injection E as -> <-. exists xs, [], false. split; [|discriminate]. constructor.
    + unfold target_acts, m. rewrite fmm_inherit. rewrite app_nil_r. reflexivity.
    + discriminate.
    + intros a I. apply flink_tlink; [rewrite Sn; discriminate|]. apply Fl. assumption.
    + intros a [].
    + intros s. rewrite app_nil_r. specialize (Ct s). destruct Iv as [[_ C] _]. specialize (C s). lia.
    + discriminate.
  - intros n cons Sn Iv. destruct (fmm_process n cons Sn Iv) as (xs & new & E & _). eauto.
  - intros n pi cons a2 cons' Sn Iv R P s q c Hs I Pq. destruct (fmm_process n cons Sn Iv) as (xs & new & E & Fl & _ & Ct & _). unfold ref in *. rewrite R in *. cbn [negb] in E. rewrite P in E. injection E as -> <-. unfold target_acts. rewrite R. unfold m. rewrite fmm_inherit. pose proof (fmm_jcnt s q (fst n) true xs Fl) as J. cbn [negb andb] in J |- *. rewrite J. apply Ct. assumption.
  - intros n pi cons a2 cons' s Sn Iv R P Hs. destruct (fmm_process n cons Sn Iv) as (xs & new & E & Fl & _ & Ct & _). unfold ref in *. rewrite R in *. cbn [negb] in E. rewrite P in E. injection E as -> <-. unfold target_acts. rewrite R. unfold m. rewrite fmm_inherit. pose proof (fmm_jcnt s (fst n) (fst n) false xs Fl) as J. cbn [negb andb] in J |- *. rewrite J. specialize (Ct s Hs). lia.
  - exists ss, tt. split; [assumption|]. split; [exact St|]. split; [intros n pi cons acc V; destruct (Vi _ _ _ _ V) as (V1 & V2 & _); auto|]. split; [exact Ed|]. split; [assumption|]. split; [assumption|].
    match goal with |- _ /\ ?G => assert (Eg : G) end; [|split; [|exact Eg]].
    2: { intros x Ix. destruct (Fe x Ix) as [H|H]; [left; exact H|right]. split.
      - intros (e & Ie & Et) p -> Lp. destruct (Eg e Ie) as [(p' & n' & _ & Hs)|(p' & rf & Tp & _ & [J|[J|(_ & _ & ->)]])].
        + destruct Hs as [(-> & _)|[(w & _ & -> & _)|(-> & _)]]; discriminate Et.
        + unfold inh in J. cbn [app] in J. apply in_app_or in J. destruct J as [J|J]; [destruct (negb rf); [destruct J as [J|[]]; discriminate J|destruct J]|]. destruct (lev2 p') eqn:L2; [|destruct J]. destruct J as [J|J]; [discriminate J|]. destruct p' as [|y r]; [destruct J|]. destruct (lev2 (parent_of (y :: r))) eqn:L3; [|destruct J]. destruct J as [J|[]]. injection J as <-. cbn [eto] in Et. injection Et as <-. exfalso. apply lev2_iff in L3. destruct (snoc_parent (y :: r)) as [w W]; [discriminate|]. rewrite W, app_length in Lp. cbn [length] in Lp. lia.
        + destruct (flink_normal _ _ _ _ J Et) as [-> Hf]. exact Hf.
        + discriminate Et.
      - intros Hf. destruct H as [H|(n & pi & cons & acc & V & -> & L2 & Pi & Pa)]; [exact H|]. destruct (Vi _ _ _ _ V) as (Sn & Iv & _). apply lev2_iff in L2.
        assert (Ln : length (fst n) = 2).
        { destruct (fst n) as [|y r] eqn:En; [cbn in L2; lia|]. destruct (snoc_parent (y :: r)) as [w W]; [discriminate|]. specialize (Pa _ _ W). rewrite W, app_length in L2 |- *. cbn [length] in *. destruct (lev2 (parent_of (y :: r))) eqn:L3; [discriminate Pa|]. destruct (Nat.le_gt_cases 2 (length (parent_of (y :: r)))) as [X|X]; [apply lev2_iff in X; congruence|lia]. }
        destruct (fmm_cover n pi cons acc V) as [_ Cv]; [lia|]. destruct (fmm_process n cons Sn Iv) as (xs & new & E & _). destruct (fmm_far n cons _ _ Sn Iv Cv E (Hf _ eq_refl Ln)) as (e & Ie & Et). exists e. split; [|exact Et]. apply Ed. right. eexists n, pi, cons, _, _. split; [exists acc; exact V|]. split; [exact Iv|]. split; [exact E|]. unfold target_acts. apply in_or_app. right. exact Ie. }
    intros e I. apply Ed in I. destruct I as [I|(n & pi & cons & a2 & c' & (acc & V) & Iv & P & J)]; [left; exact I|]. right. destruct (Vi _ _ _ _ V) as (Sn & _). destruct (fmm_process n cons Sn Iv) as (xs & new & E & Fl & _). unfold ref in *. rewrite P in E. injection E as -> <-.
    exists (fst n), (refines m unif same n cons). split; [rewrite Sn; discriminate|]. split; [intros R; apply St; exists n, pi, cons, acc; auto|]. unfold target_acts in J. unfold m in J at 1. rewrite fmm_inherit in J. apply in_app_or in J. destruct J as [J|J]; [left; exact J|]. apply in_app_or in J. destruct J as [J|J]; [right; left; apply Fl; exact J|].
    right. right. destruct (refines m unif same n cons); [destruct J|]. cbn [negb andb] in J. destruct (lev2 (fst n)) eqn:L2; [|destruct J]. destruct J as [J|[]]. injection J as <-. auto.
Qed.
Theorem fmm_dag : exists ss tt, create_dag m unif same fuel S T = Ok (ss, tt) /\ good_dag S T (ss ++ tt) /\
  (forall e, In e (all_edges (ss ++ tt)) -> shape e) /\
  (forall x, In x (all_adds (ss ++ tt)) -> is_start S x \/ (fed (ss ++ tt) x <-> forall p, x = (tgt p, Normal) -> length p = 2 -> far_source S p)) /\
  (forall e, In e (all_edges (ss ++ tt)) -> (exists p n, sub S p = Some n /\ slink lev2 (fun _ => false) p n e) \/
     (exists p rf, sub T p <> None /\ (rf = false -> stops (ss ++ tt) p) /\ (In (Link e) (inh lev2 p false (negb rf)) \/ flink p rf (Link e) \/ (rf = false /\ lev2 p = true /\ e = LtoT_ p)))).
Proof. destruct fmm_dag_full as (ss & tt & Hc & _ & _ & _ & R). exists ss, tt. auto. Qed.
End Dag.
End Fmm.
