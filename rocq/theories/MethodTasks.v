(** The parts of the tasks that the built-in methods have in common. *)
From Coq Require Import ZArith List Bool Arith Lia Permutation FinFun.
From Verif Require Import Base ListFacts IndexModel IndexSpec IndexProofs TreeModel TreeFacts RefineModel LookupModel GeomModel DagModel DagSpec DagProofs MethodModel DagPaths DagExec DagSound MethodProofs.
Import ListNotations.
Open Scope nat_scope.

Definition lev2 (p : path) : bool := (2 <=? level p)%Z.
Lemma lev2_iff : forall p, lev2 p = true <-> 2 <= length p.
Proof. intros p. unfold lev2, level. rewrite idx_level, Z.leb_le. lia. Qed.
Lemma lev2_snoc : forall p w, lev2 p = true -> lev2 (p ++ [w]) = true.
Proof. intros p w H. apply lev2_iff in H. apply lev2_iff. rewrite app_length. lia. Qed.

Section Source.
Context {A B : Type} (S : tree A) (HS8 : eight S) (m : method A B) (msrc isrc : path -> bool).
(** What generate and aggregate come to. *)
Definition srcacts (p : path) (n : tree A) : list act :=
  (if is_leaf n then [add_parts (src p)] else []) ++
  (if msrc p then add_normal (src p) :: (if is_leaf n then [do_StoM (src p) (src p)] else map (fun k => do_MtoM (src p) (src (fst k))) (children (p, n))) ++
    (if isrc p then [add_interm (src p); do_MtoI (src p) (src p)] else []) else []).
Context (Hm : forall p n, sub S p = Some n -> source_acts m (p, n) = srcacts p n) (Hi : forall p, isrc p = true -> msrc p = true).

Lemma mtom_links : forall p (n : tree A), links (map (fun k => do_MtoM (src p) (src (fst k))) (children (p, n))) = map (fun k => mkEdge MtoM (src (fst k), Normal) (src p, Normal)) (children (p, n)).
Proof. intros p n. induction (children (p, n)) as [|k l IH]; [reflexivity|]. cbn. f_equal. exact IH. Qed.
Lemma mtom_adds : forall p (n : tree A), adds (map (fun k => do_MtoM (src p) (src (fst k))) (children (p, n))) = [].
Proof. intros p n. induction (children (p, n)) as [|k l IH]; [reflexivity|]. cbn. exact IH. Qed.

Lemma src_adds : forall p n, sub S p = Some n -> NoDup (adds (source_acts m (p, n))) /\
  forall x, In x (adds (source_acts m (p, n))) <-> (x = (src p, Parts) /\ is_leaf n = true) \/ (x = (src p, Normal) /\ msrc p = true) \/ (x = (src p, Interm) /\ isrc p = true).
Proof.
  intros p n Sn. rewrite (Hm _ _ Sn).
  assert (E : adds (srcacts p n) = (if is_leaf n then [(src p, Parts)] else []) ++ (if msrc p then (src p, Normal) :: (if isrc p then [(src p, Interm)] else []) else [])).
  { unfold srcacts. rewrite adds_app. f_equal; [destruct (is_leaf n); reflexivity|]. destruct (msrc p); [|reflexivity].
    match goal with |- adds (?a :: ?l) = _ => change (adds (a :: l)) with ((src p, Normal) :: adds l) end. f_equal. rewrite adds_app. destruct (is_leaf n); [|rewrite mtom_adds]; destruct (isrc p); reflexivity. }
  rewrite E. specialize (Hi p). split.
  - destruct (is_leaf n), (msrc p), (isrc p); cbn; repeat constructor; cbn; intuition congruence.
  - intros x. rewrite in_app_iff. destruct (is_leaf n), (msrc p), (isrc p); cbn; intuition (try congruence).
Qed.

Lemma src_links : forall p n, sub S p = Some n -> NoDup (links (source_acts m (p, n))) /\ forall e, In e (links (source_acts m (p, n))) <-> slink msrc isrc p n e.
Proof.
  intros p n Sn. rewrite (Hm _ _ Sn).
  assert (E : links (srcacts p n) = if msrc p then (if is_leaf n then [StoM_ p] else map (fun k => mkEdge MtoM (src (fst k), Normal) (src p, Normal)) (children (p, n))) ++ (if isrc p then [MtoI_ p] else []) else []).
  { unfold srcacts. rewrite links_app. replace (links (if is_leaf n then [add_parts (src p)] else [])) with (@nil edge) by (destruct (is_leaf n); reflexivity). cbn [app]. destruct (msrc p); [|reflexivity].
    match goal with |- links (?a :: ?l) = _ => change (links (a :: l)) with (links l) end. rewrite links_app. f_equal; [destruct (is_leaf n); [reflexivity|apply mtom_links]|destruct (isrc p); reflexivity]. }
  rewrite E. specialize (Hi p). 
  assert (Kl : is_leaf n = true -> forall w, kid n w = None) by (intros L; apply n_children_0; [exact (HS8 _ _ Sn)|apply Nat.eqb_eq; exact L]).
  assert (Km : forall e, In e (map (fun k => mkEdge MtoM (src (fst k), Normal) (src p, Normal)) (children (p, n))) <-> exists w, kid n w <> None /\ e = MtoM_ p w).
  { intros e. rewrite in_map_iff. split.
    - intros ([q c] & <- & I). apply children_in in I. destruct I as (w & _ & K & ->). exists w. cbn in K. rewrite K. split; [discriminate|reflexivity].
    - intros (w & K & ->). cbn [fst snd]. destruct (kid n w) as [c|] eqn:Kw; [|contradiction]. exists (p ++ [w], c). split; [reflexivity|]. apply children_in. exists w. cbn. split; [eapply kid_lt8; [exact (HS8 _ _ Sn)|exact Kw]|auto]. }
  split.
  - destruct (msrc p); [|constructor]. apply NoDup_app_intro'.
    + destruct (is_leaf n); [repeat constructor; intros []|]. rewrite <- (map_map fst (fun q => mkEdge MtoM (src q, Normal) (src p, Normal))). apply Injective_map_NoDup; [|apply children_nodup]. intros a b X. injection X as X. assumption.
    + destruct (isrc p); repeat constructor; intros [].
    + intros e I J. destruct (isrc p); [|destruct J]. destruct J as [<-|[]]. destruct (is_leaf n); [destruct I as [I|[]]; discriminate I|]. apply Km in I. destruct I as (w & _ & I). discriminate I.
  - intros e. unfold slink. destruct (msrc p).
    + rewrite in_app_iff. destruct (is_leaf n) eqn:L.
      * split.
        -- intros [[<-|[]]|I]; [left; auto|]. destruct (isrc p); [|destruct I]. destruct I as [<-|[]]. right. right. auto.
        -- intros [(-> & _)|[(w & K & _)|(-> & X)]]; [left; left; reflexivity|rewrite Kl in K by reflexivity; contradiction|right; rewrite X; left; reflexivity].
      * rewrite Km. split.
        -- intros [(w & K & ->)|I]; [right; left; eauto|]. destruct (isrc p); [|destruct I]. destruct I as [<-|[]]. right. right. auto.
        -- intros [(_ & X & _)|[(w & K & -> & _)|(-> & X)]]; [discriminate|left; eauto|right; rewrite X; left; reflexivity].
    + split; [intros []|]. intros [(_ & _ & X)|[(w & _ & _ & X)|(_ & X)]]; try discriminate. apply Hi in X. discriminate.
Qed.

Lemma src_prog : forall p n a1 e a2, sub S p = Some n -> source_acts m (p, n) = a1 ++ Link e :: a2 ->
  (fst (efrom e) = src p -> In (efrom e) (adds a1)) /\ In (eto e) (adds a1).
Proof.
  intros p n a1 e a2 Sn Ea. apply (prog_split0 (src p) a1 e a2). rewrite <- Ea, (Hm _ _ Sn). unfold srcacts. apply prog_app; [destruct (is_leaf n); cbn; auto|]. destruct (msrc p); [|exact I]. cbn [prog add_normal]. apply prog_app.
  - destruct (is_leaf n) eqn:L.
    + cbn. auto.
    + apply prog_links; [|intros x X; apply in_map_iff in X; destruct X as (k & X & _); discriminate X]. intros e' I. apply in_map_iff in I. destruct I as ([q c] & I & J). injection I as <-. cbn. apply children_in in J. destruct J as (w & _ & _ & ->). cbn [fst]. split; [|left; reflexivity].
      intros X. injection X as X. rewrite <- (app_nil_r p) in X at 2. apply app_inv_head in X. discriminate.
  - destruct (isrc p); [|exact I]. cbn. split; [intros _; right; apply in_or_app; right; left; reflexivity|]. auto.
Qed.
End Source.

Section Target.
Context {A B : Type} (S : tree A) (m : method A B) (unif : nat) (same : bool) (msrc isrc ltgt : path -> bool).
(** What inherit comes to. *)
Definition inh (p : path) (pi leaf : bool) : list act :=
  (if leaf then [add_parts (tgt p)] else []) ++
  (if ltgt p then add_normal (tgt p) :: (if pi then [do_ItoL (tgt p) (tgt (parent_of p))] else []) ++
     (if match p with [] => false | _ => ltgt (parent_of p) end then [do_LtoL (tgt p) (tgt (parent_of p))] else []) else []).
(** The action is a link from the source tree to the node [p]. *)
Definition crossing (ref : bool) (p : path) (a : act) : Prop :=
  exists e, a = Link e /\ cross e /\ tlink S msrc isrc ltgt p false ref e.

Context (Hl : forall p w, ltgt p = true -> ltgt (p ++ [w]) = true).
Lemma parent_snoc : forall p w, parent_of (p ++ [w]) = p.
Proof. intros. unfold parent_of. apply removelast_last. Qed.
Lemma snoc_parent : forall p, p <> [] -> exists w, p = parent_of p ++ [w].
Proof. intros p H. destruct p as [|x p _] using rev_ind; [contradiction|]. exists x. rewrite parent_snoc. reflexivity. Qed.

Lemma inh_adds : forall p pi leaf, adds (inh p pi leaf) = (if leaf then [(tgt p, Parts)] else []) ++ (if ltgt p then [(tgt p, Normal)] else []).
Proof.
  intros. unfold inh. rewrite adds_app. f_equal; [destruct leaf; reflexivity|]. destruct (ltgt p); [|reflexivity]. match goal with |- adds (?a :: ?l) = _ => change (adds (a :: l)) with ((tgt p, Normal) :: adds l) end. f_equal. rewrite adds_app. destruct pi, (match p with [] => false | _ => ltgt (parent_of p) end); reflexivity.
Qed.
Lemma inh_links : forall p pi leaf e, In e (links (inh p pi leaf)) <-> ltgt p = true /\ p <> [] /\
  ((pi = true /\ e = mkEdge ItoL (tgt (parent_of p), Interm) (tgt p, Normal)) \/ (ltgt (parent_of p) = true /\ e = mkEdge LtoL (tgt (parent_of p), Normal) (tgt p, Normal))) \/
  ltgt p = true /\ p = [] /\ pi = true /\ e = mkEdge ItoL (tgt (parent_of p), Interm) (tgt p, Normal).
Proof.
  intros p pi leaf e. unfold inh. rewrite links_app, in_app_iff. replace (links (if leaf then [add_parts (tgt p)] else [])) with (@nil edge) by (destruct leaf; reflexivity).
  destruct (ltgt p); [|cbn; intuition congruence]. match goal with |- context [links (?a :: ?l)] => change (links (a :: l)) with (links l) end. rewrite links_app, in_app_iff.
  destruct p as [|x p]; [destruct pi; cbn; intuition congruence|]. destruct pi, (ltgt (parent_of (x :: p))); cbn; intuition congruence.
Qed.
Lemma inh_nodup : forall p pi leaf, NoDup (links (inh p pi leaf)).
Proof.
  intros. unfold inh. rewrite links_app. replace (links (if leaf then [add_parts (tgt p)] else [])) with (@nil edge) by (destruct leaf; reflexivity). cbn [app].
  destruct (ltgt p); [|constructor]. match goal with |- context [links (?a :: ?l)] => change (links (a :: l)) with (links l) end. rewrite links_app. destruct pi, (match p with [] => false | _ => ltgt (parent_of p) end); cbn; repeat constructor; cbn; intuition congruence.
Qed.
Lemma inh_prog : forall p pi leaf k, (pi = true -> p <> []) -> prog (tgt p) k (inh p pi leaf).
Proof.
  intros p pi leaf k Hp. unfold inh. apply prog_app; [destruct leaf; cbn; auto|]. destruct (ltgt p); [|exact I]. cbn [prog add_normal].
  assert (N : p <> [] -> tgt (parent_of p) <> tgt p). { intros X Y. injection Y as Y. destruct (snoc_parent p X) as [w W]. rewrite <- Y in W at 1. rewrite <- (app_nil_r (parent_of p)) in W at 1. apply app_inv_head in W. discriminate. }
  apply prog_links.
  - intros e J. apply in_app_or in J. destruct J as [J|J].
    + destruct pi; [|destruct J]. destruct J as [J|[]]. injection J as <-. cbn. split; [intros X; exact (N (Hp eq_refl) X)|left; reflexivity].
    + destruct p as [|x p]; [destruct J|]. destruct (ltgt (parent_of (x :: p))); [|destruct J]. destruct J as [J|[]]. injection J as <-. cbn [efrom eto fst]. split; [apply N; discriminate|left; reflexivity].
  - intros n J. apply in_app_or in J. destruct J as [J|J]; [destruct pi; [destruct J as [J|[]]; discriminate J|destruct J]|]. destruct p as [|x p]; [destruct J|]. destruct (ltgt (parent_of (x :: p))); [destruct J as [J|[]]; discriminate J|destruct J].
Qed.
Lemma inh_jcnt : forall s q p pi leaf, jcnt s q (inh p pi leaf) = 0.
Proof.
  intros. unfold inh. rewrite jcnt_app. assert (X : jcnt s q (if leaf then [add_parts (tgt p)] else []) = 0) by (destruct leaf; reflexivity). rewrite X. destruct (ltgt p); [|reflexivity].
  match goal with |- 0 + jcnt s q (?a :: ?l) = 0 => change (jcnt s q (a :: l)) with (jcnt s q l) end. rewrite jcnt_app. destruct pi, (match p with [] => false | _ => ltgt (parent_of p) end); reflexivity.
Qed.

(** A whole target task. *)
Context (n : path * tree B) (pi ref : bool) (acts : list act).
Let p := fst n.
Context (xs : list act) (inter tail : bool).
(** [xs]: crossings to the parts or the normal expansion; [ys]: to the intermediate one. *)
Context (ys : list act).
Context (Hacts : acts = inh p pi (negb ref) ++ (xs ++ (if inter then add_interm (tgt p) :: ys else [])) ++ (if tail then [do_LtoT (tgt p) (tgt p)] else [])).
Context (Hpi : pi = true -> p <> []).
Context (Hpl : pi = true -> ltgt p = true).
Context (Hnil : ltgt [] = false).
Context (Htail : tail = negb ref && ltgt p).
Context (Hint : inter = true -> ref = true).
Context (Hxs : forall a, In a xs -> exists e, a = Link e /\ tlink S msrc isrc ltgt p false ref e /\ fst (fst (efrom e)) = SrcTree /\ snd (eto e) <> Interm).
Context (Hys : forall a, In a ys -> inter = true /\ exists c, a = do_ItoI (tgt p) (src c) /\ sub S c <> None /\ isrc c = true).
Context (Hcnt : forall s, ocnt s (xs ++ ys) <= 1).

Lemma xs_only : adds xs = [].
Proof. apply only_adds. intros x I. apply Hxs in I. destruct I as (e & X & _). discriminate X. Qed.
Lemma ys_only : adds ys = [].
Proof. apply only_adds. intros x I. apply Hys in I. destruct I as (_ & c & X & _). discriminate X. Qed.
Lemma t_adds_eq : adds acts = (if ref then [] else [(tgt p, Parts)]) ++ (if ltgt p then [(tgt p, Normal)] else []) ++ (if inter then [(tgt p, Interm)] else []).
Proof.
  pose proof ys_only as Yo. rewrite Hacts. rewrite !adds_app, inh_adds, xs_only. rewrite <- app_assoc. f_equal; [destruct ref; reflexivity|]. f_equal. cbn [app]. replace (adds (if tail then [do_LtoT (tgt p) (tgt p)] else [])) with (@nil dnode) by (destruct tail; reflexivity). rewrite app_nil_r. destruct inter; [|reflexivity].
  change (adds (add_interm (tgt p) :: ys)) with ((tgt p, Interm) :: adds ys). rewrite Yo. reflexivity.
Qed.
Lemma t_adds : NoDup (adds acts) /\ (forall x, In x (adds acts) -> fst x = tgt p) /\ (In (tgt p, Parts) (adds acts) <-> ref = false) /\ (ltgt p = true -> In (tgt p, Normal) (adds acts)) /\ (In (tgt p, Interm) (adds acts) <-> inter = true).
Proof.
  rewrite t_adds_eq. split; [|split; [|split; [|split]]].
  - destruct ref, (ltgt p), inter; cbn; repeat constructor; cbn; intuition congruence.
  - intros x. destruct ref, (ltgt p), inter; cbn; intuition (subst; reflexivity).
  - destruct ref, (ltgt p), inter; cbn; intuition congruence.
  - intros ->. destruct ref, inter; cbn; auto.
  - destruct ref, (ltgt p), inter; cbn; intuition congruence.
Qed.
Lemma t_links_in : forall e, In e (links acts) <-> In e (links (inh p pi (negb ref))) \/ In (Link e) (xs ++ ys) \/ (tail = true /\ e = LtoT_ p).
Proof.
  intros e. rewrite Hacts. rewrite !links_app, !in_app_iff. rewrite !(in_links e xs). 
  assert (Y : In e (links (if inter then add_interm (tgt p) :: ys else [])) <-> In (Link e) ys).
  { destruct inter eqn:Ei; [change (links (add_interm (tgt p) :: ys)) with (links ys); apply in_links|]. split; [intros []|]. intros J. apply Hys in J. destruct J as [J _]. discriminate J. }
  rewrite Y. assert (Z : In e (links (if tail then [do_LtoT (tgt p) (tgt p)] else [])) <-> tail = true /\ e = LtoT_ p).
  { destruct tail; [|split; [intros []|intros [X _]; discriminate X]]. change (links [do_LtoT (tgt p) (tgt p)]) with [LtoT_ p]. split; [intros [<-|[]]; auto|intros [_ ->]; left; reflexivity]. }
  rewrite Z. tauto.
Qed.
Lemma t_links : NoDup (links acts) /\ (forall e, In e (links acts) -> tlink S msrc isrc ltgt p pi ref e) /\
  (forall p0 w, p = p0 ++ [w] -> ltgt p0 = true -> In (LtoL_ p0 w) (links acts)) /\
  (forall p0 w, p = p0 ++ [w] -> pi = true -> In (ItoL_ p0 w) (links acts)) /\
  (ref = false -> ltgt p = true -> In (LtoT_ p) (links acts)).
Proof.
  assert (Cx : forall e, In (Link e) (xs ++ ys) -> fst (fst (efrom e)) = SrcTree /\ tlink S msrc isrc ltgt p pi ref e).
  { intros e J. apply in_app_or in J. destruct J as [J|J].
    - destruct (Hxs _ J) as (e' & X & L & F & _). injection X as <-. split; [assumption|]. destruct L; try (constructor; assumption). discriminate F.
    - destruct (Hys _ J) as (Ji & c & X & Sc & Ic). injection X as ->. split; [reflexivity|]. apply TL_ItoI; auto. }
  split; [|split; [|split; [|split]]].
  - rewrite Hacts. rewrite !links_app.
    assert (Y : links (if inter then add_interm (tgt p) :: ys else []) = links ys).
    { destruct inter eqn:Ei; [reflexivity|]. destruct (links ys) as [|e l] eqn:L; [reflexivity|]. assert (J : In e (links ys)) by (rewrite L; left; reflexivity). apply in_links, Hys in J. destruct J as [J _]. discriminate J. }
    rewrite Y. rewrite <- links_app. apply NoDup_app_intro'; [apply inh_nodup| |].
    + apply NoDup_app_intro'; [apply nodup_ocnt; [|exact Hcnt]|destruct tail; repeat constructor; intros []|].
      * intros e J. apply in_links in J. apply Cx. assumption.
      * intros e J K. apply in_links in J. apply Cx in J. destruct J as [J _]. destruct tail; [|destruct K]. destruct K as [<-|[]]. discriminate J.
    + intros e J K. apply inh_links in J. assert (Je : fst (fst (efrom e)) = TgtTree /\ eop e <> LtoT) by (destruct J as [(_ & _ & [[_ ->]|[_ ->]])|(_ & _ & _ & ->)]; split; try reflexivity; discriminate).
      apply in_app_or in K. destruct K as [K|K]; [apply in_links, Cx in K; destruct K, Je; congruence|]. destruct tail; [|destruct K]. destruct K as [<-|[]]. destruct Je as [_ Je]. apply Je. reflexivity.
  - intros e J. apply t_links_in in J. destruct J as [J|[J|[J ->]]].
    + apply inh_links in J. destruct J as [(L & Np & J)|(L & Np & X & _)]; [|exfalso; apply (Hpi X); assumption]. destruct (snoc_parent p Np) as [w W]. destruct J as [[X ->]|[X ->]].
      * rewrite W at 3. apply TL_ItoL; assumption.
      * rewrite W at 3. apply TL_LtoL; assumption.
    + apply Cx. assumption.
    + rewrite Htail in J. apply andb_true_iff in J. destruct J as [J _]. apply negb_true_iff in J. apply TL_LtoT. assumption.
  - intros p0 w E L. apply t_links_in. left. apply inh_links. left. rewrite E. split; [apply Hl; assumption|]. split; [destruct p0; discriminate|]. right. rewrite parent_snoc. auto.
  - intros p0 w E L. apply t_links_in. left. apply inh_links. left. split; [auto|]. split; [auto|]. left. split; [assumption|]. rewrite E, parent_snoc. reflexivity.
  - intros R L. apply t_links_in. right. right. rewrite Htail, R, L. auto.
Qed.
Lemma t_prog : forall a1 e a3, acts = a1 ++ Link e :: a3 -> (fst (efrom e) = tgt p -> In (efrom e) (adds a1)) /\ In (eto e) (adds a1).
Proof.
  intros a1 e a3 E. apply (prog_split0 (tgt p) a1 e a3). rewrite <- E, Hacts. apply prog_app; [apply inh_prog; exact Hpi|]. rewrite app_nil_r, inh_adds. 
  assert (Hx : prog (tgt p) ((if negb ref then [(tgt p, Parts)] else []) ++ (if ltgt p then [(tgt p, Normal)] else [])) xs).
  { apply prog_links; [|intros x I; apply Hxs in I; destruct I as (e' & X & _); discriminate X]. intros e' J. destruct (Hxs _ J) as (e2 & X & L & F & Kd). injection X as <-. split; [intros X; rewrite X in F; discriminate F|]. apply in_or_app.
    destruct L; cbn [eto efrom fst] in *; try discriminate F; try (rewrite H0; left; left; reflexivity); try (rewrite H1; first [left; left; reflexivity|right; left; reflexivity]); try (rewrite H0; right; left; reflexivity).
    exfalso. apply Kd. reflexivity. }
  apply prog_app; [apply prog_app; [exact Hx|]|].
  - destruct inter; [|exact I]. cbn [prog add_interm]. apply prog_links; [|intros x J; apply Hys in J; destruct J as (_ & c & X & _); discriminate X]. intros e' J. destruct (Hys _ J) as (_ & c & X & _). injection X as ->. cbn. split; [discriminate|left; reflexivity].
  - rewrite Htail. destruct ref; [exact I|]. destruct (ltgt p); [|exact I]. cbn. split; [intros _|split; [|exact I]]; apply in_or_app; right; cbn; auto.
Qed.
End Target.
