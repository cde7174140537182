(** The traversals, the ranks and colors they set, and the collected nodes. *)
From Coq Require Import ZArith List Bool Arith Lia Permutation Sorted.
From Verif Require Import Base ListFacts IndexModel IndexSpec GridModel GridSpec GridProofs TreeModel TreeFacts LookupModel DagModel DagSpec DagProofs DagPaths DagOrder MethodModel MethodProps LinkModel DistroModel DistroSpec DistroChoose.
Import ListNotations.
Open Scope nat_scope.

(** ** Which nodes the built-in methods add *)
Record tidy {A B} (m : method A B) : Prop := {
  td_gen : forall n x, In (Add x) (generate m n) -> fst x = src (fst n);
  td_genp : forall n, In (Add (src (fst n), Parts)) (generate m n);
  td_agg : forall n x, In (Add x) (aggregate m n) -> fst x = src (fst n) /\ snd x <> Parts;
  td_inh : forall n pi leaf x, In (Add x) (inherit m n pi leaf) -> fst x = tgt (fst n) /\ snd x <> Interm /\ (leaf = false -> snd x <> Parts);
  td_inhp : forall n pi, In (Add (tgt (fst n), Parts)) (inherit m n pi true);
  td_pro : forall n cons leaf a c, process m n cons leaf = Ok (a, c) -> forall x, In (Add x) a -> leaf = false /\ x = (tgt (fst n), Interm) }.

Lemma no_adds_flat : forall X (f : X -> list act) l x, (forall y z, In (Add z) (f y) -> False) -> ~ In (Add x) (flat_map f l).
Proof. intros X f l x H I. apply in_flat_map in I. destruct I as (y & _ & I). exact (H _ _ I). Qed.
Lemma no_adds_mapM : forall X (f : X -> res (list act)) l r x, mapM f l = Ok r -> (forall y a z, f y = Ok a -> In (Add z) a -> False) -> ~ In (Add x) (concat r).
Proof. intros X f l r x M H I. apply (mapM_concat_in _ _ f l r M) in I. destruct I as (y & ys & _ & E & I). exact (H _ _ _ E I). Qed.
Lemma rounds_no_adds : forall A (step : path * tree A -> list act * list (path * tree A)), (forall s x, In (Add x) (fst (step s)) -> False) ->
  forall fuel leaf cons a c, rounds step fuel leaf cons = Ok (a, c) -> forall x, ~ In (Add x) a.
Proof.
  intros A step H. induction fuel as [|fuel IH]; intros leaf cons a c E x I; [discriminate|]. cbn [rounds] in E.
  destruct (leaf && negb (nil_list (flat_map (fun s => snd (step s)) cons))).
  - destruct (rounds step fuel leaf (flat_map (fun s => snd (step s)) cons)) as [[a' c']|] eqn:E'; [|discriminate]. cbn in E. injection E as <- <-. apply in_app_or in I. destruct I as [I|I]; [|exact (IH _ _ _ _ E' x I)]. eapply no_adds_flat; [|exact I]. intros y z. apply H.
  - injection E as <- <-. eapply no_adds_flat; [|exact I]. intros y z. apply H.
Qed.
Lemma coll_no_adds : forall A fuel curr (s : path * tree A) a x, proc_coll_recur fuel curr s = Ok a -> ~ In (Add x) a.
Proof.
  intros A. induction fuel as [|fuel IH]; intros curr s a x E I; [discriminate|]. cbn [proc_coll_recur] in E.
  destruct (well_sep_asym _ _); [injection E as <-; destruct I as [I|[]]; discriminate|]. destruct (is_leaf (snd s)); [injection E as <-; destruct I as [I|[]]; discriminate|].
  destruct (mapM (proc_coll_recur fuel curr) (children s)) as [l|] eqn:M; [|discriminate]. injection E as <-. eapply no_adds_mapM; [exact M| |exact I]. intros y b z Ey. exact (IH _ _ _ z Ey).
Qed.
Ltac noadd := repeat match goal with
  | H : In _ (if ?b then _ else _) |- _ => destruct b
  | H : In _ (_ :: _) |- _ => destruct H as [H|H]
  | H : In _ [] |- _ => destruct H
  | H : _ \/ _ |- _ => destruct H as [H|H]
  | H : False |- _ => destruct H
  | H : In _ (_ ++ _) |- _ => apply in_app_or in H; destruct H as [H|H]
  | H : In _ (map _ _) |- _ => apply in_map_iff in H; destruct H as (? & H & _)
  | H : Link _ = Add _ |- _ => discriminate H
  end.

Lemma builtin_tidy : forall A B fuel (m : method A B), builtin fuel m -> tidy m.
Proof.
  intros A B fuel m Hm. destruct Hm as [|accept| |]; constructor.
  - intros n x I. cbn in I. noadd. injection I as <-. reflexivity.
  - intros n. left. reflexivity.
  - intros n x [].
  - intros n pi leaf x I. cbn in I. destruct leaf; [|destruct I]. destruct I as [I|[]]. injection I as <-. cbn. repeat split; try discriminate.
  - intros n pi. left. reflexivity.
  - intros n cons leaf a c E x I. exfalso. cbn [process direct] in E. eapply rounds_no_adds; [|exact E|exact I]. intros s y J. unfold direct_step in J. destruct (is_leaf (snd s)), leaf; cbn in J; noadd; discriminate.
  - intros n x I. cbn in I. destruct I as [I|[I|[I|[]]]]; try discriminate I; injection I as <-; reflexivity.
  - intros n. left. reflexivity.
  - intros n x I. destruct I as [I|I]; [injection I as <-; split; [reflexivity|discriminate]|]. noadd. discriminate I.
  - intros n pi leaf x I. cbn in I. destruct leaf; [|destruct I]. destruct I as [I|[]]. injection I as <-. cbn. repeat split; try discriminate.
  - intros n pi. left. reflexivity.
  - intros n cons leaf a c E x I. exfalso. cbn [process bh] in E. eapply rounds_no_adds; [|exact E|exact I]. intros s y J. unfold bh_step in J. destruct (accept (fst s) (fst n)), (is_leaf (snd s)), leaf; cbn in J; noadd; discriminate.
  - intros n x I. cbn [generate fmm] in I. destruct I as [I|I]; [injection I as <-; reflexivity|]. noadd; try discriminate I. injection I as <-. reflexivity.
  - intros n. left. reflexivity.
  - intros n x I. cbn [aggregate fmm] in I. destruct (2 <=? level (fst n))%Z; [|destruct I]. destruct I as [I|I]; [injection I as <-; split; [reflexivity|discriminate]|]. noadd. discriminate I.
  - intros n pi leaf x I. cbn [inherit fmm] in I. destruct leaf; noadd; try discriminate I; injection I as <-; cbn; repeat split; try discriminate.
  - intros n pi. cbn [inherit fmm]. left. reflexivity.
  - intros n cons leaf a c E x I. exfalso. cbn [process fmm] in E. destruct leaf.
    + destruct (mapM (fmm_leaf fuel (fst n)) cons) as [l|] eqn:M; [|discriminate]. cbn [bind] in E. injection E as <- <-. apply in_app_or in I. destruct I as [I|I]; [|noadd; discriminate I].
      eapply no_adds_mapM; [exact M| |exact I]. intros y b z Ey Iz. unfold fmm_leaf in Ey. destruct (_ <? _)%Z; [destruct (well_sep_asym _ _); injection Ey as <-; noadd; discriminate Iz|]. destruct (well_sep _ _); [injection Ey as <-; noadd; discriminate Iz|]. eapply coll_no_adds; eassumption.
    + injection E as <- <-. eapply no_adds_flat; [|exact I]. intros s z J. unfold fmm_inner in J. destruct (_ <? _)%Z; [destruct (well_sep_asym _ _)|destruct (well_sep _ _)]; cbn in J; noadd; discriminate J.
  - intros n x I. cbn [generate fmm97] in I. destruct I as [I|I]; [injection I as <-; reflexivity|]. noadd; try discriminate I; injection I as <-; reflexivity.
  - intros n. left. reflexivity.
  - intros n x I. cbn [aggregate fmm97] in I. destruct (2 <=? level (fst n))%Z; [|destruct I]. destruct I as [I|I]; [injection I as <-; split; [reflexivity|discriminate]|]. noadd; try discriminate I; injection I as <-; split; [reflexivity|discriminate].
  - intros n pi leaf x I. cbn [inherit fmm97] in I. destruct leaf; noadd; try discriminate I; injection I as <-; cbn; repeat split; try discriminate.
  - intros n pi. cbn [inherit fmm97]. left. reflexivity.
  - intros n cons leaf a c E x I. cbn [process fmm97] in E. destruct leaf.
    + exfalso. destruct (mapM (fmm97_leaf fuel (fst n)) cons) as [l|] eqn:M; [|discriminate]. cbn [bind] in E. injection E as <- <-. apply in_app_or in I. destruct I as [I|I]; [|noadd; discriminate I].
      eapply no_adds_mapM; [exact M| |exact I]. intros y b z Ey Iz. unfold fmm97_leaf in Ey. destruct (_ <? _)%Z; [destruct (well_sep_asym _ _); injection Ey as <-; noadd; discriminate Iz|]. destruct (negb (well_sep _ _)); [eapply coll_no_adds; eassumption|injection Ey as <-; destruct Iz].
    + injection E as <- <-. split; [reflexivity|]. apply in_app_or in I. destruct I as [I|I].
      * exfalso. eapply no_adds_flat; [|exact I]. intros s z J. unfold fmm97_inner in J. destruct (_ <? _)%Z; [destruct (well_sep_asym _ _)|destruct (negb (well_sep _ _))]; cbn in J; noadd; discriminate J.
      * destruct (nil_list _); [destruct I|]. destruct I as [I|I]; [injection I as <-; reflexivity|]. noadd. discriminate I.
Qed.

(** ** The visits are those of the traversals *)
Lemma mapM_both : forall X Y Z (f : X -> res (list Y)) (g : X -> res (list Z)) (R : Y -> Z -> Prop) l r,
  mapM f l = Ok r -> (forall x ys, In x l -> f x = Ok ys -> exists zs, g x = Ok zs /\ Forall2 R ys zs) ->
  exists r', mapM g l = Ok r' /\ Forall2 R (concat r) (concat r').
Proof.
  intros X Y Z f g R. induction l as [|x l IH]; intros r M H; cbn in M.
  - injection M as <-. exists []. split; [reflexivity|constructor].
  - destruct (f x) as [ys|] eqn:E; [|discriminate]. cbn in M. destruct (mapM f l) as [r0|] eqn:M0; [|discriminate]. cbn in M. injection M as <-.
    destruct (H x ys (or_introl eq_refl) E) as (zs & Ez & F). destruct (IH r0 eq_refl) as (r' & Er & F'); [intros; eapply H; [right; eassumption|assumption]|].
    exists (zs :: r'). cbn. rewrite Ez. cbn. rewrite Er. split; [reflexivity|]. apply Forall2_app; assumption.
Qed.

Definition bytes (p : path) : Prop := Forall (fun w => w < 8) p.
(** What a visit [v] and the actions [t] of its task have to do with each other. *)
Definition visit_of (unif : nat) (t : task) (v : owner * bool) : Prop :=
  fst t = fst v /\
  (forall x, In (Add x) (snd t) -> fst x = fst v /\ (snd x = Parts -> snd v = true) /\ (fst (fst v) = TgtTree -> snd v = true -> snd x <> Interm)) /\
  (snd v = true -> In (Add (fst v, Parts)) (snd t) /\ unif <= length (snd (fst v))) /\
  bytes (snd (fst v)).

Section Visits.
Context {A B : Type} (m : method A B) (unif : nat) (same : bool).
Hypothesis Hm : tidy m.

Lemma children_bytes : forall X (n : path * tree X) c, bytes (fst n) -> In c (children n) -> bytes (fst c).
Proof. intros X n [q c] Hb I. apply children_in in I. destruct I as (w & Hw & _ & ->). apply Forall_app. split; [assumption|]. constructor; [assumption|constructor]. Qed.

Lemma source_visits_ok : forall fuel n ts, source_apply m unif fuel n = Ok ts -> bytes (fst n) ->
  exists vs, source_visits fuel n = Ok vs /\ Forall2 (visit_of unif) ts vs.
Proof.
  induction fuel as [|fuel IH]; intros n ts H Hb; [discriminate|]. cbn [source_apply source_visits] in *. destruct (n_children (snd n) =? 0).
  - destruct (unif <=? length (fst n)) eqn:L; [|discriminate]. cbn in H. injection H as <-. eexists. split; [reflexivity|]. repeat constructor; cbn.
    + apply (td_gen _ Hm _ _ H).
    + discriminate.
    + intros. apply (td_genp _ Hm).
    + apply Nat.leb_le. assumption.
    + assumption.
  - destruct (mapM _ _) as [l|] eqn:M; [|discriminate]. cbn in H. injection H as <-.
    destruct (mapM_both _ _ _ _ (source_visits fuel) (visit_of unif) _ _ M) as (r' & -> & F).
    { intros x ys I E. apply IH; [assumption|]. eapply children_bytes; eassumption. }
    cbn [bind]. eexists. split; [reflexivity|]. apply Forall2_app; [assumption|]. repeat constructor; cbn.
    + apply (td_agg _ Hm _ _ H).
    + intros Q. exfalso. apply (proj2 (td_agg _ Hm _ _ H) Q).
    + discriminate.
    + discriminate.
    + discriminate.
    + assumption.
Qed.

Lemma target_visits_ok : forall fuel n pi cons ts, target_apply m unif same fuel n pi cons = Ok ts -> bytes (fst n) ->
  exists vs, target_visits m unif same fuel n pi cons = Ok vs /\ Forall2 (visit_of unif) ts vs.
Proof.
  induction fuel as [|fuel IH]; intros n pi cons ts H Hb; [discriminate|]. cbn [target_apply target_visits] in *.
  destruct (process m n cons (negb (refines m unif same n cons))) as [[a2 cons']|] eqn:P; [|discriminate]. cbn [bind] in *.
  destruct (refines m unif same n cons) eqn:R; cbn [negb] in *.
  - match type of H with context [mapM ?g ?l] => destruct (mapM g l) as [l'|] eqn:M; [|discriminate] end. cbn in H. injection H as <-.
    destruct (mapM_both _ _ _ _ (fun c => target_visits m unif same fuel c (existsb (is_add_interm (fst n)) (inherit m n pi false ++ a2)) cons') (visit_of unif) _ _ M) as (r' & -> & F).
    { intros x ys I E. apply IH; [assumption|]. eapply children_bytes; eassumption. }
    cbn [bind]. eexists. split; [reflexivity|]. constructor; [|assumption]. repeat split; cbn in *; try discriminate; try assumption; apply in_app_or in H; destruct H as [H|H].
    + apply (td_inh _ Hm _ _ _ _ H).
    + destruct (td_pro _ Hm _ _ _ _ _ P _ H) as [_ ->]. reflexivity.
    + intros Q. exfalso. destruct (td_inh _ Hm _ _ _ _ H) as (_ & _ & X). exact (X eq_refl Q).
    + intros Q. destruct (td_pro _ Hm _ _ _ _ _ P _ H) as [_ ->]. discriminate Q.
  - injection H as <-. eexists. split; [reflexivity|]. constructor; [|constructor]. repeat split; cbn in *; try assumption.
    + apply in_app_or in H. destruct H as [H|H]; [apply (td_inh _ Hm _ _ _ _ H)|]. destruct (td_pro _ Hm _ _ _ _ _ P _ H) as [X _]. discriminate X.
    + intros _ _. apply in_app_or in H. destruct H as [H|H]; [apply (td_inh _ Hm _ _ _ _ H)|]. destruct (td_pro _ Hm _ _ _ _ _ P _ H) as [X _]. discriminate X.
    + apply in_or_app. left. apply (td_inhp _ Hm).
    + unfold refines in R. destruct (length (fst n) <? unif) eqn:L; [discriminate|]. apply Nat.ltb_ge in L. assumption.
Qed.
End Visits.

(** ** The rank of a cell *)
Lemma root_in_grid : in_grid root_index.
Proof. unfold in_grid, root_index. cbn. lia. Qed.
Lemma pow8_nat : forall u : nat, Z.of_nat (8 ^ u) = (2 ^ Z.of_nat u * 2 ^ Z.of_nat u * 2 ^ Z.of_nat u)%Z.
Proof. intros u. rewrite <- pow8 by lia. rewrite Nat2Z.inj_pow. reflexivity. Qed.
Lemma cell_rank_ok : forall n unif rm p, unif <= 10 -> good_map n unif rm -> bytes p -> unif <= length p ->
  cell_rank rm unif p = Ok (home rm unif p) /\ in_range n (home rm unif p).
Proof.
  intros n unif rm p Hu [Ln Fr] Hb L. unfold cell_rank, home. destruct (Nat.leb_spec unif (length p)); [|lia].
  destruct (follow_facts p root_index root_in_grid Hb) as (G & Lv & _). fold (idx_of p) in G, Lv.
  change (ilevel root_index) with 0%Z in Lv.
  destruct (unif_index_correct (idx_of p) (Z.of_nat unif) ltac:(lia) G) as [_ U]. rewrite U by lia.
  assert (E : parent (ilevel (idx_of p) - Z.of_nat unif) (idx_of p) = idx_of (firstn unif p)).
  { assert (Hb1 : bytes (firstn unif p) /\ bytes (skipn unif p)). { apply Forall_app. rewrite firstn_skipn. assumption. } destruct Hb1 as [Hb1 Hb2].
    destruct (follow_facts (firstn unif p) root_index root_in_grid Hb1) as (G1 & _ & _).
    destruct (follow_facts (skipn unif p) _ G1 Hb2) as (_ & _ & P1).
    replace (ilevel (idx_of p) - Z.of_nat unif)%Z with (Z.of_nat (length (skipn unif p))) by (rewrite skipn_length; lia).
    replace (idx_of p) with (follow (follow root_index (firstn unif p)) (skipn unif p)); [assumption|].
    unfold idx_of, follow. rewrite <- fold_left_app, firstn_skipn. reflexivity. }
  rewrite E. assert (Hb1 : bytes (firstn unif p)). { assert (X : bytes (firstn unif p ++ skipn unif p)) by (rewrite firstn_skipn; assumption). apply Forall_app in X. apply X. }
  destruct (follow_facts (firstn unif p) root_index root_in_grid Hb1) as (G1 & Lv1 & _). fold (idx_of (firstn unif p)) in G1, Lv1. change (ilevel root_index) with 0%Z in Lv1. rewrite firstn_length, Nat.min_l in Lv1 by assumption.
  pose proof (slot_bounds _ (Z.of_nat unif) ltac:(lia) Lv1 G1) as Bd. rewrite <- pow8_nat, <- Ln in Bd.
  set (j := slot_of (idx_of (firstn unif p)) (Z.of_nat unif)) in *.
  assert (X : nth_error rm (Z.to_nat j) = Some (nth (Z.to_nat j) rm (-1)%Z)) by (apply nth_error_nth'; lia).
  split.
  - unfold nth_resZ, nth_res. destruct (j <? 0)%Z eqn:Q; [lia|]. rewrite X. reflexivity.
  - rewrite Forall_forall in Fr. apply Fr. eapply nth_error_In. exact X.
Qed.
Lemma inner_rank_ok : forall n unif rm p, 0 < n -> unif <= 10 -> good_map n unif rm -> bytes p ->
  inner_rank rm unif p = Ok (home rm unif p) /\ in_range n (home rm unif p).
Proof.
  intros n unif rm p Hn Hu G Hb. unfold inner_rank. destruct (Nat.leb_spec unif (length p)); [apply cell_rank_ok; assumption|].
  unfold home. destruct (Nat.leb_spec unif (length p)); [lia|]. split; [reflexivity|unfold in_range; lia].
Qed.

(** ** The ranks set while the DAG is built *)
Inductive pol_name := P_bh | P_fmm97 | P_none.
Definition pol_of (k : pol_name) : policy := match k with P_bh => bh_policy | P_fmm97 => fmm97_policy | P_none => no_policy end.
(** Is the node placed by its own visit? *)
Definition placed (k : pol_name) (x : dnode) (leaf : bool) : bool :=
  match snd x with
  | Parts => leaf
  | Normal => leaf || match k with P_fmm97 => true | _ => false end
  | Interm => match k, fst (fst x) with P_fmm97, SrcTree => true | _, _ => false end
  end.
Definition color (k : pol_name) (x : dnode) : Z :=
  let l := lvl (snd (fst x)) in
  match k, fst (fst x), snd x with
  | P_bh, SrcTree, Normal => -2 * l
  | P_bh, SrcTree, Interm => -2 * l + 1
  | P_bh, TgtTree, Normal => 2 * (l + 1)
  | P_bh, TgtTree, Interm => 2 * (l + 1) - 1
  | _, _, _ => 0
  end%Z.

Section Place.
Context (n unif : nat) (rm : list Z) (k : pol_name) (has : dnode -> bool).
Hypothesis Hn : 0 < n.
Hypothesis Hu : unif <= 10.
Hypothesis Hrm : good_map n unif rm.

Ltac upds := unfold set_loc, set_col in *; repeat match goal with
  | |- context [has ?x] => let E := fresh "E" in destruct (has x) eqn:E
  end; cbn [loc col]; unfold upd; repeat match goal with
  | |- context [dnode_dec ?a ?b] => let E := fresh "E" in destruct (dnode_dec a b) as [E|E]
  end; try congruence; try discriminate.

Lemma place_spec : forall v s, bytes (snd (fst v)) -> (snd v = true -> unif <= length (snd (fst v))) ->
  exists s', place unif rm (pol_of k) has v s = Ok s' /\
    (forall x, fst x <> fst v -> loc s' x = loc s x /\ col s' x = col s x) /\
    (forall x, fst x = fst v -> has x = true ->
       (snd x = Parts -> snd v = true) -> (fst (fst v) = TgtTree -> snd v = true -> snd x <> Interm) ->
       (loc s' x = if placed k x (snd v) then home rm unif (snd (fst v)) else loc s x) /\
       (k = P_bh -> placed k x (snd v) = false -> col s' x = color k x)).
Proof.
  intros [[sd p] leaf] s Hb Hl. cbn [fst snd] in *.
  assert (I : inner_rank rm unif p = Ok (home rm unif p)) by (apply (inner_rank_ok n); assumption).
  assert (C : leaf = true -> cell_rank rm unif p = Ok (home rm unif p)) by (intros Q; apply (cell_rank_ok n); auto).
  unfold place. destruct sd, leaf; rewrite ?I, ?(C eq_refl); cbn [bind]; eexists; (split; [reflexivity|]); (split;
    [intros [o kx] No; cbn [fst] in No; destruct k; cbn [pol_of assign_for_source assign_for_target bh_policy fmm97_policy no_policy]; split; upds
    |intros [[sx px] kx] E Hx Hp Hi; cbn [fst snd] in *; injection E as -> ->; destruct k, kx; cbn [pol_of assign_for_source assign_for_target bh_policy fmm97_policy no_policy]; unfold placed, color; cbn [fst snd orb]; try (exfalso; apply Hi; auto; fail); try (specialize (Hp eq_refl); discriminate Hp); (split; [upds|try discriminate; try (intros _; discriminate); intros _ _; upds])]).
Qed.
End Place.
