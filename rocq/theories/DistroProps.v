(** C41: the distribution policies. *)
From Coq Require Import ZArith List Bool Arith Lia Permutation Sorted.
From Verif Require Import Base ListFacts IndexModel TreeModel TreeFacts LookupModel DagModel DagSpec DagProofs DagPaths DagExec DagOrder MethodModel MethodProps EvalProps LinkModel DistroModel DistroSpec DistroChoose DistroProofs DistroRun.
Import ListNotations.
Open Scope nat_scope.

(** A DAG some schedule built with a built-in method on usable trees, and a rank for every uniform cell. *)
Definition setting {A B} (m : method A B) (unif fuel : nat) (same : bool) (S : tree A) (T : tree B) (n : nat) (rm : list Z) (d : dag) : Prop :=
  builtin fuel m /\ usable unif fuel S T /\ unif <= 10 /\ 0 < n /\ good_map n unif rm /\
  exists ss tt l, create_dag m unif same fuel S T = Ok (ss, tt) /\ schedule (ss ++ tt) l /\ run (map snd l) = Ok d.
(** The marks after the visits, in some order. *)
Definition visits {A B} (m : method A B) (unif fuel : nat) (same : bool) (S : tree A) (T : tree B) (vs : list (owner * bool)) : Prop :=
  exists sv tv, source_visits fuel ([], S) = Ok sv /\ target_visits m unif same fuel ([], T) false [([], S)] = Ok tv /\ Permutation vs (sv ++ tv).
(** The out-edges of the nodes, in the orders they were inserted. *)
Definition ordered_outs (d : dag) (outs : dnode -> list edge) : Prop := forall x, Permutation (outs x) (leaving x (dedges d)).

Lemma weight_perm : forall L weight a b r, Permutation a b -> weight_to L weight a r = weight_to L weight b r.
Proof. intros L weight a b r P. induction P; cbn; unfold weight_to in *; lia. Qed.
Lemma heaviest_perm : forall n L weight a b r, Permutation a b -> heaviest n L weight a r -> heaviest n L weight b r.
Proof. intros n L weight a b r P [R M]. split; [assumption|]. intros r' Hr'. rewrite <- !(weight_perm L weight a b) by assumption. auto. Qed.
Lemma settled_bh_iff : forall k d x, In x (dnodes d) -> k <> P_fmm97 -> placed k x (has d (fst x, Parts)) = true <-> settled_bh (dnodes d) x.
Proof.
  intros k d [o kx] Ix Hk. unfold placed, settled_bh. cbn [fst snd]. rewrite <- has_in. destruct kx; cbn.
  - split; [|tauto]. intros H; split; [assumption|discriminate].
  - destruct k; [|congruence|]; rewrite orb_false_r; (split; [|tauto]; intros H; split; [assumption|discriminate]).
  - destruct k; [|congruence|]; (split; [discriminate|intros [_ H]; congruence]).
Qed.
Lemma settled_fmm97_iff : forall d x, In x (dnodes d) -> placed P_fmm97 x (has d (fst x, Parts)) = true <-> settled_fmm97 x.
Proof.
  intros d [[sx px] kx] Ix. unfold placed, settled_fmm97. cbn [fst snd]. destruct kx; cbn.
  - rewrite (proj2 (has_in d _) Ix). split; [intros _ [_ H]; discriminate|reflexivity].
  - rewrite orb_true_r. split; [intros _ [_ H]; discriminate|reflexivity].
  - destruct sx; (split; [intros; try discriminate; intros [H' _]; discriminate|intros H'; try reflexivity]). exfalso. apply H'. auto.
Qed.
Lemma unpack : forall A B (m : method A B) unif fuel same S T n rm d, setting m unif fuel same S T n rm d ->
  exists ss tt, builtin fuel m /\ usable unif fuel S T /\ create_dag m unif same fuel S T = Ok (ss, tt) /\ (exists l, schedule (ss ++ tt) l /\ run (map snd l) = Ok d) /\ 0 < n /\ unif <= 10 /\ good_map n unif rm.
Proof. intros A B m unif fuel same S T n rm d (H1 & H2 & H3 & H4 & H5 & ss & tt & l & H6 & H7 & H8). exists ss, tt. split; [assumption|]. split; [assumption|]. split; [assumption|]. split; [exists l; auto|]. auto. Qed.

(** ** The ranks set during the construction *)
(** The visits succeed in every order; afterwards exactly the settled nodes have a rank. *)
Theorem C41_placing : forall A B (m : method A B) unif fuel same S T n rm d vs, setting m unif fuel same S T n rm d -> visits m unif fuel same S T vs ->
  (forall pol, pol = bh_policy \/ pol = no_policy -> exists s, place_all unif rm pol (has d) vs = Ok s /\
    forall x, In x (dnodes d) -> (settled_bh (dnodes d) x -> loc s x = home rm unif (snd (fst x)) /\ in_range n (loc s x)) /\ (~ settled_bh (dnodes d) x -> loc s x = -1)%Z) /\
  (exists s, place_all unif rm fmm97_policy (has d) vs = Ok s /\
    forall x, In x (dnodes d) -> (settled_fmm97 x -> loc s x = home rm unif (snd (fst x)) /\ in_range n (loc s x)) /\ (~ settled_fmm97 x -> loc s x = -1)%Z).
Proof.
  intros A B m unif fuel same S T n rm d vs H (sv & tv & Es & Et & P). apply unpack in H. destruct H as (ss & tt & Hm & Hus & Hc & Hd & Hn & Hu & Hrm).
  assert (G : forall k Q, (forall x, In x (dnodes d) -> placed k x (has d (fst x, Parts)) = true <-> Q x) -> exists s, place_all unif rm (pol_of k) (has d) vs = Ok s /\
    forall x, In x (dnodes d) -> (Q x -> loc s x = home rm unif (snd (fst x)) /\ in_range n (loc s x)) /\ (~ Q x -> loc s x = -1)%Z).
  { intros k Q Hq. destruct (place_built m unif fuel same S T ss tt d sv tv Hm Hus Hc Hd Es Et n rm k vs Hn Hu Hrm P) as (s & E & W). exists s. split; [assumption|]. intros x Ix. destruct (W x Ix) as (R & L & _). specialize (Hq x Ix). rewrite L. destruct (placed k x (has d (fst x, Parts))); split; intros Hx; try (split; [reflexivity|assumption]); try reflexivity; exfalso; [apply Hx; apply Hq; reflexivity|]. apply Hq in Hx. discriminate Hx. }
  split.
  - intros pol [->| ->]; [apply (G P_bh)|apply (G P_none)]; intros x Ix; apply settled_bh_iff; try assumption; discriminate.
  - apply (G P_fmm97). intros x Ix. apply settled_fmm97_iff. assumption.
Qed.
Print Assumptions C41_placing.

(** ** The policies *)
Theorem C41_barnes_hut : forall A B (m : method A B) unif fuel same S T n rm d vs s weight outs si st ti tl sources targets,
  setting m unif fuel same S T n rm d -> visits m unif fuel same S T vs -> place_all unif rm bh_policy (has d) vs = Ok s -> ordered_outs d outs ->
  collect (has d) SrcTree fuel ([], S) = Ok (si, st) -> collect (has d) TgtTree fuel ([], T) = Ok (ti, tl) ->
  sort_by_color s si sources -> sort_by_color s ti targets ->
  exists s', bh_compute n outs weight targets sources s = Ok s' /\ well_placed n unif rm (dnodes d) (dedges d) weight (settled_bh (dnodes d)) (loc s').
Proof.
  intros A B m unif fuel same S T n rm d vs s weight outs si st ti tl sources targets H (sv & tv & Es & Et & P) Ep Ho E1 E2 S1 S2. apply unpack in H. destruct H as (ss & tt & Hm & Hus & Hc & Hd & Hn & Hu & Hrm).
  destruct (place_built m unif fuel same S T ss tt d sv tv Hm Hus Hc Hd Es Et n rm P_bh vs Hn Hu Hrm P) as (s0 & E & W). change (pol_of P_bh) with bh_policy in E. rewrite Ep in E. injection E as <-.
  destruct (bh_built m unif fuel same S T ss tt d sv tv Hm Hus Hc Hd Es Et n rm weight outs s sources targets si st ti tl Hn W Ho E1 E2 S1 S2) as (s' & E & F). exists s'. split; [assumption|].
  intros x Ix. destruct (F x Ix) as [R Q]. split; [assumption|]. pose proof (settled_bh_iff P_bh d x Ix ltac:(discriminate)) as I. destruct (placed P_bh x (has d (fst x, Parts))); split; intros Hx.
  - assumption.
  - exfalso. apply Hx. apply I. reflexivity.
  - apply I in Hx. discriminate Hx.
  - eapply heaviest_perm; [apply Ho|assumption].
Qed.
Print Assumptions C41_barnes_hut.

Theorem C41_fmm97 : forall A B (m : method A B) unif fuel same S T n rm d vs s weight outs ti tl targets,
  setting m unif fuel same S T n rm d -> visits m unif fuel same S T vs -> place_all unif rm fmm97_policy (has d) vs = Ok s -> ordered_outs d outs ->
  collect (has d) TgtTree fuel ([], T) = Ok (ti, tl) -> sort_by_color s ti targets ->
  exists s', fmm97_compute n outs weight targets s = Ok s' /\ well_placed n unif rm (dnodes d) (dedges d) weight settled_fmm97 (loc s').
Proof.
  intros A B m unif fuel same S T n rm d vs s weight outs ti tl targets H (sv & tv & Es & Et & P) Ep Ho E2 S2. apply unpack in H. destruct H as (ss & tt & Hm & Hus & Hc & Hd & Hn & Hu & Hrm).
  destruct (place_built m unif fuel same S T ss tt d sv tv Hm Hus Hc Hd Es Et n rm P_fmm97 vs Hn Hu Hrm P) as (s0 & E & W). change (pol_of P_fmm97) with fmm97_policy in E. rewrite Ep in E. injection E as <-.
  destruct (fmm97_built m unif fuel same S T ss tt d sv tv Hm Hus Hc Hd Es Et n rm weight outs s targets ti tl Hn) as (s' & E & F); try assumption.
  { intros x Ix. destruct (W x Ix) as (R & L & _). auto. }
  exists s'. split; [assumption|].
  intros x Ix. destruct (F x Ix) as [R Q]. split; [assumption|]. pose proof (settled_fmm97_iff d x Ix) as I. destruct (placed P_fmm97 x (has d (fst x, Parts))); split; intros Hx.
  - assumption.
  - exfalso. apply Hx. apply I. reflexivity.
  - apply I in Hx. discriminate Hx.
  - eapply heaviest_perm; [apply Ho|assumption].
Qed.
Print Assumptions C41_fmm97.

(** Two placements of one DAG with the same settled nodes and the same weights agree: the ranks
    compute the same one, whatever the orders of their visits, edges and equal colors. *)
Theorem C41_same_on_all_ranks : forall A B (m : method A B) unif fuel same S T n rm d weight L L' settled,
  setting m unif fuel same S T n rm d -> (settled = settled_bh (dnodes d) \/ settled = settled_fmm97) ->
  well_placed n unif rm (dnodes d) (dedges d) weight settled L -> well_placed n unif rm (dnodes d) (dedges d) weight settled L' ->
  forall x, In x (dnodes d) -> L x = L' x.
Proof.
  intros A B m unif fuel same S T n rm d weight L L' settled H Hs W W'. pose proof H as H0. apply unpack in H. destruct H as (ss & tt & Hm & Hus & Hc & Hd & Hn & Hu & Hrm).
  destruct (visits_exist m unif fuel same S T ss tt Hm Hc) as (sv & tv & Es & Et).
  destruct (built m unif fuel same S T ss tt d Hm Hus Hc Hd) as (_ & _ & _ & Sh).
  assert (Dec : forall x, settled x \/ ~ settled x).
  { intros x. destruct Hs as [->| ->]; unfold settled_bh, settled_fmm97.
    - destruct (in_dec dnode_dec (fst x, Parts) (dnodes d)); [|tauto]. destruct (kind_dec (snd x) Interm); tauto.
    - destruct (side_dec (fst (fst x)) TgtTree), (kind_dec (snd x) Interm); tauto. }
  assert (Bd : forall x, In x (dnodes d) -> (rank x <= 3 + 2 * Z.of_nat fuel)%Z).
  { intros x Ix. pose proof (node_sub m unif fuel same S T ss tt d sv tv Hm Hus Hc Hd Es Et x Ix) as Q. destruct Hus as (_ & _ & LS & LT & _). destruct x as [[sx px] kx]. cbn [fst snd] in Q. destruct sx.
    - destruct (sub S px) eqn:E; [|congruence]. specialize (LS _ _ E). unfold rank. destruct kx; lia.
    - destruct (sub T px) eqn:E; [|congruence]. specialize (LT _ _ E). unfold rank. destruct kx; lia. }
  assert (G : forall (b : nat) x, In x (dnodes d) -> (3 + 2 * Z.of_nat fuel - rank x < Z.of_nat b)%Z -> L x = L' x).
  { induction b as [|b IH]; intros x Ix Hb; [specialize (Bd x Ix); lia|].
    destruct (W x Ix) as (R & Q1 & Q2), (W' x Ix) as (R' & Q1' & Q2'). destruct (Dec x) as [Sx|Sx]; [rewrite Q1, Q1' by assumption; reflexivity|].
    destruct (Q2 Sx) as [_ M], (Q2' Sx) as [_ M'].
    assert (Ew : forall r, weight_to L weight (leaving x (dedges d)) r = weight_to L' weight (leaving x (dedges d)) r).
    { intros r. apply weight_ext. intros e Ie. unfold leaving in Ie. apply filter_In in Ie. destruct Ie as [Ie Q]. destruct (dnode_dec (efrom e) x) as [Ef|]; [|discriminate]. destruct (Sh e Ie) as (She & _ & Nt). apply IH; [assumption|]. pose proof (shape_rank e She). subst x. lia. }
    specialize (M _ R'). specialize (M' _ R). rewrite <- !Ew in M'. destruct M as [M1 M2], M' as [M1' M2']. destruct (Z.lt_trichotomy (L x) (L' x)) as [C|[C|C]]; [specialize (M2' C); lia|assumption|specialize (M2 C); lia]. }
  intros x Ix. apply (G (Z.to_nat (4 + 2 * Z.of_nat fuel - rank x)) x Ix). pose proof (Bd x Ix). lia.
Qed.
Print Assumptions C41_same_on_all_ranks.

(** The two policies without weights: what has a rank keeps it, the rest gets one in range. *)
Lemma single_spec : forall w l s, let s' := fold_left (fun s x => if (loc s x <? 0)%Z then mkMarks (upd dnode_dec (loc s) x w) (col s) else s) l s in
  (0 <= w)%Z -> forall x, ((0 <= loc s x)%Z -> loc s' x = loc s x) /\ (~ In x l -> loc s' x = loc s x) /\ (In x l -> (loc s x < 0)%Z -> loc s' x = w).
Proof.
  intros w. induction l as [|y l IH]; intros s s' Hw x; [subst s'; cbn; tauto|]. subst s'. cbn [fold_left]. destruct (loc s y <? 0)%Z eqn:E.
  - destruct (IH (mkMarks (upd dnode_dec (loc s) y w) (col s)) Hw x) as (K1 & K2 & K3). cbn [loc] in *. unfold upd in *. destruct (dnode_dec x y) as [->|Q].
    + rewrite K1 by assumption. split; [lia|]. split; [intros N; exfalso; apply N; left; reflexivity|reflexivity].
    + split; [assumption|]. split; [intros N; apply K2; intros I; apply N; right; assumption|]. intros [->|I]; [congruence|]. auto.
  - destruct (IH s Hw x) as (K1 & K2 & K3). split; [assumption|]. split; [intros N; apply K2; intros I; apply N; right; assumption|]. intros [->|I] Hx; [lia|auto].
Qed.
Lemma random_spec : forall n draw, (forall k, in_range n (draw k)) -> forall l s k, let s' := fst (fold_left (fun '(s, k) x =>
    if (loc s x =? -1)%Z then (mkMarks (upd dnode_dec (loc s) x (draw k)) (col s), S k) else (s, k)) l (s, k)) in
  forall x, (loc s x <> -1 -> loc s' x = loc s x)%Z /\ (In x l -> loc s x = (-1)%Z -> in_range n (loc s' x)).
Proof.
  intros n draw Hd. induction l as [|y l IH]; intros s k s' x; [subst s'; cbn; tauto|]. subst s'. cbn [fold_left]. destruct (loc s y =? -1)%Z eqn:E.
  - destruct (IH (mkMarks (upd dnode_dec (loc s) y (draw k)) (col s)) (S k) x) as (K1 & K2). cbn [loc] in *. unfold upd in *. pose proof (Hd k) as R. unfold in_range in R. destruct (dnode_dec x y) as [->|Q].
    + rewrite K1 by lia. split; [lia|]. intros _ _. exact R.
    + split; [assumption|]. intros [->|I]; [congruence|]. auto.
  - destruct (IH s k x) as (K1 & K2). split; [assumption|]. intros [->|I] Hx; [lia|auto].
Qed.

Theorem C41_single : forall A B (m : method A B) unif fuel same S T n rm d vs s where_ si st ti tl,
  setting m unif fuel same S T n rm d -> visits m unif fuel same S T vs -> place_all unif rm no_policy (has d) vs = Ok s ->
  collect (has d) SrcTree fuel ([], S) = Ok (si, st) -> collect (has d) TgtTree fuel ([], T) = Ok (ti, tl) -> in_range n where_ ->
  forall x, In x (dnodes d) -> in_range n (loc (single_compute where_ si ti s) x) /\
    (settled_bh (dnodes d) x -> loc (single_compute where_ si ti s) x = home rm unif (snd (fst x))) /\
    (~ settled_bh (dnodes d) x -> loc (single_compute where_ si ti s) x = where_).
Proof.
  intros A B m unif fuel same S T n rm d vs s where_ si st ti tl H V Ep E1 E2 Hw x Ix. destruct (C41_placing A B m unif fuel same S T n rm d vs H V) as [G _]. destruct (G no_policy (or_intror eq_refl)) as (s0 & E0 & W). rewrite Ep in E0. injection E0 as <-.
  apply unpack in H. destruct H as (ss & tt & Hm & Hus & Hc & Hd & Hn & Hu & Hrm). destruct V as (sv & tv & Es & Et & P).
  destruct (collect_built m unif fuel same S T ss tt d sv tv Hm Hus Hc Hd Es Et) as (si' & st' & ti' & tl' & Ec' & Et' & Isi & _ & Iti & _). rewrite E1 in Ec'. injection Ec' as <- <-. rewrite E2 in Et'. injection Et' as <- <-.
  destruct (W x Ix) as [W1 W2]. unfold in_range in Hw. destruct (single_spec where_ (si ++ ti) s ltac:(lia) x) as (K1 & K2 & K3). fold (single_compute where_ si ti s) in K1, K2, K3.
  destruct (in_dec dnode_dec (fst x, Parts) (dnodes d)) as [Ip|Ip]; [destruct (kind_dec (snd x) Interm) as [Ki|Ki]|].
  - assert (N : ~ settled_bh (dnodes d) x) by (intros [_ Q]; contradiction). specialize (W2 N). assert (J : In x (si ++ ti)) by (apply in_or_app; rewrite Isi, Iti; destruct (fst (fst x)); [left|right]; repeat split; auto; congruence).
    rewrite (K3 J) by lia. split; [exact Hw|]. split; [contradiction|reflexivity].
  - assert (Y : settled_bh (dnodes d) x) by (split; assumption). destruct (W1 Y) as [L R]. rewrite K1 by (unfold in_range in R; lia). split; [assumption|]. split; [auto|contradiction].
  - assert (N : ~ settled_bh (dnodes d) x) by (intros [Q _]; contradiction). specialize (W2 N). assert (Kp : snd x <> Parts) by (intros Q; apply Ip; destruct x as [o kx]; cbn in *; subst kx; assumption).
    assert (J : In x (si ++ ti)) by (apply in_or_app; rewrite Isi, Iti; destruct (fst (fst x)); [left|right]; repeat split; auto).
    rewrite (K3 J) by lia. split; [exact Hw|]. split; [contradiction|reflexivity].
Qed.
Print Assumptions C41_single.

Theorem C41_random : forall A B (m : method A B) unif fuel same S T n rm d vs s draw si st ti tl,
  setting m unif fuel same S T n rm d -> visits m unif fuel same S T vs -> place_all unif rm no_policy (has d) vs = Ok s ->
  collect (has d) SrcTree fuel ([], S) = Ok (si, st) -> collect (has d) TgtTree fuel ([], T) = Ok (ti, tl) -> (forall k, in_range n (draw k)) ->
  exists s', random_compute draw st si ti tl s = Ok s' /\
    forall x, In x (dnodes d) -> in_range n (loc s' x) /\ (settled_bh (dnodes d) x -> loc s' x = home rm unif (snd (fst x))).
Proof.
  intros A B m unif fuel same S T n rm d vs s draw si st ti tl H V Ep E1 E2 Hw. destruct (C41_placing A B m unif fuel same S T n rm d vs H V) as [G _]. destruct (G no_policy (or_intror eq_refl)) as (s0 & E0 & W). rewrite Ep in E0. injection E0 as <-.
  apply unpack in H. destruct H as (ss & tt & Hm & Hus & Hc & Hd & Hn & Hu & Hrm). destruct V as (sv & tv & Es & Et & P).
  destruct (collect_built m unif fuel same S T ss tt d sv tv Hm Hus Hc Hd Es Et) as (si' & st' & ti' & tl' & Ec' & Et' & Isi & Ist & Iti & Itl). rewrite E1 in Ec'. injection Ec' as <- <-. rewrite E2 in Et'. injection Et' as <- <-.
  unfold random_compute. assert (As : forall l, (forall x, In x l -> In x (dnodes d) /\ snd x = Parts) -> foldM (fun (_ : unit) x => assert_ (negb (loc s x =? -1)%Z)) l Datatypes.tt = Ok Datatypes.tt).
  { induction l as [|x l IH]; intros Hl; [reflexivity|]. cbn [foldM]. destruct (Hl x (or_introl eq_refl)) as [Ix Kx]. destruct (W x Ix) as [W1 _]. destruct W1 as [L R]; [split; [destruct x as [o kx]; cbn in *; subst kx; assumption|rewrite Kx; discriminate]|]. unfold in_range in R. destruct (loc s x =? -1)%Z eqn:Q; [lia|]. cbn [negb assert_ bind]. apply IH. intros; apply Hl; right; assumption. }
  rewrite As; [|intros x Ix; apply in_app_or in Ix; rewrite Ist, Itl in Ix; tauto]. cbn [bind]. eexists. split; [reflexivity|]. intros x Ix.
  destruct (random_spec n draw Hw (si ++ ti) s 0 x) as (K1 & K2). destruct (W x Ix) as [W1 W2].
  assert (Dec : settled_bh (dnodes d) x \/ (~ settled_bh (dnodes d) x /\ snd x <> Parts)).
  { unfold settled_bh. destruct (in_dec dnode_dec (fst x, Parts) (dnodes d)) as [Ip|Ip]; [destruct (kind_dec (snd x) Interm) as [Ki|Ki]; [right; split; [tauto|congruence]|tauto]|]. right. split; [tauto|]. intros Q; apply Ip; destruct x as [o kx]; cbn in *; subst kx; assumption. }
  destruct Dec as [Y|[N Kp]].
  - destruct (W1 Y) as [L R]. rewrite K1 by (unfold in_range in R; lia). split; [assumption|auto].
  - specialize (W2 N). split; [|contradiction]. apply K2; [|assumption]. apply in_or_app; rewrite Isi, Iti; destruct (fst (fst x)); [left|right]; repeat split; auto.
Qed.
Print Assumptions C41_random.

(** Under every policy and after any of these computations the two ends of an StoM edge are on one rank. *)
Theorem C41_StoM_local : forall A B (m : method A B) unif fuel same S T n rm d L,
  setting m unif fuel same S T n rm d ->
  (forall x, In x (dnodes d) -> settled_bh (dnodes d) x -> L x = home rm unif (snd (fst x))) ->
  forall e, In e (dedges d) -> eop e = StoM -> L (efrom e) = L (eto e).
Proof.
  intros A B m unif fuel same S T n rm d L H Hs e Ie Ho. apply unpack in H. destruct H as (ss & tt & Hm & Hus & Hc & Hd & _). destruct (built m unif fuel same S T ss tt d Hm Hus Hc Hd) as (_ & _ & _ & Sh). destruct (Sh e Ie) as (She & Nf & Nt).
  inversion She; subst e; cbn [eop efrom eto] in *; try discriminate Ho. rewrite !Hs; try assumption; try reflexivity; split; try assumption; discriminate.
Qed.
Print Assumptions C41_StoM_local.

(** ** An instance *)
Fixpoint insert_by (c : dnode -> Z) (x : dnode) (l : list dnode) : list dnode :=
  match l with [] => [x] | y :: l' => if (c y <=? c x)%Z then x :: l else y :: insert_by c x l' end.
Fixpoint sort_by (c : dnode -> Z) (l : list dnode) : list dnode := match l with [] => [] | x :: l' => insert_by c x (sort_by c l') end.
Lemma sort_by_ok : forall s l, sort_by_color s l (sort_by (col s) l).
Proof.
  intros s. assert (Pi : forall x l, Permutation (x :: l) (insert_by (col s) x l)).
  { intros x l. induction l as [|y l IH]; cbn; [reflexivity|]. destruct (col s y <=? col s x)%Z; [reflexivity|]. rewrite perm_swap, IH. reflexivity. }
  assert (Si : forall x l, StronglySorted (fun a b => (col s b <= col s a)%Z) l -> StronglySorted (fun a b => (col s b <= col s a)%Z) (insert_by (col s) x l)).
  { intros x l H. induction H as [|y l H IH F]; cbn; [repeat constructor|]. destruct (col s y <=? col s x)%Z eqn:E.
    - constructor; [constructor; assumption|]. constructor; [lia|]. eapply Forall_impl; [|exact F]. cbn. intros; lia.
    - constructor; [assumption|]. apply Forall_forall. intros z Iz. apply (Permutation_in _ (Permutation_sym (Pi x l))) in Iz. destruct Iz as [<-|Iz]; [lia|]. rewrite Forall_forall in F. apply F. assumption. }
  induction l as [|x l [IP IS]]; cbn; [split; constructor|]. split; [rewrite <- Pi; constructor; assumption|]. apply Si. assumption.
Qed.
Definition ex_rm : list Z := [0; 1; 1; 2; 0; 1; 2; 2]%Z.
Definition ex_dag : dag := match create_dag (fmm97 4) 1 true 4 exS exT with
  | Ok (s1, t1) => match run (map snd (flat (s1 ++ t1))) with Ok d => d | Fail _ => mkDag [] [] end | Fail _ => mkDag [] [] end.
Definition ex_weight (e : edge) : Z := match eop e with MtoM => 3 | ItoI => 2 | LtoL => 4 | _ => 1 end.
Definition ex_result (bh_pol : bool) : list Z :=
  match (do sv <- source_visits 4 ([], exS); do tv <- target_visits (fmm97 4) 1 true 4 ([], exT) false [([], exS)];
         do s <- place_all 1 ex_rm (if bh_pol then bh_policy else fmm97_policy) (has ex_dag) (sv ++ tv);
         do c1 <- collect (has ex_dag) SrcTree 4 ([], exS); do c2 <- collect (has ex_dag) TgtTree 4 ([], exT);
         let outs x := leaving x (dedges ex_dag) in
         do s' <- (if bh_pol then bh_compute 3 outs ex_weight (sort_by (col s) (fst c2)) (sort_by (col s) (fst c1)) s
                   else fmm97_compute 3 outs ex_weight (sort_by (col s) (fst c2)) s);
         Ok (map (loc s') (dnodes ex_dag))) with Ok l => l | Fail _ => [] end.
Definition ex_ok : bool := match create_dag (fmm97 4) 1 true 4 exS exT with
  | Ok (s1, t1) => match run (map snd (flat (s1 ++ t1))) with Ok _ => true | Fail _ => false end | Fail _ => false end.
Lemma ex_ok_true : ex_ok = true. Proof. vm_compute. reflexivity. Qed.
Lemma ex_built : exists ss tt l, create_dag (fmm97 4) 1 true 4 exS exT = Ok (ss, tt) /\ schedule (ss ++ tt) l /\ run (map snd l) = Ok ex_dag.
Proof.
  pose proof ex_ok_true as H. unfold ex_ok in H. unfold ex_dag. destruct (create_dag (fmm97 4) 1 true 4 exS exT) as [[ss tt]|] eqn:E; [|discriminate]. exists ss, tt, (flat (ss ++ tt)). split; [reflexivity|]. split; [eapply sequential; [exact E|apply ex_usable]|]. destruct (run _); [reflexivity|discriminate].
Qed.
(** Three ranks; both policies give ranks to all 28 nodes, and not the same ones. *)
Lemma ex_results : length (ex_result true) = 28 /\ length (ex_result false) = 28 /\ nth 12 (ex_result true) 0%Z = 2%Z /\ nth 12 (ex_result false) 0%Z = 0%Z.
Proof. vm_compute. auto. Qed.
Example C41_nonvacuous : setting (fmm97 4) 1 4 true exS exT 3 ex_rm ex_dag /\ (exists vs, visits (fmm97 4) 1 4 true exS exT vs) /\
  (forall s l, exists l', sort_by_color s l l') /\ length (ex_result true) = 28 /\ length (ex_result false) = 28.
Proof.
  assert (Hs : setting (fmm97 4) 1 4 true exS exT 3 ex_rm ex_dag).
  { split; [constructor|]. split; [apply ex_usable|]. split; [lia|]. split; [lia|]. split; [|apply ex_built]. split; [reflexivity|]. repeat constructor; unfold in_range; lia. }
  split; [assumption|]. split; [|split; [intros s l; eexists; apply sort_by_ok|split; apply ex_results]].
  destruct Hs as (Hm & _ & _ & _ & _ & ss & tt & l & Hc & _). destruct (visits_exist (fmm97 4) 1 4 true exS exT ss tt Hm Hc) as (sv & tv & Es & Et). exists (sv ++ tv), sv, tv. split; [assumption|]. split; [assumption|reflexivity].
Qed.
