(** Proofs for C100. *)
From Coq Require Import ZArith List Bool Arith Lia Permutation.
From Verif Require Import Base ListFacts TreeModel TreeFacts LookupModel DagModel DagSpec DagProofs DagExec MethodModel MethodProps DistroModel DistroSpec DistroProofs DistroRun LcoModel LcoSpec.
Import ListNotations.
Open Scope nat_scope.

(** ** Making and destroying the LCOs *)
Definition inv (P : dnode -> Prop) (s : pool) : Prop :=
  one_each P s /\ (forall i, In i (alive s) -> i < total s).

Lemma make_ok : forall P s x, inv P s -> ~ P x -> inv (fun y => P y \/ y = x) (make s x).
Proof.
  intros P s x ((H1 & H2 & H3 & N) & H4) Nx.
  assert (Old : forall y, P y -> addx (make s x) y = addx s y).
  { intros y Py. cbn. destruct (dnode_dec y x) as [->|]; [contradiction|reflexivity]. }
  assert (New : addx (make s x) x = Some (total s)) by (cbn; destruct (dnode_dec x x); congruence).
  assert (Lt : forall y i, P y -> addx s y = Some i -> i < total s).
  { intros y i Py Ey. destruct (H1 y Py) as (j & Ej & Ij). rewrite Ey in Ej. injection Ej as ->. auto. }
  split; [split; [|split; [|split]]|].
  - intros y [Py| ->]; [rewrite (Old y Py); destruct (H1 y Py) as (i & Ei & Ii); exists i; cbn; auto|]. exists (total s). split; [assumption|left; reflexivity].
  - intros y z i [Py| ->] [Pz| ->] Ey Ez; [|exfalso|exfalso|reflexivity].
    + rewrite (Old y Py) in Ey. rewrite (Old z Pz) in Ez. eauto.
    + rewrite (Old y Py) in Ey. rewrite New in Ez. injection Ez as <-. specialize (Lt y _ Py Ey). lia.
    + rewrite (Old z Pz) in Ez. rewrite New in Ey. injection Ey as <-. specialize (Lt z _ Pz Ez). lia.
  - intros i [<-|Ii]; [exists x; auto|]. destruct (H3 i Ii) as (y & Py & Ey). exists y. rewrite (Old y Py). auto.
  - cbn. constructor; [|assumption]. intros I. specialize (H4 _ I). lia.
  - intros i [<-|Ii]; cbn; [lia|]. specialize (H4 i Ii). lia.
Qed.
Lemma inv_ext : forall P Q s, (forall x, P x <-> Q x) -> inv P s -> inv Q s.
Proof.
  intros P Q s E ((H1 & H2 & H3 & N) & H4). split; [split; [|split; [|split]]|]; auto.
  - intros x Qx. apply H1. apply E. assumption.
  - intros x y i Qx Qy. apply H2; apply E; assumption.
  - intros i I. destruct (H3 i I) as (x & Px & Ex). exists x. rewrite <- E. auto.
Qed.
Lemma makes_ok : forall l P s, inv P s -> NoDup l -> (forall x, In x l -> ~ P x) -> inv (fun y => P y \/ In y l) (fold_left make l s).
Proof.
  induction l as [|x l IH]; intros P s H N D; cbn [fold_left].
  - eapply inv_ext; [|exact H]. cbn. tauto.
  - inversion N as [|? ? Nx N']; subst. eapply inv_ext; [|apply (IH (fun y => P y \/ y = x))].
    + intros y. cbn. split; [intros [[?|?]|?]|intros [?|[?|?]]]; subst; auto.
    + apply make_ok; [assumption|]. apply D. left. reflexivity.
    + assumption.
    + intros y I [Py| ->]; [apply (D y); [right; assumption|assumption]|contradiction].
Qed.
Lemma pool0_ok : inv (fun _ => False) pool0.
Proof. split; [split; [|split; [|split]]|]; cbn; try tauto. constructor. Qed.

Lemma kill_ok : forall loc rank P s x, inv P s -> (loc x = rank -> P x) -> exists s', kill loc rank s x = Ok s' /\ inv (fun y => P y /\ ~ (loc x = rank /\ y = x)) s'.
Proof.
  intros loc rank P s x H Hx. unfold kill. destruct (Z.eqb_spec (loc x) rank) as [E|E].
  - destruct H as ((H1 & H2 & H3 & N) & H4). destruct (H1 x (Hx E)) as (i & Ei & Ii). rewrite Ei. destruct (in_dec Nat.eq_dec i (alive s)); [|contradiction]. eexists. split; [reflexivity|].
    split; [split; [|split; [|split]]|]; cbn [addx alive total].
    + intros y (Py & Ny). destruct (H1 y Py) as (j & Ej & Ij). exists j. split; [assumption|]. apply in_in_remove; [|assumption]. intros ->. apply Ny. split; [assumption|]. eapply H2; eauto.
    + intros y z j (Py & _) (Pz & _). apply H2; assumption.
    + intros j Ij. apply in_remove in Ij. destruct Ij as [Ij Nj]. destruct (H3 j Ij) as (y & Py & Ey). exists y. split; [|assumption]. split; [assumption|]. intros (_ & ->). congruence.
    + clear - N. induction (alive s) as [|a l IH]; [constructor|]. inversion N; subst. cbn. destruct (Nat.eq_dec i a); [apply IH; assumption|]. constructor; [|apply IH; assumption]. intros I. apply in_remove in I. tauto.
    + intros j Ij. apply in_remove in Ij. apply H4. tauto.
  - exists s. split; [reflexivity|]. eapply inv_ext; [|exact H]. intros y. cbn. tauto.
Qed.
Lemma kills_ok : forall loc rank l P s, inv P s -> NoDup l -> (forall x, In x l -> loc x = rank -> P x) ->
  exists s', foldM (kill loc rank) l s = Ok s' /\ inv (fun y => P y /\ ~ (loc y = rank /\ In y l)) s'.
Proof.
  intros loc rank. induction l as [|x l IH]; intros P s H N D; cbn [foldM].
  - exists s. split; [reflexivity|]. eapply inv_ext; [|exact H]. cbn. tauto.
  - inversion N as [|? ? Nx N']; subst. destruct (kill_ok loc rank P s x H (D x (or_introl eq_refl))) as (s1 & -> & H1). cbn [bind].
    destruct (IH _ s1 H1 N') as (s' & -> & H').
    { intros y Iy Ey. split; [apply D; [right; assumption|assumption]|]. intros (_ & ->). contradiction. }
    exists s'. split; [reflexivity|]. eapply inv_ext; [|exact H']. intros y. cbn. split; [intros ((Py & N1) & N2)|intros (Py & N1)]; repeat split; auto.
    + intros (Ey & [->|Iy]); [apply N1; auto|apply N2; auto].
    + intros (Ex & ->). apply N1. auto.
    + intros (Ey & Iy). apply N1. auto.
Qed.

(** ** Deleting the nodes *)
Lemma deletes_ok : forall l N, NoDup l -> (forall x, In x l -> In x N) -> exists N', foldM delete_node l N = Ok N' /\ forall x, In x N' <-> In x N /\ ~ In x l.
Proof.
  induction l as [|x l IH]; intros N Nd H; cbn [foldM].
  - exists N. split; [reflexivity|]. cbn. tauto.
  - inversion Nd as [|? ? Nx Nd']; subst. unfold delete_node at 1. destruct (in_dec dnode_dec x N) as [I|I]; [|exfalso; apply I; apply H; left; reflexivity]. cbn [bind].
    destruct (IH (remove dnode_dec x N) Nd') as (N' & -> & E).
    { intros y Iy. apply in_in_remove; [intros ->; contradiction|apply H; right; assumption]. }
    exists N'. split; [reflexivity|]. intros y. rewrite E. split.
    + intros (I1 & I2). apply in_remove in I1. split; [tauto|]. intros [->|I3]; tauto.
    + intros (I1 & I2). split; [|intros I3; apply I2; right; assumption]. apply in_in_remove; [intros ->; apply I2; left; reflexivity|assumption].
Qed.

(** ** The walks *)
(** No element twice in what the children give: what a child gives lies below it. *)
Lemma concat_nodup : forall X Y (f : path * tree X -> res Y) (g : Y -> list dnode) (q : path) (t : tree X) l, mapM f (children (q, t)) = Ok l ->
  (forall c y, In c (children (q, t)) -> f c = Ok y -> NoDup (g y) /\ forall x, In x (g y) -> prefix (fst c) (snd (fst x))) ->
  NoDup (concat (map g l)) /\ forall x, In x (concat (map g l)) -> exists c, In c (children (q, t)) /\ prefix (fst c) (snd (fst x)).
Proof.
  intros X Y f g q t l M H.
  assert (D : forall cs l, mapM f cs = Ok l -> NoDup (map fst cs) -> incl cs (children (q, t)) -> NoDup (concat (map g l)) /\ forall x, In x (concat (map g l)) -> exists c, In c cs /\ prefix (fst c) (snd (fst x))).
  { clear M l. induction cs as [|c cs IH]; intros l M N I; cbn in M.
    - injection M as <-. split; [constructor|intros x []].
    - destruct (f c) as [y|] eqn:Ey; [|discriminate]. cbn in M. destruct (mapM f cs) as [l0|] eqn:M0; [|discriminate]. cbn in M. injection M as <-. cbn [map concat]. cbn [map] in N. inversion N as [|? ? Nc N']; subst.
      destruct (H c y (I c (or_introl eq_refl)) Ey) as [H1 H2]. destruct (IH l0 eq_refl N') as [H3 H4]; [intros a Ia; apply I; right; assumption|]. split.
      + apply NoDup_app_intro'; [assumption|assumption|]. intros x I1 I2. destruct (H4 x I2) as (c' & Ic' & (r' & E')). destruct (H2 x I1) as (r & E).
        pose proof (I c (or_introl eq_refl)) as J. pose proof (I c' (or_intror Ic')) as J'. destruct c as [qc tc], c' as [qc' tc']. apply children_in in J. apply children_in in J'. destruct J as (w & _ & _ & ->), J' as (w' & _ & _ & ->). cbn [fst] in *.
        rewrite E in E'. rewrite <- !app_assoc in E'. apply app_inv_head in E'. injection E' as <- _. apply Nc. apply in_map_iff. exists (q ++ [w], tc'). auto.
      + intros x Ix. apply in_app_or in Ix. destruct Ix as [Ix|Ix]; [exists c; split; [left; reflexivity|auto]|]. destruct (H4 x Ix) as (c' & Ic' & P). exists c'. split; [right; assumption|assumption]. }
  exact (D _ _ M (children_nodup _ _) (fun a Ia => Ia)).
Qed.
Lemma below_child : forall X q (t : tree X) c p, In c (children (q, t)) -> prefix (fst c) p -> prefix q p /\ p <> q.
Proof.
  intros X q t [qc tc] p I (r & ->). apply children_in in I. destruct I as (w & _ & _ & ->). cbn [fst]. rewrite <- app_assoc. split; [eexists; reflexivity|]. intros E. rewrite <- (app_nil_r q) in E at 2. apply app_inv_head in E. discriminate.
Qed.
Lemma child_facts : forall X q (t : tree X) f, eight t -> lower (S f) t -> forall c, In c (children (q, t)) -> eight (snd c) /\ lower f (snd c).
Proof.
  intros X q t f E L [q' c] I. apply children_in in I. destruct I as (w & Hw & Kw & ->). cbn [fst snd] in *. split.
  - intros p n S. apply (E (w :: p)). cbn. rewrite Kw. assumption.
  - intros p n S. assert (X1 : sub t (w :: p) = Some n) by (cbn; rewrite Kw; assumption). specialize (L _ _ X1). cbn in L. lia.
Qed.
Lemma child_of : forall X q (t : tree X) w p n, eight t -> sub t (w :: p) = Some n -> exists c, In (q ++ [w], c) (children (q, t)) /\ sub c p = Some n.
Proof.
  intros X q t w p n E S. cbn in S. destruct (kid t w) as [c|] eqn:K; [|discriminate]. exists c. split; [|assumption]. apply children_in. exists w. split; [eapply kid_lt8; [apply (E [] t eq_refl)|eassumption]|auto].
Qed.
Lemma map_id' : forall X (l : list X), map (fun x => x) l = l.
Proof. intros. apply map_id. Qed.

Lemma one_facts : forall h o, NoDup (fst (collect_one h o)) /\ NoDup (snd (collect_one h o)) /\ (forall x, In x (fst (collect_one h o)) -> fst x = o) /\ (forall x, In x (snd (collect_one h o)) -> fst x = o).
Proof.
  intros h o. unfold collect_one. cbn [fst snd]. destruct (h (o, Normal)), (h (o, Interm)), (h (o, Parts)); cbn [app]; (split; [|split; [|split]]); repeat apply NoDup_cons; try apply NoDup_nil; cbn [In]; intuition (subst; try reflexivity; try congruence).
Qed.
Section Walks.
Context (h : dnode -> bool) (loc : dnode -> Z) (rank : Z).
Notation wants := (wanted h loc rank).
Lemma wants_in : forall x y, In y (wants x) <-> y = x /\ local h loc rank x = true.
Proof. intros x y. unfold wanted. destruct (local h loc rank x); cbn; split; try tauto; [intros [->|[]]; auto|intros (-> & _); auto|intros (_ & Q); discriminate]. Qed.
Lemma wants_nodup : forall o k k', k <> k' -> NoDup (wants (o, k) ++ wants (o, k')).
Proof.
  intros o k k' D. apply NoDup_app_intro'; [unfold wanted; destruct (local _ _ _ _); repeat constructor; cbn; tauto..|]. intros x I1 I2. apply wants_in in I1. apply wants_in in I2. destruct I1 as (-> & _), I2 as (E & _). congruence.
Qed.
Lemma create_S_ok : forall X fuel (n : path * tree X), eight (snd n) -> lower fuel (snd n) ->
  exists ws, create_S h loc rank fuel n = Ok ws /\ NoDup ws /\
    (forall x, In x ws -> local h loc rank x = true /\ fst (fst x) = SrcTree /\ snd x <> Parts /\ prefix (fst n) (snd (fst x))) /\
    (forall p k, sub (snd n) p <> None -> k <> Parts -> local h loc rank ((SrcTree, fst n ++ p), k) = true -> In ((SrcTree, fst n ++ p), k) ws).
Proof.
  intros X. induction fuel as [|fuel IH]; intros [q t] E L; cbn [fst snd] in *; [specialize (L [] t eq_refl); cbn in L; lia|]. cbn [create_S fst].
  pose proof (child_facts X q t fuel E L) as K.
  destruct (mapM_total _ _ (create_S h loc rank fuel) (children (q, t))) as [l M].
  { intros c I. destruct (K c I) as [Ec Lc]. destruct (IH c Ec Lc) as (ws & -> & _). eauto. }
  rewrite M. cbn [bind]. eexists. split; [reflexivity|].
  assert (Hc : forall c ys, In c (children (q, t)) -> create_S h loc rank fuel c = Ok ys -> NoDup ys /\ forall x, In x ys -> local h loc rank x = true /\ fst (fst x) = SrcTree /\ snd x <> Parts /\ prefix (fst c) (snd (fst x))).
  { intros c ys I Ey. destruct (K c I) as [Ec Lc]. destruct (IH c Ec Lc) as (ws & Ew & H1 & H2 & _). rewrite Ew in Ey. injection Ey as <-. auto. }
  destruct (concat_nodup X (list dnode) _ (fun y => y) q t l M) as [N1 N2].
  { intros c y I Ey. destruct (Hc c y I Ey) as [H1 H2]. split; [assumption|]. intros x Ix. apply (H2 x Ix). }
  rewrite map_id' in N1, N2. split; [|split].
  - rewrite app_assoc. apply NoDup_app_intro'; [apply wants_nodup; discriminate|assumption|]. intros x I1 I2. destruct (N2 x I2) as (c & Ic & P). destruct (below_child X q t c _ Ic P) as [_ D]. apply D. apply in_app_or in I1. destruct I1 as [I1|I1]; apply wants_in in I1; destruct I1 as (-> & _); reflexivity.
  - intros x I. rewrite !in_app_iff, !wants_in in I. destruct I as [(-> & Lx)|[(-> & Lx)|I]]; [| |].
    + split; [assumption|]. split; [reflexivity|]. split; [discriminate|]. exists []. rewrite app_nil_r. reflexivity.
    + split; [assumption|]. split; [reflexivity|]. split; [discriminate|]. exists []. rewrite app_nil_r. reflexivity.
    + apply (mapM_concat_in _ _ _ _ _ M) in I. destruct I as (c & ys & Ic & Ey & Iy). destruct (Hc c ys Ic Ey) as [_ H2]. destruct (H2 x Iy) as (H3 & H4 & H5 & H6). repeat split; auto. apply (below_child X q t c _ Ic H6).
  - intros p k Sp Nk Lx. rewrite !in_app_iff, !wants_in. destruct p as [|w p].
    + rewrite app_nil_r in *. destruct k; [congruence|left; auto|right; left; auto].
    + right. right. destruct (sub t (w :: p)) as [n|] eqn:S; [|congruence]. destruct (child_of X q t w p n E S) as (c & Ic & Sc). apply (mapM_concat_in _ _ _ _ _ M). destruct (K _ Ic) as [Ec Lc]. destruct (IH _ Ec Lc) as (ws & Ew & _ & _ & H3). exists (q ++ [w], c), ws. split; [assumption|]. split; [assumption|]. cbn [fst snd] in H3. replace (q ++ w :: p) with ((q ++ [w]) ++ p) in * by (rewrite <- app_assoc; reflexivity). apply H3; [congruence|assumption|assumption].
Qed.
Lemma create_T_ok : forall X fuel (n : path * tree X), eight (snd n) -> lower fuel (snd n) ->
  exists ws, create_T h loc rank fuel n = Ok ws /\ NoDup ws /\
    (forall x, In x ws -> local h loc rank x = true /\ fst (fst x) = TgtTree /\ prefix (fst n) (snd (fst x))) /\
    (forall p k, sub (snd n) p <> None -> local h loc rank ((TgtTree, fst n ++ p), k) = true -> (forall p' w r, p = p' ++ w :: r -> h ((TgtTree, fst n ++ p'), Parts) = false) ->
       In ((TgtTree, fst n ++ p), k) ws).
Proof.
  intros X. induction fuel as [|fuel IH]; intros [q t] E L; cbn [fst snd] in *; [specialize (L [] t eq_refl); cbn in L; lia|]. cbn [create_T fst].
  destruct (h ((TgtTree, q), Parts)) eqn:Hp.
  - eexists. split; [reflexivity|]. split; [|split].
    + apply NoDup_app_intro'; [apply wants_nodup; discriminate|unfold wanted; destruct (local _ _ _ _); repeat constructor; cbn; tauto|]. intros x I1 I2. rewrite in_app_iff, !wants_in in *. destruct I2 as (-> & _), I1 as [(Q & _)|(Q & _)]; discriminate.
    + intros x I. rewrite !in_app_iff, !wants_in in I. destruct I as [[(-> & Lx)|(-> & Lx)]|(-> & Lx)]; (split; [assumption|]); (split; [reflexivity|]); exists []; rewrite app_nil_r; reflexivity.
    + intros p k Sp Lx Hn. rewrite !in_app_iff, !wants_in. destruct p as [|w p].
      * rewrite app_nil_r in *. destruct k; [right|left; left|left; right]; auto.
      * specialize (Hn [] w p eq_refl). rewrite app_nil_r in Hn. congruence.
  - pose proof (child_facts X q t fuel E L) as K.
    destruct (mapM_total _ _ (create_T h loc rank fuel) (children (q, t))) as [l M].
    { intros c I. destruct (K c I) as [Ec Lc]. destruct (IH c Ec Lc) as (ws & -> & _). eauto. }
    rewrite M. cbn [bind]. eexists. split; [reflexivity|].
    assert (Hc : forall c ys, In c (children (q, t)) -> create_T h loc rank fuel c = Ok ys -> NoDup ys /\ forall x, In x ys -> local h loc rank x = true /\ fst (fst x) = TgtTree /\ prefix (fst c) (snd (fst x))).
    { intros c ys I Ey. destruct (K c I) as [Ec Lc]. destruct (IH c Ec Lc) as (ws & Ew & H1 & H2 & _). rewrite Ew in Ey. injection Ey as <-. auto. }
    destruct (concat_nodup X (list dnode) _ (fun y => y) q t l M) as [N1 N2].
    { intros c y I Ey. destruct (Hc c y I Ey) as [H1 H2]. split; [assumption|]. intros x Ix. apply (H2 x Ix). }
    rewrite map_id' in N1, N2. split; [|split].
    + apply NoDup_app_intro'; [apply wants_nodup; discriminate|assumption|]. intros x I1 I2. destruct (N2 x I2) as (c & Ic & P). destruct (below_child X q t c _ Ic P) as [_ D]. apply D. apply in_app_or in I1. destruct I1 as [I1|I1]; apply wants_in in I1; destruct I1 as (-> & _); reflexivity.
    + intros x I. rewrite !in_app_iff, !wants_in in I. destruct I as [[(-> & Lx)|(-> & Lx)]|I]; [split; [assumption|]; split; [reflexivity|]; exists []; rewrite app_nil_r; reflexivity..|].
      apply (mapM_concat_in _ _ _ _ _ M) in I. destruct I as (c & ys & Ic & Ey & Iy). destruct (Hc c ys Ic Ey) as [_ H2]. destruct (H2 x Iy) as (H3 & H4 & H6). repeat split; auto. apply (below_child X q t c _ Ic H6).
    + intros p k Sp Lx Hn. rewrite !in_app_iff, !wants_in. destruct p as [|w p].
      * rewrite app_nil_r in *. destruct k; [|left; left; auto|left; right; auto]. exfalso. unfold local in Lx. rewrite Hp in Lx. discriminate.
      * right. destruct (sub t (w :: p)) as [n|] eqn:S; [|congruence]. destruct (child_of X q t w p n E S) as (c & Ic & Sc). apply (mapM_concat_in _ _ _ _ _ M). destruct (K _ Ic) as [Ec Lc]. destruct (IH _ Ec Lc) as (ws & Ew & _ & _ & H3). exists (q ++ [w], c), ws. split; [assumption|]. split; [assumption|]. cbn [fst snd] in H3. replace (q ++ w :: p) with ((q ++ [w]) ++ p) in * by (rewrite <- app_assoc; reflexivity). apply H3; [congruence|assumption|].
        intros p' w' r ->. rewrite <- app_assoc. apply (Hn (w :: p') w' r). reflexivity.
Qed.
Lemma collect_nodup : forall X sd fuel (n : path * tree X) r, collect h sd fuel n = Ok r ->
  NoDup (fst r) /\ NoDup (snd r) /\ (forall x, In x (fst r) -> prefix (fst n) (snd (fst x))) /\ (forall x, In x (snd r) -> prefix (fst n) (snd (fst x))).
Proof.
  intros X sd. induction fuel as [|fuel IH]; intros [q t] r H; [discriminate|]. cbn [collect fst] in *. destruct (mapM _ _) as [l|] eqn:M; [|discriminate]. cbn [bind] in H. injection H as <-. cbn [fst snd].
  assert (Own : forall k, prefix q (snd (fst (((sd, q), k) : dnode)))) by (intros k; exists []; rewrite app_nil_r; reflexivity).
  destruct (concat_nodup X _ _ fst q t l M) as [A1 A2]. { intros c y Ic Ey. destruct (IH c y Ey) as (B1 & B2 & B3 & B4). auto. }
  destruct (concat_nodup X _ _ snd q t l M) as [C1 C2]. { intros c y Ic Ey. destruct (IH c y Ey) as (B1 & B2 & B3 & B4). auto. }
  assert (Di : forall (x : dnode) L, (forall x : dnode, In x L -> exists c, In c (children (q, t)) /\ prefix (fst c) (snd (fst x))) -> In x L -> snd (fst x) <> q /\ prefix q (snd (fst x))).
  { intros x L HL I. destruct (HL x I) as (c & Ic & P). destruct (below_child X q t c _ Ic P). auto. }
  destruct (one_facts h (sd, q)) as (O1 & O2 & O3 & O4).
  split; [|split; [|split]].
  - apply NoDup_app_intro'; [assumption|assumption|]. intros x I1 I2. destruct (Di x _ A2 I1) as [D _]. apply D. rewrite (O3 x I2). reflexivity.
  - apply NoDup_app_intro'; [assumption|assumption|]. intros x I1 I2. destruct (Di x _ C2 I1) as [D _]. apply D. rewrite (O4 x I2). reflexivity.
  - intros x I. apply in_app_or in I. destruct I as [I|I]; [apply (Di x _ A2 I)|]. rewrite (O3 x I). apply (Own Parts).
  - intros x I. apply in_app_or in I. destruct I as [I|I]; [apply (Di x _ C2 I)|]. rewrite (O4 x I). apply (Own Parts).
Qed.
End Walks.

(** ** A DAG some schedule built *)
Section Built.
Context {A B : Type} (m : method A B) (unif fuel : nat) (same : bool) (S : tree A) (T : tree B) (ss tt : list task) (d : dag).
Hypothesis Hm : builtin fuel m.
Hypothesis Hus : usable unif fuel S T.
Hypothesis Hc : create_dag m unif same fuel S T = Ok (ss, tt).
Hypothesis Hd : exists l, schedule (ss ++ tt) l /\ run (map snd l) = Ok d.

(** Above a node that was reached all nodes were refined. *)
Lemma visited_above : forall n pi cons acc, visited m unif same ([], T) false [([], S)] n pi cons acc -> forall q w r, fst n = q ++ w :: r ->
  exists n' pi' cons' acc', visited m unif same ([], T) false [([], S)] n' pi' cons' acc' /\ fst n' = q /\ refines m unif same n' cons' = true.
Proof.
  intros n pi cons acc V. induction V as [|n pi cons acc a2 cons' c V IH R P I]; intros q w r E; [destruct q; discriminate|].
  destruct c as [qc tc]. apply children_in in I. destruct I as (w' & _ & _ & ->). cbn [fst] in E. destruct r as [|w2 r].
  - apply app_inj_tail in E. destruct E as [E _]. exists n, pi, cons, acc. auto.
  - destruct (exists_last (l := w2 :: r)) as (r0 & z & Er); [discriminate|]. rewrite Er in E. change (q ++ w :: r0 ++ [z]) with (q ++ (w :: r0) ++ [z]) in E. rewrite app_assoc in E. apply app_inj_tail in E. destruct E as [E _]. eapply IH; exact E.
Qed.
Lemma target_task : forall q k, In ((TgtTree, q), k) (dnodes d) -> exists n pi cons acc a2 cons', visited m unif same ([], T) false [([], S)] n pi cons acc /\ fst n = q /\
  process m n cons (negb (refines m unif same n cons)) = Ok (a2, cons') /\ In (Add ((TgtTree, q), k)) (target_acts m unif same n pi cons a2).
Proof.
  intros q k I. apply (node_task m unif fuel same S T ss tt d Hm Hus Hc Hd) in I. destruct I as (t & It & Ia).
  destruct (visits_exist m unif fuel same S T ss tt Hm Hc) as (sv & tv & Es & Et).
  destruct (f2_left _ _ _ _ (visits_f2 m unif fuel same S T ss tt sv tv Hm Hc Es Et) It) as (v & _ & Ev & Hv & _). destruct (Hv _ Ia) as (Eo & _). cbn [fst] in Eo. rewrite <- Ev in Eo. clear v Ev Hv.
  destruct (applies m unif fuel same S T ss tt Hc) as [As At]. destruct t as [o acts]. cbn [fst snd] in *. subst o. apply in_app_or in It. destruct It as [It|It].
  - destruct Hus as (ES & _). apply (source_apply_in m unif _ _ _ As ES) in It. destruct It as (p & c & _ & Q & _). discriminate Q.
  - apply (target_apply_in m unif same _ _ _ _ _ At) in It. destruct It as (n & pi & cons & acc & a2 & c' & V & Q & P & ->). injection Q as Q. exists n, pi, cons, acc, a2, c'. auto.
Qed.
Lemma none_below : forall q w r k, In ((TgtTree, q ++ w :: r), k) (dnodes d) -> has d ((TgtTree, q), Parts) = false.
Proof.
  intros q w r k I. destruct (has d ((TgtTree, q), Parts)) eqn:H; [|reflexivity]. exfalso. apply has_in in H. apply target_task in H. destruct H as (n & pi & cons & acc & a2 & c' & V & En & P & Ia).
  apply target_task in I. destruct I as (n2 & pi2 & cons2 & acc2 & _ & _ & V2 & En2 & _). destruct (visited_above _ _ _ _ V2 _ _ _ En2) as (n' & pi' & cons' & acc' & V' & En' & R).
  destruct (visited_det m unif same _ _ _ _ _ _ _ V _ _ _ _ V') as (<- & <- & <- & <-); [congruence|]. rewrite R in P. cbn [negb] in P. unfold target_acts in Ia. rewrite R in Ia. cbn [negb] in Ia. pose proof (builtin_tidy _ _ _ _ Hm) as Ht. apply in_app_or in Ia. destruct Ia as [Ia|Ia].
  - destruct (td_inh _ Ht _ _ _ _ Ia) as (_ & _ & Q). apply (Q eq_refl). reflexivity.
  - destruct (td_pro _ Ht _ _ _ _ _ P _ Ia) as [_ Q]. discriminate.
Qed.

(** The nodes that get an LCO. *)
Lemma created : forall loc rank, exists sw tw, create_S (has d) loc rank fuel ([], S) = Ok sw /\ create_T (has d) loc rank fuel ([], T) = Ok tw /\
  NoDup (sw ++ tw) /\ forall x, In x (sw ++ tw) <-> keeps d loc rank x.
Proof.
  intros loc rank. destruct Hus as (ES & ET & LS & LT & _). destruct (create_S_ok (has d) loc rank A fuel ([], S) ES LS) as (sw & Es & Ns & S1 & S2). destruct (create_T_ok (has d) loc rank B fuel ([], T) ET LT) as (tw & Et & Nt & T1 & T2).
  exists sw, tw. split; [assumption|]. split; [assumption|]. cbn [fst snd app] in *. split.
  - apply NoDup_app_intro'; [assumption|assumption|]. intros x I1 I2. apply S1 in I1. apply T1 in I2. destruct I1 as (_ & E1 & _), I2 as (_ & E2 & _). congruence.
  - intros [[sd p] k]. rewrite in_app_iff. unfold keeps. cbn [fst snd].
    assert (Lo : local (has d) loc rank ((sd, p), k) = true <-> In ((sd, p), k) (dnodes d) /\ loc ((sd, p), k) = rank) by (unfold local; rewrite andb_true_iff, has_in, Z.eqb_eq; tauto).
    split.
    + intros [I|I]; [apply S1 in I; destruct I as (H1 & H2 & H3 & _)|apply T1 in I; destruct I as (H1 & H2 & _)]; apply Lo in H1; cbn [fst snd] in *; (split; [tauto|]); (split; [tauto|]); intros (Q1 & Q2); congruence.
    + intros (H1 & H2 & H3). destruct (visits_exist m unif fuel same S T ss tt Hm Hc) as (sv & tv & Ev & Ew). pose proof (node_sub m unif fuel same S T ss tt d sv tv Hm Hus Hc Hd Ev Ew _ H1) as Sub. cbn [fst snd] in Sub. destruct sd.
      * left. apply S2; [assumption| |apply Lo; auto]. intros ->. apply H3. auto.
      * right. apply T2; [assumption|apply Lo; auto|]. intros p' w r ->. eapply none_below. exact H1.
Qed.

(** The vectors hold every node once. *)
Lemma vectors_ok : exists s t, collect (has d) SrcTree fuel ([], S) = Ok s /\ collect (has d) TgtTree fuel ([], T) = Ok t /\
  NoDup (to_delete (vectors_of s t)) /\ (forall x, In x (to_delete (vectors_of s t)) <-> In x (dnodes d)) /\
  NoDup (to_kill (vectors_of s t)) /\ (forall x, In x (to_kill (vectors_of s t)) <-> In x (dnodes d) /\ ~ (fst (fst x) = SrcTree /\ snd x = Parts)).
Proof.
  destruct (visits_exist m unif fuel same S T ss tt Hm Hc) as (sv & tv & Ev & Ew).
  destruct (collect_built m unif fuel same S T ss tt d sv tv Hm Hus Hc Hd Ev Ew) as (si & st & ti & tl & Es & Et & I1 & I2 & I3 & I4).
  destruct (collect_nodup _ _ _ _ _ _ Es) as (N1 & N2 & _). destruct (collect_nodup _ _ _ _ _ _ Et) as (N3 & N4 & _). cbn [fst snd] in *.
  exists (si, st), (ti, tl). split; [assumption|]. split; [assumption|]. unfold to_delete, to_kill, vectors_of. cbn [source_leaves source_nodes target_nodes target_leaves fst snd].
  assert (Pa : forall x : dnode, snd x = Parts \/ snd x <> Parts) by (intros [o k]; destruct k; cbn; auto; right; discriminate).
  assert (Sd : forall x : dnode, fst (fst x) = SrcTree \/ fst (fst x) = TgtTree) by (intros [[sd p] k]; destruct sd; cbn; auto).
  split; [|split; [|split]].
  - repeat (apply NoDup_app_intro'; [assumption| |]); try assumption; intros x J1 J2; rewrite ?in_app_iff, ?I1, ?I2, ?I3, ?I4 in *; intuition congruence.
  - intros x. rewrite !in_app_iff, I1, I2, I3, I4. destruct (Pa x), (Sd x); tauto.
  - repeat (apply NoDup_app_intro'; [assumption| |]); try assumption; intros x J1 J2; rewrite ?in_app_iff, ?I1, ?I2, ?I3, ?I4 in *; intuition congruence.
  - intros x. rewrite !in_app_iff, I1, I3, I4. destruct (Pa x), (Sd x); intuition congruence.
Qed.

(** A second creation. *)
Lemma some_node : exists x, In x (dnodes d).
Proof.
  destruct Hus as (ES & _). destruct (applies m unif fuel same S T ss tt Hc) as [As _]. pose proof (builtin_tidy _ _ _ _ Hm) as Ht.
  assert (G : forall f n ts, source_apply m unif f n = Ok ts -> eight (snd n) -> exists t x, In t ts /\ In (Add x) (snd t)).
  { induction f as [|f IH]; intros n ts H E8; [discriminate|]. cbn [source_apply] in H. destruct (n_children (snd n) =? 0) eqn:K.
    - destruct (unif <=? length (fst n)); [|discriminate]. cbn in H. injection H as <-. eexists. eexists. split; [left; reflexivity|]. apply (td_genp _ Ht).
    - destruct (mapM _ _) as [l|] eqn:M; [|discriminate]. cbn in H. injection H as <-.
      assert (exists c, In c (children n)) as [c Ic].
      { destruct (children n) as [|c cs] eqn:Ec; [|exists c; left; reflexivity]. exfalso. apply Nat.eqb_neq in K. apply K. apply n_children_0; [apply (E8 [] _ eq_refl)|]. intros w. destruct (kid (snd n) w) as [c|] eqn:Kw; [|reflexivity].
        assert (I : In (fst n ++ [w], c) (children n)) by (apply children_in; exists w; split; [eapply kid_lt8; [apply (E8 [] _ eq_refl)|eassumption]|auto]). rewrite Ec in I. destruct I. }
      destruct (mapM_each _ _ _ _ _ _ M Ic) as [ys Ey]. destruct (IH _ _ Ey) as (t & x & It & Ix). { destruct c as [qc tc]. apply children_in in Ic. destruct Ic as (w & _ & Kw & _). intros p n' Sp. apply (E8 (w :: p)). cbn. rewrite Kw. assumption. } exists t, x. split; [|assumption]. apply in_or_app. left. apply (mapM_concat_in _ _ _ _ _ M). eauto. }
  destruct (G _ _ _ As ES) as (t & x & It & Ix). exists x. apply (node_task m unif fuel same S T ss tt d Hm Hus Hc Hd). exists t. split; [apply in_or_app; left; assumption|assumption].
Qed.
Lemma exec_fails : forall acts d0 x, In (Add x) acts -> In x (dnodes d0) -> foldM exec acts d0 = Fail AssertFail.
Proof.
  induction acts as [|a acts IH]; intros d0 x I Hx; [destruct I|]. cbn [foldM]. destruct I as [->|I].
  - cbn [exec]. rewrite (proj2 (has_in d0 x) Hx). reflexivity.
  - destruct a as [y|e]; cbn [exec].
    + destruct (has d0 y); [reflexivity|]. cbn [negb assert_ bind]. apply (IH _ x I). right. assumption.
    + destruct (has d0 (efrom e)); [|reflexivity]. cbn [negb assert_ bind]. destruct (has d0 (eto e)); [|reflexivity]. cbn [negb assert_ bind]. apply (IH _ x I). assumption.
Qed.
Lemma again_fails : forall l, schedule (ss ++ tt) l -> run_again d (map snd l) = Fail AssertFail.
Proof.
  intros l (H1 & _). destruct some_node as [x Ix]. pose proof Ix as J. apply (node_task m unif fuel same S T ss tt d Hm Hus Hc Hd) in J. destruct J as ([o acts] & It & Ia). cbn [snd] in Ia. apply (exec_fails _ _ x); [|assumption].
  rewrite <- (H1 o acts It) in Ia. unfold actions_of in Ia. apply in_flat_map in Ia. destruct Ia as ([o' a] & Io & Ia). cbn [fst snd] in Ia. destruct (owner_dec o' o); [|destruct Ia]. destruct Ia as [->|[]]. apply in_map_iff. exists (o', Add x). auto.
Qed.
End Built.

(** ** The expansion of an LCO *)
Definition busy (c : cell) : Prop := at_stage c = Ready \/ at_stage c = Sent.
Definition cinv (c : cell) : Prop :=
  NoDup (freed c) /\ made c <= S (length (freed c)) /\
  (gone c = true -> ~ busy c /\ forall i, In i (freed c) <-> i < made c) /\
  (gone c = false ->
    match obj c with
    | None => (forall i, In i (freed c) <-> i < made c) /\ ~ busy c
    | Some j => S j = made c /\ forall i, In i (freed c) <-> i < j
    end).
Lemma all_length : forall l n, NoDup l -> (forall i, In i l <-> i < n) -> length l = n.
Proof.
  intros l n N H. rewrite <- (seq_length n 0). apply Nat.le_antisymm; apply NoDup_incl_length; try assumption; try apply seq_NoDup; intros i I; [apply in_seq; apply H in I; lia|apply in_seq in I; apply H; lia].
Qed.
Lemma cinv0 : forall ins, cinv (cell0 ins).
Proof. intros. split; [constructor|]. split; [cbn; lia|]. split; [discriminate|]. intros _. cbn. split; [intros; lia|]. intros [Q|Q]; discriminate. Qed.
Lemma drop_ok : forall c, gone c = false -> cinv c -> exists f, drop c = Ok f /\ NoDup f /\ forall i, In i f <-> i < made c.
Proof.
  intros c G (N & _ & _ & H). specialize (H G). unfold drop. destruct (obj c) as [j|]; [|exists (freed c); tauto]. destruct H as [E H]. destruct (in_dec Nat.eq_dec j (freed c)) as [I|I]; [apply H in I; lia|]. exists (j :: freed c). split; [reflexivity|]. split; [constructor; assumption|]. intros i. cbn. rewrite H. lia.
Qed.
Lemma step_ok : forall ins outs c e, cinv c -> allowed true c e = true -> exists c', step ins outs c e = Ok c' /\ cinv c' /\ (gone c' = true <-> e = Destroy).
Proof.
  intros ins outs c e H Al. destruct (gone c) eqn:G.
  { exfalso. destruct H as (_ & _ & H & _). destruct (H G) as [B _]. destruct e; cbn in Al; rewrite ?G in Al; try discriminate; destruct (at_stage c) eqn:E; try discriminate; apply B; unfold busy; rewrite E; auto. }
  assert (Gf : forall e', e' <> Destroy -> (false = true <-> e' = Destroy)) by (intros e' Ne; split; [discriminate|contradiction]).
  destruct e; cbn [step]; rewrite G.
  - destruct H as (N & Le & _ & H). specialize (H G). cbn in Al. rewrite G in Al. cbn in Al. destruct (obj c) as [j|] eqn:O; cbn [yta obj made freed at_stage].
    + destruct (yta c) as [|k]; [discriminate|]. eexists. split; [reflexivity|]. split; [|apply Gf; discriminate]. split; [assumption|]. split; [cbn; assumption|]. split; [discriminate|]. intros _. cbn. rewrite O. assumption.
    + destruct (yta c) as [|k]; [discriminate|]. eexists. split; [reflexivity|]. split; [|apply Gf; discriminate]. split; [assumption|]. destruct H as [H _]. split; [cbn; rewrite (all_length _ _ N H); lia|]. split; [discriminate|]. intros _. cbn. split; [reflexivity|assumption].
  - destruct H as (N & Le & _ & H). specialize (H G). cbn in Al. destruct (at_stage c) eqn:E; try discriminate. destruct (obj c) as [j|] eqn:O.
    + destruct H as [Ej H]. destruct (in_dec Nat.eq_dec j (freed c)) as [I|I]; [apply H in I; lia|]. eexists. split; [reflexivity|]. split; [|apply Gf; discriminate]. split; [assumption|]. split; [assumption|]. split; [discriminate|]. intros _. cbn. auto.
    + destruct H as [_ B]. exfalso. apply B. left. assumption.
  - destruct (drop_ok c G H) as (f & -> & Nf & Hf). cbn [bind]. eexists. split; [reflexivity|]. split; [|apply Gf; discriminate]. split; [assumption|]. split; [cbn; rewrite (all_length _ _ Nf Hf); lia|]. split; [discriminate|]. intros _. cbn. split; [assumption|]. intros [Q|Q]; discriminate.
  - destruct H as (N & Le & _ & H). specialize (H G). eexists. split; [reflexivity|]. split; [|apply Gf; discriminate]. split; [assumption|]. split; [assumption|]. split; [discriminate|]. intros _. cbn. destruct (obj c); [assumption|]. split; [tauto|]. intros [Q|Q]; discriminate.
  - destruct (drop_ok c G H) as (f & -> & Nf & Hf). cbn [bind]. eexists. split; [reflexivity|]. split; [|cbn; tauto]. split; [assumption|]. split; [cbn; rewrite (all_length _ _ Nf Hf); lia|]. cbn [gone freed made at_stage obj]. split; [|discriminate]. intros _. split; [|assumption]. cbn in Al. rewrite G in Al. unfold busy. cbn. destruct (at_stage c); try discriminate; intros [Q|Q]; discriminate.
Qed.
Lemma play_ok : forall ins outs es c r, cinv c -> play ins outs true c es = Some r -> exists c', r = Ok c' /\ cinv c'.
Proof.
  intros ins outs. induction es as [|e es IH]; intros c r H P; cbn [play] in P.
  - injection P as <-. eauto.
  - destruct (allowed true c e) eqn:Al; [|discriminate]. destruct (step_ok ins outs c e H Al) as (c' & E & H' & _). rewrite E in P. eapply IH; eassumption.
Qed.
Lemma play_destroyed : forall ins outs es c r, cinv c -> play ins outs true c (es ++ [Destroy]) = Some r -> exists c', r = Ok c' /\ cinv c' /\ gone c' = true.
Proof.
  intros ins outs. induction es as [|e es IH]; intros c r H P; cbn [app play] in P.
  - destruct (allowed true c Destroy) eqn:Al; [|discriminate]. destruct (step_ok ins outs c Destroy H Al) as (c' & E & H' & Gd). rewrite E in P. injection P as <-. exists c'. split; [reflexivity|]. split; [assumption|]. apply Gd. reflexivity.
  - destruct (allowed true c e) eqn:Al; [|discriminate]. destruct (step_ok ins outs c e H Al) as (c' & E & H' & _). rewrite E in P. eapply IH; eassumption.
Qed.
Lemma play_sets : forall ins outs st es k c j, yta c = k -> gone c = false -> obj c = Some j ->
  play ins outs st c (repeat Set_ k ++ es) = play ins outs st (mkCell 0 (Some j) (made c) (freed c) (if (k =? 0) || (outs =? 0) then at_stage c else Ready) false) es.
Proof.
  intros ins outs st es. induction k as [|k IH]; intros [y o mk f sg g] j Y G O; cbn in Y, G, O; subst y o g; [reflexivity|].
  cbn [repeat app play allowed step gone yta obj made freed at_stage negb andb Nat.eqb]. rewrite (IH _ j); [|reflexivity..]. cbn [made freed at_stage orb Nat.eqb]. destruct k; cbn; [|destruct (outs =? 0); reflexivity]. destruct (outs =? 0); reflexivity.
Qed.
(** The same from the first contribution on. *)
Lemma play_first : forall ins outs st es k c, yta c = S k -> gone c = false -> obj c = None ->
  play ins outs st c (repeat Set_ (S k) ++ es) = play ins outs st (mkCell 0 (Some (made c)) (S (made c)) (freed c) (if outs =? 0 then at_stage c else Ready) false) es.
Proof.
  intros ins outs st es k [y o mk f sg g] Y G O; cbn in Y, G, O; subst y o g.
  cbn [repeat app play allowed step gone yta obj made freed at_stage negb andb Nat.eqb]. rewrite (play_sets _ _ _ _ k _ mk); [|reflexivity..]. cbn [made freed at_stage]. destruct k, (outs =? 0); reflexivity.
Qed.
Lemma work_free : forall ins outs y m k f es, ~ In m f -> play ins outs true (mkCell y (Some m) k f Ready false) (Work :: Free :: es) = play ins outs true (mkCell y None k (m :: f) Over false) es.
Proof.
  intros ins outs y m k f es N. assert (E : exists n, in_dec Nat.eq_dec m f = right n) by (destruct (in_dec Nat.eq_dec m f) as [I|n]; [contradiction|exists n; reflexivity]). destruct E as [n E].
  cbn [play allowed at_stage step gone obj freed]. rewrite E. cbn [play allowed at_stage step gone]. unfold drop. cbn [obj freed]. rewrite E. reflexivity.
Qed.
Lemma life_out : forall ins outs n m f sg es, 0 < ins -> 0 < outs -> (forall i, In i f -> i < m) ->
  exists c, play ins outs true (mkCell ins None m f sg false) (round ins outs ++ concat (repeat (Reset :: round ins outs) n) ++ es) = play ins outs true c es /\ made c = m + S n /\ gone c = false /\ at_stage c = Over /\ obj c = None.
Proof.
  intros ins outs n. destruct ins as [|k]; [lia|]. destruct outs as [|o]; [lia|].
  assert (E : forall X, round (S k) (S o) ++ X = repeat Set_ (S k) ++ Work :: Free :: X) by (intros; unfold round; rewrite <- app_assoc; reflexivity).
  induction n as [|n IH]; intros m f sg es _ _ Hf; rewrite E, play_first by reflexivity; cbn [made freed at_stage Nat.eqb]; rewrite work_free by (intros I; specialize (Hf _ I); lia).
  - cbn [repeat concat app]. eexists. split; [reflexivity|]. cbn. repeat split; lia.
  - change (concat (repeat (Reset :: round (S k) (S o)) (S n)) ++ es) with (Reset :: (round (S k) (S o) ++ concat (repeat (Reset :: round (S k) (S o)) n)) ++ es). rewrite <- app_assoc. cbn [play allowed step gone negb andb at_stage obj made freed].
    destruct (IH (S m) (m :: f) Waiting es) as (c & Ec & H); [lia|lia|intros i [<-|I]; [lia|specialize (Hf _ I); lia]|]. exists c. split; [exact Ec|]. replace (m + S (S n)) with (S m + S n) by lia. exact H.
Qed.
Lemma reset_sets : forall ins y f es, let c := mkCell 0 (Some 0) 1 f Waiting false in play ins 0 true (mkCell y (Some 0) 1 f Waiting false) (Reset :: repeat Set_ ins ++ es) = play ins 0 true c es.
Proof. intros ins y f es c. cbn [play allowed step gone negb andb at_stage obj made freed]. rewrite (play_sets ins 0 true _ ins _ 0) by reflexivity. cbn [made freed at_stage Nat.eqb orb]. rewrite orb_true_r. reflexivity. Qed.
Lemma life_in : forall ins n es, 0 < ins ->
  exists c, play ins 0 true (cell0 ins) (round ins 0 ++ concat (repeat (Reset :: round ins 0) n) ++ es) = play ins 0 true c es /\ made c = 1 /\ gone c = false /\ at_stage c = Waiting /\ obj c = Some 0 /\ freed c = [].
Proof.
  intros ins n es H. assert (E : forall X, round ins 0 ++ X = repeat Set_ ins ++ X) by (intros; unfold round; cbn [Nat.eqb]; rewrite app_nil_r; reflexivity).
  exists (mkCell 0 (Some 0) 1 [] Waiting false). split; [|cbn; auto 6]. rewrite E. destruct ins as [|k]; [lia|]. rewrite play_first by reflexivity. cbn [cell0 made freed at_stage Nat.eqb].
  induction n as [|n IH]; [reflexivity|].
  transitivity (play (S k) 0 true (mkCell 0 (Some 0) 1 [] Waiting false) (Reset :: (round (S k) 0 ++ concat (repeat (Reset :: round (S k) 0) n)) ++ es)); [reflexivity|]. rewrite <- app_assoc, E, reset_sets. exact IH.
Qed.
Lemma race : forall ins outs, 0 < ins -> 0 < outs -> play ins outs false (cell0 ins) (repeat Set_ ins ++ [Work; Destroy; Free]) = Some (Fail BadOp).
Proof.
  intros ins outs Hi Ho. destruct ins as [|k]; [lia|]. destruct outs as [|o]; [lia|]. rewrite play_first by reflexivity. reflexivity.
Qed.

(** The action runs when all contributions have come. *)
Lemma play_arrived : forall ins outs settled es c n c', yta c + n = ins -> (at_stage c = Ready -> yta c = 0) ->
  play ins outs settled c (es ++ [Work]) = Some (Ok c') -> fold_left (fun n e => match e with Set_ => S n | Reset => 0 | _ => n end) es n = ins.
Proof.
  intros ins outs settled. induction es as [|e es IH]; intros c n c' Hn Hr P; cbn [app play fold_left] in *.
  - destruct (at_stage c) eqn:E; cbn [allowed] in P; rewrite E in P; try discriminate P. specialize (Hr eq_refl). lia.
  - destruct (allowed settled c e) eqn:Al; [|discriminate]. destruct (step ins outs c e) as [c1|] eqn:E1; [|discriminate]. apply (IH c1 _ c'); [| |exact P]; clear IH P; destruct e; cbn [step] in E1; destruct (gone c) eqn:G; try discriminate E1.
    + destruct (obj c); cbn [yta obj made freed at_stage] in E1; destruct (yta c); try discriminate E1; injection E1 as <-; cbn; lia.
    + destruct (obj c); [|discriminate E1]. destruct (in_dec _ _ _); [discriminate E1|]. injection E1 as <-. exact Hn.
    + destruct (drop c); [|discriminate E1]. injection E1 as <-. exact Hn.
    + injection E1 as <-. cbn. lia.
    + destruct (drop c); [|discriminate E1]. injection E1 as <-. exact Hn.
    + destruct (obj c); cbn [yta obj made freed at_stage] in E1; destruct (yta c) as [|k]; try discriminate E1; injection E1 as <-; cbn [at_stage yta]; destruct (Nat.eqb_spec k 0) as [->|Nk]; try (intros; reflexivity); cbn [andb]; intros R; specialize (Hr R); lia.
    + destruct (obj c); [|discriminate E1]. destruct (in_dec _ _ _); [discriminate E1|]. injection E1 as <-. discriminate.
    + destruct (drop c); [|discriminate E1]. injection E1 as <-. discriminate.
    + injection E1 as <-. discriminate.
    + destruct (drop c); [|discriminate E1]. injection E1 as <-. exact Hr.
Qed.
