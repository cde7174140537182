(** The Direct and Barnes-Hut methods. *)
From Coq Require Import ZArith List Bool Arith Lia Permutation.
From Verif Require Import Base ListFacts IndexModel TreeModel TreeFacts RefineModel LookupModel GeomModel DagModel DagSpec DagProofs MethodModel DagPaths DagExec DagSound MethodProofs MethodTasks MethodSound.
Import ListNotations.
Open Scope nat_scope.

Lemma jcnt_ocnt : forall s q l, (forall a, In a l -> exists e, a = Link e /\ fst (fst (efrom e)) = SrcTree /\ fst (fst (eto e)) = TgtTree /\ snd (eto e) <> Interm) -> jcnt s q l = ocnt s l.
Proof.
  intros s q l H. unfold jcnt, ocnt. induction l as [|a l IH]; [reflexivity|]. destruct (H a (or_introl eq_refl)) as (e & -> & F & T & K). specialize (IH (fun a I => H a (or_intror I))). cbn [filter].
  assert (X : jcov s q (Link e) = ocov s (Link e)). { cbn. destruct (efrom e) as [[sd c] k]. destruct (eto e) as [[td p] k']. cbn in *. subst. destruct k'; try (rewrite andb_true_r; reflexivity). contradiction. }
  rewrite X. destruct (ocov s (Link e)); cbn [length]; rewrite IH; reflexivity.
Qed.

Section BH.
Context {A B : Type} (S : tree A) (T : tree B) (accept : path -> path -> bool).
Context (HS8 : eight S) (HT8 : eight T).

Lemma bh_source : forall (m := @bh A B accept) fuel p n, source_acts (m fuel) (p, n) = srcacts (fun _ => true) (fun _ => false) p n.
Proof. intros. unfold source_acts, srcacts, is_leaf. cbn [snd fst]. unfold bh. cbn [generate aggregate fst]. destruct (n_children n =? 0); cbn [app]; [reflexivity|]. rewrite app_nil_r. reflexivity. Qed.
Lemma direct_source : forall fuel p n, source_acts (@direct A B fuel) (p, n) = srcacts (fun _ => false) (fun _ => false) p n.
Proof. intros. unfold source_acts, srcacts, is_leaf. cbn [snd fst]. destruct (n_children n =? 0); reflexivity. Qed.

Definition bh_inv (n : path * tree B) (cons : list (path * tree A)) : Prop := valid S cons /\ forall s, cnt s cons <= 1.
Lemma bh_inv_root : bh_inv ([], T) [([], S)].
Proof. split; [intros n [<-|[]]; reflexivity|]. intros s. rewrite cnt_one. cbn. lia. Qed.
Lemma cnt_root : forall s, cnt s [([] : path, S)] = 1.
Proof. intros s. rewrite cnt_one. reflexivity. Qed.

(** A link of the loop. *)
Definition bh_link (msrc : bool) (p : path) (leaf : bool) (a : act) : Prop :=
  leaf = true /\ exists c, sub S c <> None /\
  ((msrc = true /\ a = do_MtoT (src c) (tgt p) /\ accept c p = true) \/ (a = do_StoT (tgt p) (src c) /\ leaf_at S c /\ (msrc = true -> accept c p = false))).

Lemma ocnt_mtot : forall s c p, ocnt s [do_MtoT (src c) (tgt p)] = if prefixb c s then 1 else 0.
Proof. intros. unfold ocnt. cbn. destruct (prefixb c s); reflexivity. Qed.
Lemma ocnt_stot : forall s c p, ocnt s [do_StoT (tgt p) (src c)] = if prefixb c s then 1 else 0.
Proof. intros. unfold ocnt. cbn. destruct (prefixb c s); reflexivity. Qed.

Definition step_ok (msrc : bool) (curr : path * tree B) (leaf : bool) (step : path * tree A -> list act * list (path * tree A)) : Prop :=
  (forall s n, leaf_at S s -> sub S (fst n) = Some (snd n) -> ocnt s (fst (step n)) + cnt s (snd (step n)) = cnt s [n]) /\
  (forall s n, ocnt s (fst (step n)) + cnt s (snd (step n)) <= cnt s [n]) /\
  (forall n a, sub S (fst n) = Some (snd n) -> In a (fst (step n)) -> bh_link msrc (fst curr) leaf a) /\
  (forall n, sub S (fst n) = Some (snd n) -> valid S (snd (step n))) /\
  (leaf = true -> forall n, incl (snd (step n)) (children n)).

Lemma valid_one : forall n, sub S (fst n) = Some (snd n) -> valid S [n].
Proof. intros n H x [<-|[]]. assumption. Qed.
Lemma bh_step_ok : forall curr leaf, step_ok true curr leaf (bh_step accept curr leaf).
Proof.
  intros curr leaf. unfold step_ok, bh_step. split; [|split; [|split; [|split]]].
  - intros s n Hs Sn. destruct (accept (fst n) (fst curr)).
    + destruct leaf; cbn [negb fst snd]; [rewrite ocnt_mtot, cnt_one; cbn; lia|reflexivity].
    + destruct (is_leaf (snd n)) eqn:L; [destruct leaf; cbn [fst snd]; [rewrite ocnt_stot, cnt_one; cbn; lia|reflexivity]|]. cbn [fst snd]. rewrite (cnt_children S HS8) by assumption. reflexivity.
  - intros s n. destruct (accept (fst n) (fst curr)).
    + destruct leaf; cbn [negb fst snd]; [rewrite ocnt_mtot, cnt_one; cbn; lia|reflexivity].
    + destruct (is_leaf (snd n)) eqn:L; [destruct leaf; cbn [fst snd]; [rewrite ocnt_stot, cnt_one; cbn; lia|reflexivity]|]. cbn [fst snd]. pose proof (cnt_children_le _ s n). change (ocnt s []) with 0. lia.
  - intros n a Sn I. destruct (accept (fst n) (fst curr)) eqn:Ac.
    + destruct leaf; cbn [negb fst] in I; [|destruct I]. destruct I as [<-|[]]. split; [reflexivity|]. exists (fst n). split; [rewrite Sn; discriminate|]. left. auto.
    + destruct (is_leaf (snd n)) eqn:L; [|destruct I]. destruct leaf; cbn [fst] in I; [|destruct I]. destruct I as [<-|[]]. split; [reflexivity|]. exists (fst n). split; [rewrite Sn; discriminate|]. right. split; [reflexivity|]. split; [apply (leaf_iff _ _ _ _ HS8 Sn); assumption|auto].
  - intros n Sn. destruct (accept (fst n) (fst curr)); [destruct leaf; cbn; [intros ? []|apply valid_one; assumption]|]. destruct (is_leaf (snd n)); [destruct leaf; cbn; [intros ? []|apply valid_one; assumption]|]. apply valid_children. assumption.
  - intros -> n. destruct (accept (fst n) (fst curr)); cbn; [intros ? []|]. destruct (is_leaf (snd n)); cbn; [intros ? []|apply incl_refl].
Qed.
Lemma direct_step_ok : forall curr leaf, step_ok false curr leaf (@direct_step A B curr leaf).
Proof.
  intros curr leaf. unfold step_ok, direct_step. split; [|split; [|split; [|split]]].
  - intros s n Hs Sn. destruct (is_leaf (snd n)) eqn:L; [destruct leaf; cbn [fst snd]; [rewrite ocnt_stot, cnt_one; cbn; lia|reflexivity]|]. cbn [fst snd]. rewrite (cnt_children S HS8) by assumption. reflexivity.
  - intros s n. destruct (is_leaf (snd n)) eqn:L; [destruct leaf; cbn [fst snd]; [rewrite ocnt_stot, cnt_one; cbn; lia|reflexivity]|]. cbn [fst snd]. pose proof (cnt_children_le _ s n). change (ocnt s []) with 0. lia.
  - intros n a Sn I. destruct (is_leaf (snd n)) eqn:L; [|destruct I]. destruct leaf; cbn [fst] in I; [|destruct I]. destruct I as [<-|[]]. split; [reflexivity|]. exists (fst n). split; [rewrite Sn; discriminate|]. right. split; [reflexivity|]. split; [apply (leaf_iff _ _ _ _ HS8 Sn); assumption|discriminate].
  - intros n Sn. destruct (is_leaf (snd n)); [destruct leaf; cbn; [intros ? []|apply valid_one; assumption]|]. apply valid_children. assumption.
  - intros -> n. destruct (is_leaf (snd n)); cbn; [intros ? []|apply incl_refl].
Qed.

(** Both at once: [mk] is the step function, [ms] whether source nodes have expansions. *)
Section Both.
Context (ms : bool) (mk : path * tree B -> bool -> path * tree A -> list act * list (path * tree A)) (m : method A B) (fuel unif : nat) (same : bool).
Context (Hmk : forall curr leaf, step_ok ms curr leaf (mk curr leaf)).
Context (Hproc : forall n cons leaf, process m n cons leaf = rounds (mk n leaf) fuel leaf cons).
Context (Hinh : forall n pi leaf, inherit m n pi leaf = if leaf then [add_parts (tgt (fst n))] else []).
Context (Href : forall sm n cons, refine_test m sm n cons = true).
Context (Hsrc : forall p n, sub S p = Some n -> source_acts m (p, n) = srcacts (fun _ => ms) (fun _ => false) p n).
Context (HSl : lower fuel S) (HTl : lower fuel T) (HSd : deep unif S) (HTd : deep unif T).
Let ref n cons := refines m unif same n cons.

Lemma b_facts : forall n cons leaf a2 c', bh_inv n cons -> process m n cons leaf = Ok (a2, c') ->
  (forall s, leaf_at S s -> ocnt s a2 + cnt s c' = cnt s cons) /\ (forall s, ocnt s a2 + cnt s c' <= cnt s cons) /\
  (forall a, In a a2 -> bh_link ms (fst n) leaf a) /\ valid S c' /\ (leaf = true -> c' = []).
Proof.
  intros n cons leaf a2 c' [V C] H. rewrite Hproc in H. destruct (Hmk n leaf) as (H1 & H2 & H3 & H4 & H5). exact (rounds_facts S (mk n leaf) _ leaf H1 H2 H3 H4 fuel cons a2 c' H V).
Qed.
Lemma b_link : forall p ref a, bh_link ms p (negb ref) a -> exists e, a = Link e /\ tlink S (fun _ => ms) (fun _ => false) (fun _ => false) p false ref e /\ fst (fst (efrom e)) = SrcTree /\ snd (eto e) <> Interm.
Proof.
  intros p rf a (L & c & Sc & [(M & -> & _)|(-> & Lc & _)]); apply negb_true_iff in L; eexists; (split; [reflexivity|]); (split; [|split; [reflexivity|discriminate]]); constructor; assumption.
Qed.
Lemma b_jcnt : forall s q n pi cons a2 c', bh_inv n cons -> process m n cons (negb (ref n cons)) = Ok (a2, c') -> jcnt s q (target_acts m unif same n pi cons a2) = ocnt s a2.
Proof.
  intros s q n pi cons a2 c' Iv P. unfold target_acts. rewrite Hinh, jcnt_app. assert (X : jcnt s q (if negb (refines m unif same n cons) then [add_parts (tgt (fst n))] else []) = 0) by (destruct (negb (refines m unif same n cons)); reflexivity). rewrite X. cbn [Nat.add]. apply jcnt_ocnt.
  intros a I. destruct (b_facts _ _ _ _ _ Iv P) as (_ & _ & L & _). destruct (L a I) as (_ & c & _ & [(_ & -> & _)|(-> & _)]); eexists; (split; [reflexivity|]); repeat split; discriminate.
Qed.

Theorem both_dag : exists ss tt, create_dag m unif same fuel S T = Ok (ss, tt) /\ good_dag S T (ss ++ tt) /\ 
  (forall e, In e (all_edges (ss ++ tt)) -> shape e) /\
  (forall q, stops (ss ++ tt) q <-> leaf_at T q) /\
  (forall x, In x (all_adds (ss ++ tt)) -> is_start S x \/ fed (ss ++ tt) x) /\
  (forall e, In e (all_edges (ss ++ tt)) -> (exists p n, sub S p = Some n /\ slink (fun _ => ms) (fun _ => false) p n e) \/ (exists q, leaf_at T q /\ bh_link ms q true (Link e))) /\
  (forall p n e, sub S p = Some n -> slink (fun _ => ms) (fun _ => false) p n e -> In e (all_edges (ss ++ tt))).
Proof.
  assert (Rl : forall n cons, sub T (fst n) = Some (snd n) -> (ref n cons = false <-> leaf_at T (fst n))).
  { intros n cons Sn. unfold ref, refines. rewrite (leaf_iff _ _ _ _ HT8 Sn). unfold is_leaf. destruct (Nat.ltb_spec (length (fst n)) unif) as [L|L].
    - split; [discriminate|]. intros X. exfalso. assert (Y : leaf_at T (fst n)) by (apply (leaf_iff _ _ _ _ HT8 Sn); exact X). apply HTd in Y. lia.
    - destruct (n_children (snd n) =? 0); [tauto|]. rewrite Href. split; discriminate. }
  assert (Le : forall n cons a2 c', bh_inv n cons -> process m n cons (negb (ref n cons)) = Ok (a2, c') -> forall e, In (Link e) a2 -> bh_link ms (fst n) true (Link e) /\ ref n cons = false).
  { intros n cons a2 c' Iv P e I. destruct (b_facts _ _ _ _ _ Iv P) as (_ & _ & L & _). specialize (L _ I). pose proof L as (X & _). apply negb_true_iff in X. split; [|assumption]. rewrite X in L. exact L. }
  destruct (assemble m unif same fuel S T (fun _ => ms) (fun _ => false) (fun _ => false) false HS8 HT8 HSl HTl HSd HTd) with (Inv := bh_inv) (pc := fun s (p : path) (cons : list (path * tree A)) => cnt s cons) as (ss & tt & Hc & G & Sh & Ed & St & Vi & _ & Fe); auto.
  - discriminate.
  - exact bh_inv_root.
  - intros n cons a2 cons' c Sn [V C] R P I. assert (Iv : bh_inv n cons) by (split; assumption). destruct (b_facts _ _ _ _ _ Iv P) as (F1 & F2 & _ & F4 & _). split; [assumption|]. intros s. specialize (F2 s). specialize (C s). lia.
  - intros n pi cons a2 cons' Sn Iv P Hp1 Hp2 Hp3. exists a2, [], false. split; [|discriminate]. destruct (b_facts _ _ _ _ _ Iv P) as (F1 & F2 & F3 & F4 & F5). constructor.
    + unfold target_acts. rewrite Hinh. unfold inh. rewrite andb_false_r. rewrite !app_nil_r. reflexivity.
    + discriminate.
    + intros a I. apply b_link. apply F3. assumption.
    + intros a [].
    + intros s. rewrite app_nil_r. destruct Iv as [_ C]. specialize (F2 s). specialize (C s). lia.
    + discriminate.
  - intros n cons Sn Iv. rewrite Hproc. destruct (Hmk n (negb (ref n cons))) as (_ & _ & _ & _ & H5). apply rounds_ok; [exact H5|specialize (HSl [] S eq_refl); cbn in HSl; lia|]. intros x Ix. destruct Iv as [V _]. intros p t X. pose proof (lower_sub _ _ _ _ _ HSl (V _ Ix) _ _ X). lia.
  - intros n pi cons a2 cons' Sn Iv R P s q c Hs I Pq. assert (P' : process m n cons (negb (ref n cons)) = Ok (a2, cons')) by (unfold ref; rewrite R; exact P). rewrite (b_jcnt _ _ _ _ _ _ _ Iv P'). destruct (b_facts _ _ _ _ _ Iv P) as (F1 & _). apply F1. assumption.
  - intros n pi cons a2 cons' s Sn Iv R P Hs. assert (P' : process m n cons (negb (ref n cons)) = Ok (a2, cons')) by (unfold ref; rewrite R; exact P). rewrite (b_jcnt _ _ _ _ _ _ _ Iv P'). destruct (b_facts _ _ _ _ _ Iv P) as (F1 & _ & _ & _ & F5). rewrite (F5 eq_refl) in F1. specialize (F1 s Hs). change (cnt s []) with 0 in F1. lia.
  - exists ss, tt. split; [assumption|]. split; [assumption|]. split; [assumption|]. split.
    + intros q. rewrite St. split.
      * intros (n & pi & cons & acc & V & <- & R). destruct (Vi _ _ _ _ V) as (Sn & _). apply (Rl n cons Sn). exact R.
      * intros Lq. destruct G as (_ & _ & G3 & _). destruct (G3 q Lq) as (q' & (Sq & Pq) & _). apply St in Sq. destruct Sq as (n & pi & cons & acc & V & <- & R). destruct (Vi _ _ _ _ V) as (Sn & _). exists n, pi, cons, acc. split; [assumption|]. split; [|assumption].
        apply (Rl n cons Sn) in R. destruct R as (n1 & S1 & K1). destruct Pq as [[|w r] ->]; [rewrite app_nil_r; reflexivity|]. exfalso. destruct Lq as (n2 & S2 & _). rewrite sub_app, S1 in S2. cbn in S2. rewrite K1 in S2. discriminate.
    + split; [intros x I; destruct (Fe x I) as [X|[X|(n & pi & cons & acc & _ & _ & X & _)]]; [auto|auto|discriminate X]|]. split; [|intros p n e Sn L; apply Ed; left; exists p, n; auto]. intros e I. apply Ed in I. destruct I as [I|(n & pi & cons & a2 & c' & (acc & V) & Iv & P & J)]; [left; exact I|]. right. destruct (Vi _ _ _ _ V) as (Sn & _). unfold target_acts in J. rewrite Hinh in J. apply in_app_or in J. destruct J as [J|J]; [destruct (negb (refines m unif same n cons)); [destruct J as [J|[]]; discriminate J|destruct J]|].
      destruct (Le n cons a2 c' Iv P e J) as [L R]. exists (fst n). split; [apply (Rl n cons Sn); exact R|exact L].
Qed.
End Both.
End BH.

Section Results.
Context {A B : Type} (S : tree A) (T : tree B) (unif fuel : nat) (same : bool).
Context (HS8 : eight S) (HT8 : eight T) (HSl : lower fuel S) (HTl : lower fuel T) (HSd : deep unif S) (HTd : deep unif T).

Theorem direct_dag : exists ss tt, create_dag (@direct A B fuel) unif same fuel S T = Ok (ss, tt) /\ good_dag S T (ss ++ tt) /\
  (forall e, In e (all_edges (ss ++ tt)) -> shape e) /\
  (forall q, stops (ss ++ tt) q <-> leaf_at T q) /\
  (forall x, In x (all_adds (ss ++ tt)) -> is_start S x \/ fed (ss ++ tt) x) /\
  (forall e, In e (all_edges (ss ++ tt)) <-> exists s q, leaf_at S s /\ leaf_at T q /\ e = mkEdge StoT (src s, Parts) (tgt q, Parts)).
Proof.
  destruct (both_dag S T (fun _ _ => false) HS8 HT8 false (fun c l => @direct_step A B c l) (@direct A B fuel) fuel unif same) as (ss & tt & Hc & G & Sh & St & Fe & Ed & Sl); auto.
  - intros. apply direct_step_ok. assumption.
  - intros. apply direct_source.
  - exists ss, tt. split; [assumption|]. split; [assumption|]. split; [assumption|]. split; [assumption|]. split; [assumption|].
    assert (F : forall e, In e (all_edges (ss ++ tt)) -> exists s q, leaf_at S s /\ leaf_at T q /\ e = mkEdge StoT (src s, Parts) (tgt q, Parts)).
    { intros e I. destruct (Ed e I) as [(p & n & Sn & L)|(q & Lq & _ & c & Sc & [(X & _)|(X & Lc & _)])]; [|discriminate|].
      - destruct L as [(_ & _ & X)|[(w & _ & _ & X)|(_ & X)]]; discriminate X.
      - injection X as ->. exists c, q. auto. }
    intros e. split; [apply F|]. intros (s & q & Ls & Lq & ->). destruct G as (_ & G2 & _). destruct (G2 s q Ls (proj2 (St q) Lq)) as (es & (C & _) & _). destruct es as [|f es]; [discriminate C|]. cbn [chain] in C. destruct C as (I & X & C). destruct (F f I) as (s' & q' & _ & _ & ->). cbn in X, C. injection X as ->.
    apply (parts_end _ Sh) in C. destruct C as [_ C]. injection C as ->. exact I.
Qed.

Theorem bh_dag : forall accept, exists ss tt, create_dag (@bh A B accept fuel) unif same fuel S T = Ok (ss, tt) /\ good_dag S T (ss ++ tt) /\
  (forall e, In e (all_edges (ss ++ tt)) -> shape e) /\
  (forall q, stops (ss ++ tt) q <-> leaf_at T q) /\
  (forall x, In x (all_adds (ss ++ tt)) -> is_start S x \/ fed (ss ++ tt) x) /\
  (forall s q es, chain (all_edges (ss ++ tt)) (src s, Parts) es (tgt q, Parts) -> bh_route s q es) /\
  (forall c q, In (mkEdge MtoT (src c, Normal) (tgt q, Parts)) (all_edges (ss ++ tt)) -> accept c q = true) /\
  (forall c q, In (mkEdge StoT (src c, Parts) (tgt q, Parts)) (all_edges (ss ++ tt)) -> accept c q = false) /\
  (forall e, In e (all_edges (ss ++ tt)) -> eop e = StoM \/ eop e = MtoM \/ eop e = MtoT \/ eop e = StoT) /\
  (forall c e, sub S c <> None -> (In e (all_edges (ss ++ tt)) /\ eto e = (src c, Normal) <->
    (leaf_at S c /\ e = mkEdge StoM (src c, Parts) (src c, Normal)) \/ exists w, sub S (c ++ [w]) <> None /\ e = mkEdge MtoM (src (c ++ [w]), Normal) (src c, Normal))) /\
  (forall q e, In e (all_edges (ss ++ tt)) -> eto e = (tgt q, Parts) -> exists c, sub S c <> None /\
    ((e = mkEdge MtoT (src c, Normal) (tgt q, Parts) /\ accept c q = true) \/ (e = mkEdge StoT (src c, Parts) (tgt q, Parts) /\ leaf_at S c))).
Proof.
  intros accept. destruct (both_dag S T accept HS8 HT8 true (bh_step accept) (@bh A B accept fuel) fuel unif same) as (ss & tt & Hc & G & Sh & St & Fe & Ed & Sl); auto.
  - intros. apply bh_step_ok. assumption.
  - intros. apply bh_source.
  - exists ss, tt. split; [assumption|]. split; [assumption|]. split; [assumption|]. split; [assumption|]. split; [assumption|].
    assert (Op : forall e, In e (all_edges (ss ++ tt)) -> eop e = StoM \/ eop e = MtoM \/ eop e = MtoT \/ eop e = StoT).
    { intros e I. destruct (Ed e I) as [(p & n & Sn & L)|(q & Lq & _ & c & Sc & [(_ & X & _)|(X & _)])].
      - destruct L as [(-> & _)|[(w & _ & -> & _)|(_ & X)]]; [auto|auto|discriminate X].
      - injection X as ->. auto.
      - injection X as ->. auto. }
    split; [|split; [|split; [|split; [|split]]]].
    + intros s q es C. assert (Ef : effective es). { apply quiet_effective. apply Forall_forall. intros e I. assert (J : In e (all_edges (ss ++ tt))). { revert C I. generalize (src s, Parts). clear. induction es as [|f es IH]; intros a C I; [destruct I|]. cbn [chain] in C. destruct C as (J & _ & C). destruct I as [<-|I]; [assumption|]. exact (IH _ C I). } intros X. apply Op in J. rewrite X in J. destruct J as [J|[J|[J|J]]]; discriminate J. }
      destruct (chain_joins _ Sh s q es C Ef) as (e & I & ((X1 & X2) & J1 & J2 & J3 & J4 & J5) & ->). pose proof (Sh e I) as She. pose proof (Op e I) as O. destruct She; cbn in X1, X2, O; try discriminate; try (exfalso; destruct O as [O|[O|[O|O]]]; discriminate O).
      * cbn in *. left. specialize (J3 eq_refl). specialize (J4 eq_refl). cbn in J3, J4. subst. reflexivity.
      * cbn in *. right. specialize (J4 eq_refl). cbn in J4. subst. eexists _, _. split; [exact J1|]. split; [|reflexivity]. generalize (rev (skipn (length c) s)). clear. intros rr. induction rr; cbn; constructor; [reflexivity|assumption].
    + intros c q I. destruct (Ed _ I) as [(p & n & Sn & L)|(q' & Lq & _ & c' & Sc & [(_ & X & Y)|(X & _)])].
      * destruct L as [(X & _)|[(w & _ & X & _)|(X & _)]]; discriminate X.
      * injection X as -> ->. exact Y.
      * discriminate X.
    + intros c q I. destruct (Ed _ I) as [(p & n & Sn & L)|(q' & Lq & _ & c' & Sc & [(_ & X & Y)|(X & _ & Y)])].
      * destruct L as [(X & _)|[(w & _ & X & _)|(X & _)]]; discriminate X.
      * discriminate X.
      * injection X as -> ->. exact (Y eq_refl).
    + exact Op.
    + intros c e Sc. destruct (sub S c) as [n|] eqn:Sn; [|congruence]. split.
      * intros [I Et]. destruct (Ed e I) as [(p & n' & Sp & L)|(q & _ & _ & c' & _ & [(_ & X & _)|(X & _)])]; [|injection X as ->; discriminate Et|injection X as ->; discriminate Et]. destruct L as [(-> & L & _)|[(w & K & -> & _)|(_ & X)]]; [| |discriminate X]; cbn in Et; injection Et as ->; rewrite Sn in Sp; injection Sp as <-.
        -- left. split; [apply (leaf_iff _ S c n HS8 Sn); exact L|reflexivity].
        -- right. exists w. split; [rewrite sub_snoc, Sn; exact K|reflexivity].
      * intros [[Lc ->]|(w & Sw & ->)]; (split; [|reflexivity]); apply (Sl c n _ Sn).
        -- left. split; [reflexivity|]. split; [apply (leaf_iff _ S c n HS8 Sn); exact Lc|reflexivity].
        -- right. left. exists w. rewrite sub_snoc, Sn in Sw. auto.
    + intros q e I Et. destruct (Ed e I) as [(p & n & Sn & L)|(q' & Lq & _ & c & Sc & [(_ & X & Y)|(X & Lc & _)])].
      * destruct L as [(-> & _)|[(w & _ & -> & _)|(_ & X)]]; discriminate.
      * injection X as ->. injection Et as ->. exists c. auto.
      * injection X as ->. injection Et as ->. exists c. auto.
Qed.
End Results.
