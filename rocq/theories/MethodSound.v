(** From the tasks of a method to its DAG: the assembly used for all four methods. *)
From Coq Require Import ZArith List Bool Arith Lia Permutation.
From Verif Require Import Base ListFacts IndexModel TreeModel TreeFacts RefineModel LookupModel GeomModel DagModel DagSpec DagProofs MethodModel DagPaths DagExec DagSound MethodProofs MethodTasks.
Import ListNotations.
Open Scope nat_scope.

(** A target task taken apart. *)
Record parted {A} (S : tree A) (msrc isrc ltgt : path -> bool) (p : path) (pi ref : bool) (acts xs ys : list act) (inter : bool) : Prop := {
  pa_acts : acts = inh ltgt p pi (negb ref) ++ (xs ++ (if inter then add_interm (tgt p) :: ys else [])) ++ (if negb ref && ltgt p then [do_LtoT (tgt p) (tgt p)] else []);
  pa_int : inter = true -> ref = true /\ forall w, ltgt (p ++ [w]) = true;
  pa_xs : forall a, In a xs -> exists e, a = Link e /\ tlink S msrc isrc ltgt p false ref e /\ fst (fst (efrom e)) = SrcTree /\ snd (eto e) <> Interm;
  pa_ys : forall a, In a ys -> inter = true /\ exists c, a = do_ItoI (tgt p) (src c) /\ sub S c <> None /\ isrc c = true;
  pa_cnt : forall s, ocnt s (xs ++ ys) <= 1;
  pa_ne : inter = true -> ys <> [] }.

Section Assemble.
Context {A B : Type} (m : method A B) (unif : nat) (same : bool) (fuel : nat) (S : tree A) (T : tree B).
(** [hasI]: the method uses intermediate expansions of target nodes. *)
Context (msrc isrc ltgt : path -> bool) (hasI : bool).
Context (HS8 : eight S) (HT8 : eight T) (HSl : lower fuel S) (HTl : lower fuel T) (HSd : deep unif S) (HTd : deep unif T).
Context (Hmono : forall (p : path) w, msrc p = true -> msrc (p ++ [w]) = true) (Hisrc : forall p, isrc p = true -> msrc p = true).
Context (Hltgt : forall (p : path) w, ltgt p = true -> ltgt (p ++ [w]) = true) (Hltgt0 : ltgt [] = false).
Context (Hm : forall p n, sub S p = Some n -> source_acts m (p, n) = srcacts msrc isrc p n).
Context (Inv : path * tree B -> list (path * tree A) -> Prop) (pc : path -> path -> list (path * tree A) -> nat).
Let ref n cons := refines m unif same n cons.
Context (A1 : Inv ([], T) [([], S)]).
Context (A1c : forall s, leaf_at S s -> pc s [] [([], S)] = 1).
Context (A2 : forall (n : path * tree B) cons a2 cons' c, sub T (fst n) = Some (snd n) -> Inv n cons -> ref n cons = true -> process m n cons false = Ok (a2, cons') -> In c (children n) -> Inv c cons').
Context (A3 : forall (n : path * tree B) pi cons a2 cons', sub T (fst n) = Some (snd n) -> Inv n cons -> process m n cons (negb (ref n cons)) = Ok (a2, cons') ->
  (pi = true -> fst n <> []) -> (pi = true -> ltgt (fst n) = true) -> (pi = true -> hasI = true) ->
  exists xs ys inter, parted S msrc isrc ltgt (fst n) pi (ref n cons) (target_acts m unif same n pi cons a2) xs ys inter /\ (inter = true -> hasI = true)).
Context (A4 : forall (n : path * tree B) cons, sub T (fst n) = Some (snd n) -> Inv n cons -> exists r, process m n cons (negb (ref n cons)) = Ok r).
Context (A5 : forall (n : path * tree B) pi cons a2 cons', sub T (fst n) = Some (snd n) -> Inv n cons -> ref n cons = true -> process m n cons false = Ok (a2, cons') ->
  forall s q c, leaf_at S s -> In c (children n) -> prefix (fst c) q -> jcnt s q (target_acts m unif same n pi cons a2) + pc s (fst c) cons' = pc s (fst n) cons).
Context (A6 : forall (n : path * tree B) pi cons a2 cons' s, sub T (fst n) = Some (snd n) -> Inv n cons -> ref n cons = false -> process m n cons true = Ok (a2, cons') ->
  leaf_at S s -> jcnt s (fst n) (target_acts m unif same n pi cons a2) = pc s (fst n) cons).
Let V := vis m unif same S T.

Lemma v_sub : forall n pi cons acc, V n pi cons acc -> sub T (fst n) = Some (snd n).
Proof. intros n pi cons acc H. apply visited_sub in H. destruct H as (p & Ep & Sp). cbn in Ep, Sp. subst p. assumption. Qed.
Lemma v_inv : forall n pi cons acc, V n pi cons acc -> Inv n cons /\ (pi = true -> fst n <> []) /\ (pi = true -> ltgt (fst n) = true) /\ (pi = true -> hasI = true).
Proof.
  intros n pi cons acc H. assert (G : V n pi cons acc) by assumption. induction H as [|n pi cons acc a2 cons' c H IH R P I]; [split; [exact A1|repeat split; discriminate]|]. destruct (IH H) as (Iv & P1 & P2 & P3). pose proof (v_sub _ _ _ _ H) as Sn. split; [eapply A2; eassumption|].
  destruct c as [q c]. pose proof I as I0. apply children_in in I0. destruct I0 as (w & _ & _ & ->). cbn [fst].
  assert (X : existsb (is_add_interm (fst n)) (target_acts m unif same n pi cons a2) = true -> exists xs ys, parted S msrc isrc ltgt (fst n) pi (ref n cons) (target_acts m unif same n pi cons a2) xs ys true /\ hasI = true).
  { intros E. assert (P' : process m n cons (negb (ref n cons)) = Ok (a2, cons')) by (unfold ref; rewrite R; assumption). destruct (A3 n pi cons a2 cons' Sn Iv P' P1 P2 P3) as (xs & ys & inter & Pa & Hi). pose proof Pa as Pa'. destruct Pa' as [pa pb pc' pd pe pf].
    assert (Ai : In (tgt (fst n), Interm) (adds (target_acts m unif same n pi cons a2))).
    { apply existsb_exists in E. destruct E as ([x|e] & J & K); [|discriminate K]. cbn in K. match type of K with (if dnode_dec ?a ?b then _ else _) = _ => destruct (dnode_dec a b) as [->|]; [|discriminate K] end. apply in_adds. exact J. }
    destruct inter; [eauto|]. exfalso. 
    destruct (t_adds S msrc isrc ltgt n pi (ref n cons) _ xs false _ ys pa) as (_ & _ & _ & _ & B5); [exact P2|reflexivity|discriminate|exact pc'|exact pd|]. apply B5 in Ai. discriminate Ai. }
  split; [intros _ Y; destruct (fst n); discriminate Y|]. split; [intros E; destruct (X E) as (xs & ys & Pa & _); apply (pa_int _ _ _ _ _ _ _ _ _ _ _ Pa eq_refl)|]. intros E. destruct (X E) as (xs & ys & _ & Hi). exact Hi.
Qed.

Theorem assemble : exists ss tt, create_dag m unif same fuel S T = Ok (ss, tt) /\ good_dag S T (ss ++ tt) /\
  (forall e, In e (all_edges (ss ++ tt)) -> shape e) /\
  (forall e, In e (all_edges (ss ++ tt)) <-> (exists p n, sub S p = Some n /\ slink msrc isrc p n e) \/
     (exists n pi cons a2 c', (exists acc, V n pi cons acc) /\ Inv n cons /\ process m n cons (negb (ref n cons)) = Ok (a2, c') /\ In (Link e) (target_acts m unif same n pi cons a2))) /\
  (forall q, stops (ss ++ tt) q <-> exists n pi cons acc, V n pi cons acc /\ fst n = q /\ ref n cons = false) /\
  (forall n pi cons acc, V n pi cons acc -> sub T (fst n) = Some (snd n) /\ Inv n cons /\ (pi = true -> fst n <> []) /\ (pi = true -> ltgt (fst n) = true) /\ (pi = true -> hasI = true)) /\
  (forall n pi cons acc, V n pi cons acc -> ltgt (fst n) = true -> In (tgt (fst n), Normal) (all_adds (ss ++ tt))) /\
  (forall x, In x (all_adds (ss ++ tt)) -> (exists s, leaf_at S s /\ x = (src s, Parts)) \/ (exists e, In e (all_edges (ss ++ tt)) /\ eto e = x) \/
     (exists n pi cons acc, V n pi cons acc /\ x = (tgt (fst n), Normal) /\ ltgt (fst n) = true /\ pi = false /\ forall p0 w, fst n = p0 ++ [w] -> ltgt p0 = false)).
Proof.
  destruct (source_apply_ok m unif fuel ([], S)) as [ss Hss]; [exact HS8|exact HSl|exact HSd|].
  destruct (target_apply_ok m unif same fuel ([], T) false [([], S)]) as [tt Htt]; [exact HT8|exact HTl| |].
  { intros n pi cons acc H. apply A4; [exact (v_sub _ _ _ _ H)|]. apply (v_inv _ _ _ _ H). }
  assert (D : forall n pi cons acc a2 c', V n pi cons acc -> process m n cons (negb (ref n cons)) = Ok (a2, c') -> exists xs ys inter, parted S msrc isrc ltgt (fst n) pi (ref n cons) (target_acts m unif same n pi cons a2) xs ys inter /\ (pi = true -> fst n <> []) /\ (pi = true -> ltgt (fst n) = true)).
  { intros n pi cons acc a2 c' H P. destruct (v_inv _ _ _ _ H) as (Iv & P1 & P2 & P3). destruct (A3 n pi cons a2 c' (v_sub _ _ _ _ H) Iv P P1 P2 P3) as (xs & ys & inter & Pa & _). exists xs, ys, inter. auto. }
  assert (Ht_adds : forall n pi cons acc a2 c', V n pi cons acc -> process m n cons (negb (refines m unif same n cons)) = Ok (a2, c') ->
    NoDup (adds (task_of m unif same n pi cons a2)) /\ (forall x, In x (adds (task_of m unif same n pi cons a2)) -> fst x = tgt (fst n)) /\
    (In (tgt (fst n), Parts) (adds (task_of m unif same n pi cons a2)) <-> refines m unif same n cons = false) /\
    (ltgt (fst n) = true -> In (tgt (fst n), Normal) (adds (task_of m unif same n pi cons a2)))).
  { intros n pi cons acc a2 c' H P. destruct (D _ _ _ _ _ _ H P) as (xs & ys & inter & [pa pb pc' pd pe pf] & P1 & P2). unfold task_of.
    destruct (t_adds S msrc isrc ltgt n pi (ref n cons) _ xs inter _ ys pa) as (B1 & B2 & B3 & B4 & B5); [exact P2|reflexivity|intros X; apply pb; exact X|exact pc'|exact pd|]. auto. }
  assert (Ht_links : forall n pi cons acc a2 c', V n pi cons acc -> process m n cons (negb (refines m unif same n cons)) = Ok (a2, c') ->
    NoDup (links (task_of m unif same n pi cons a2)) /\ (forall e, In e (links (task_of m unif same n pi cons a2)) -> tlink S msrc isrc ltgt (fst n) pi (refines m unif same n cons) e) /\
    (forall p0 w, fst n = p0 ++ [w] -> ltgt p0 = true -> In (LtoL_ p0 w) (links (task_of m unif same n pi cons a2))) /\
    (forall p0 w, fst n = p0 ++ [w] -> pi = true -> In (ItoL_ p0 w) (links (task_of m unif same n pi cons a2))) /\
    (refines m unif same n cons = false -> ltgt (fst n) = true -> In (LtoT_ (fst n)) (links (task_of m unif same n pi cons a2)))).
  { intros n pi cons acc a2 c' H P. destruct (D _ _ _ _ _ _ H P) as (xs & ys & inter & [pa pb pc' pd pe pf] & P1 & P2). unfold task_of.
    apply (t_links S msrc isrc ltgt Hltgt n pi (ref n cons) _ xs inter _ ys pa); auto. intros X. apply pb. exact X. }
  assert (Ht_prog : forall n pi cons acc a2 c' a1 e a3, V n pi cons acc -> process m n cons (negb (refines m unif same n cons)) = Ok (a2, c') ->
    task_of m unif same n pi cons a2 = a1 ++ Link e :: a3 -> (fst (efrom e) = tgt (fst n) -> In (efrom e) (adds a1)) /\ In (eto e) (adds a1)).
  { intros n pi cons acc a2 c' a1 e a3 H P Ea. destruct (D _ _ _ _ _ _ H P) as (xs & ys & inter & [pa pb pc' pd pe pf] & P1 & P2). unfold task_of in Ea.
    eapply (t_prog S msrc isrc ltgt n pi (ref n cons) _ xs inter _ ys pa); try exact Ea; auto. intros X. apply pb. exact X. }
  pose proof (src_adds S m msrc isrc Hm Hisrc) as Hsa. pose proof (src_links S HS8 m msrc isrc Hm Hisrc) as Hsl. pose proof (src_prog S m msrc isrc Hm) as Hsp.
  exists ss, tt. split; [unfold create_dag; rewrite Hss; cbn; rewrite Htt; reflexivity|]. 
  assert (Ec := edge_cases m unif same fuel S T ss tt msrc isrc HS8 Hss Htt Hsl). unfold E in Ec.
  assert (Gd : good_dag S T (ss ++ tt)); [|split; [exact Gd|split; [|split; [|split; [|split; [|split]]]]]].
  - split; [|split; [|split]].
    + eapply (sound_nodup m unif same fuel S T ss tt msrc isrc ltgt); eassumption.
    + eapply (sound_chain m unif same fuel S T ss tt msrc isrc ltgt HS8 Hss Htt Hsa Hsl Hsp Hmono Hisrc Ht_adds Ht_links Ht_prog Hltgt) with (Inv := Inv) (pc := pc).
      * intros n pi cons acc H. apply (v_inv _ _ _ _ H).
      * split; [exact A1|exact A1c].
      * intros n pi cons a2 cons' Sn Iv R P. split; [intros c I; eapply A2; eassumption|]. intros s q c Hs I Pq. unfold task_of. eapply A5; eassumption.
      * intros n pi cons a2 cons' s Sn Iv R P Hs. unfold task_of. eapply A6; eassumption.
    + eapply (sound_stops m unif same fuel S T ss tt msrc isrc ltgt); eassumption.
    + eapply (sound_run m unif same fuel S T ss tt msrc isrc ltgt); eassumption.
  - eapply (sound_shape m unif same fuel S T ss tt msrc isrc ltgt); eassumption.
  - intros e. rewrite (edge_cases m unif same fuel S T ss tt msrc isrc HS8 Hss Htt Hsl e). split; (intros [Hl|Hr]; [left; exact Hl|right]).
    + destruct Hr as (n & pi & cons & acc & a2 & c' & H & P & J). exists n, pi, cons, a2, c'. split; [exists acc; exact H|]. split; [apply (v_inv _ _ _ _ H)|]. split; [exact P|]. apply in_links. exact J.
    + destruct Hr as (n & pi & cons & a2 & c' & (acc & H) & _ & P & J). exists n, pi, cons, acc, a2, c'. split; [exact H|]. split; [exact P|]. apply in_links. exact J.
  - intros q. eapply (dleaf_stops m unif same fuel S T ss tt msrc isrc ltgt); eassumption.
  - intros n pi cons acc H. split; [exact (v_sub _ _ _ _ H)|]. destruct (v_inv _ _ _ _ H) as (X1 & X2 & X3 & X4). auto.
  - intros n pi cons acc H L. destruct (vis_process m unif same fuel S T tt Htt _ _ _ _ H) as (a2 & c' & P). unfold all_adds. apply in_flat_map. exists (tgt (fst n), task_of m unif same n pi cons a2). split.
    + apply in_or_app. right. apply (tt_in m unif same fuel S T tt Htt). exists n, pi, cons, acc, a2, c'. auto.
    + apply (Ht_adds _ _ _ _ _ _ H P). exact L.
  - intros x I. unfold all_adds in I. apply in_flat_map in I. destruct I as ([o acts] & I & J). cbn [snd] in J. apply in_app_or in I. destruct I as [I|I].
    + apply (ss_in m unif fuel S ss HS8 Hss) in I. destruct I as (p & n & Sp & -> & ->). apply (proj2 (Hsa p n Sp)) in J. destruct J as [(-> & L)|[(-> & L)|(-> & L)]].
      * left. exists p. split; [apply (leaf_iff _ _ _ _ HS8 Sp); exact L|reflexivity].
      * right. left. destruct (is_leaf n) eqn:Lf.
        -- exists (StoM_ p). split; [|reflexivity]. apply Ec. left. exists p, n. split; [assumption|]. left. auto.
        -- assert (K : exists w, kid n w <> None).
           { destruct (existsb (fun w => match kid n w with Some _ => true | None => false end) (seq 0 8)) eqn:X; [apply existsb_exists in X; destruct X as (w & _ & X); exists w; destruct (kid n w); [discriminate|discriminate X]|]. exfalso. unfold is_leaf in Lf. apply Nat.eqb_neq in Lf. apply Lf. apply n_children_0; [exact (HS8 _ _ Sp)|]. intros w. destruct (kid n w) as [c|] eqn:K; [|reflexivity]. exfalso. assert (Y : existsb (fun w => match kid n w with Some _ => true | None => false end) (seq 0 8) = true). { apply existsb_exists. exists w. split; [|rewrite K; reflexivity]. apply in_seq. pose proof (kid_lt8 _ n w c (HS8 _ _ Sp) K). lia. } congruence. }
           destruct K as [w K]. exists (MtoM_ p w). split; [|reflexivity]. apply Ec. left. exists p, n. split; [assumption|]. right. left. exists w. auto.
      * right. left. exists (MtoI_ p). split; [|reflexivity]. apply Ec. left. exists p, n. split; [assumption|]. right. right. auto.
    + pose proof I as I0. apply (tt_in m unif same fuel S T tt Htt) in I. destruct I as (n & pi & cons & acc & a2 & c' & H & -> & P & ->). unfold task_of in J.
      destruct (D _ _ _ _ _ _ H P) as (xs & ys & inter & Pa & P1 & P2). pose proof Pa as [pa pb pc' pd pe pf].
      assert (Ad := t_adds_eq S msrc isrc ltgt n pi (ref n cons) _ xs inter _ ys pa eq_refl (fun X => proj1 (pb X)) pc' pd). rewrite Ad in J. apply in_app_or in J. destruct J as [J|J]; [|apply in_app_or in J; destruct J as [J|J]].
      * destruct (ref n cons) eqn:R; [destruct J|]. destruct J as [<-|[]]. right. left. destruct (leaf_below _ _ _ HSl) as [s Hs]. destruct Gd as (_ & G2 & _). destruct (G2 s (fst n) Hs) as (es & (Ch & _) & _).
        { apply (dleaf_stops m unif same fuel S T ss tt msrc isrc ltgt HS8 Hss Htt Hsa Ht_adds). exists n, pi, cons, acc. auto. }
        destruct es as [|e es] using rev_ind; [discriminate Ch|]. apply chain_app in Ch. destruct Ch as (b & _ & Ie & _ & Et). exists e. split; [exact Ie|exact Et].
      * destruct (ltgt (fst n)) eqn:L; [|destruct J]. destruct J as [<-|[]]. destruct (Ht_links _ _ _ _ _ _ H P) as (_ & _ & L1 & L2 & _).
        assert (Ie : forall e, In e (links (task_of m unif same n pi cons a2)) -> In e (all_edges (ss ++ tt))) by (intros e K; apply Ec; right; exists n, pi, cons, acc, a2, c'; auto).
        destruct pi eqn:Pi.
        -- right. left. destruct (snoc_parent (fst n) (P1 eq_refl)) as [w W]. exists (ItoL_ (parent_of (fst n)) w). split; [apply Ie; apply L2; auto|]. cbn. rewrite <- W. reflexivity.
        -- destruct (fst n) as [|y r] eqn:Fn.
           ++ rewrite Hltgt0 in L. discriminate.
           ++ destruct (snoc_parent (y :: r)) as [w W]; [discriminate|]. destruct (ltgt (parent_of (y :: r))) eqn:Lp.
              ** right. left. exists (LtoL_ (parent_of (y :: r)) w). split; [apply Ie; apply L1; auto|]. cbn [eto LtoL_]. rewrite <- W. reflexivity.
              ** right. right. exists n, false, cons, acc. rewrite Fn. split; [exact H|]. repeat split; auto. intros p0 v Ev. rewrite Ev in Lp. rewrite parent_snoc in Lp. exact Lp.
      * destruct inter eqn:Ei; [|destruct J]. destruct J as [<-|[]]. right. left. specialize (pf eq_refl). destruct ys as [|y ys]; [contradiction|]. destruct (pd y (or_introl eq_refl)) as (_ & c & Ey & _).
        exists (mkEdge ItoI (src c, Interm) (tgt (fst n), Interm)). split; [|reflexivity]. apply Ec. right. exists n, pi, cons, acc, a2, c'. split; [exact H|]. split; [exact P|]. apply in_links. unfold task_of. rewrite pa. apply in_or_app. right. apply in_or_app. left. apply in_or_app. right. right. left. exact Ey.
Qed.
End Assemble.
