(** Chains of edges in DAGs of the shape all the methods build. *)
From Coq Require Import ZArith List Bool Arith Lia Permutation.
From Verif Require Import Base ListFacts IndexModel TreeModel TreeFacts LookupModel GeomModel DagModel DagSpec DagProofs MethodModel.
Import ListNotations.
Open Scope nat_scope.

Inductive shape : edge -> Prop :=
| S_StoM : forall s, shape (mkEdge StoM (src s, Parts) (src s, Normal))
| S_MtoM : forall p w, shape (mkEdge MtoM (src (p ++ [w]), Normal) (src p, Normal))
| S_MtoI : forall p, shape (mkEdge MtoI (src p, Normal) (src p, Interm))
| S_LtoL : forall p w, shape (mkEdge LtoL (tgt p, Normal) (tgt (p ++ [w]), Normal))
| S_LtoT : forall p, shape (mkEdge LtoT (tgt p, Normal) (tgt p, Parts))
| S_ItoL : forall p w, shape (mkEdge ItoL (tgt p, Interm) (tgt (p ++ [w]), Normal))
| S_StoT : forall c p, shape (mkEdge StoT (src c, Parts) (tgt p, Parts))
| S_StoL : forall c p, shape (mkEdge StoL (src c, Parts) (tgt p, Normal))
| S_MtoL : forall c p, shape (mkEdge MtoL (src c, Normal) (tgt p, Normal))
| S_MtoT : forall c p, shape (mkEdge MtoT (src c, Normal) (tgt p, Parts))
| S_ItoI : forall c p, shape (mkEdge ItoI (src c, Interm) (tgt p, Interm)).

Definition cross (e : edge) : Prop := fst (fst (efrom e)) = SrcTree /\ fst (fst (eto e)) = TgtTree.
Definition opath (n : dnode) : path := snd (fst n).

(** The edge can be the crossing on the way from source leaf [s] to target [q]. *)
Definition joins (s q : path) (e : edge) : Prop :=
  cross e /\ prefix (opath (efrom e)) s /\ prefix (opath (eto e)) q /\
  (snd (efrom e) = Parts -> opath (efrom e) = s) /\
  (snd (eto e) = Parts -> opath (eto e) = q) /\
  (snd (eto e) = Interm -> exists w, prefix (opath (eto e) ++ [w]) q /\ apart (idx_of (opath (efrom e))) (idx_of (opath (eto e) ++ [w]))).

(** The way up, [rr] being the slots from the bottom, and the way down. *)
Fixpoint up (c : path) (rr : list nat) : list edge :=
  match rr with
  | [] => []
  | w :: rr' => mkEdge MtoM (src (c ++ rev rr' ++ [w]), Normal) (src (c ++ rev rr'), Normal) :: up c rr'
  end.
Fixpoint down (p : path) (r : list nat) : list edge :=
  match r with
  | [] => [mkEdge LtoT (tgt p, Normal) (tgt p, Parts)]
  | w :: r' => mkEdge LtoL (tgt p, Normal) (tgt (p ++ [w]), Normal) :: down (p ++ [w]) r'
  end.

Lemma chain_app : forall E es1 a es2 b, chain E a (es1 ++ es2) b <-> exists c, chain E a es1 c /\ chain E c es2 b.
Proof.
  intros E. induction es1 as [|e es1 IH]; intros a es2 b; cbn [chain app].
  - split; [intros H; exists a; auto|]. intros (c & -> & H). assumption.
  - rewrite IH. split; [intros (I & F & c & H1 & H2); exists c; auto|]. intros (c & (I & F & H1) & H2). split; [assumption|]. split; [assumption|]. exists c. auto.
Qed.

Ltac inv_shape H := inversion H; subst; clear H.

Section Paths.
Context (E : list edge) (HS : forall e, In e E -> shape e).

Lemma down_unique : forall es p q, chain E (tgt p, Normal) es (tgt q, Parts) -> exists r, q = p ++ r /\ es = down p r.
Proof.
  induction es as [|e es IH]; intros p q H; cbn [chain] in H; [discriminate|]. destruct H as (I & F & C). pose proof (HS _ I) as Sh. destruct Sh; cbn [efrom eto] in *; try discriminate F.
  - injection F as ->. destruct (IH _ _ C) as (r & -> & ->). exists (w :: r). rewrite <- app_assoc. auto.
  - injection F as ->. destruct es as [|e' es']; cbn [chain] in C.
    + injection C as ->. exists []. rewrite app_nil_r. auto.
    + destruct C as (I' & F' & _). pose proof (HS _ I') as Sh. destruct Sh; cbn [efrom] in F'; discriminate F'.
Qed.

Lemma parts_end : forall es p b, chain E (tgt p, Parts) es b -> es = [] /\ b = (tgt p, Parts).
Proof.
  intros [|e es] p b H; cbn [chain] in H; [auto|]. destruct H as (I & F & _). pose proof (HS _ I) as Sh. destruct Sh; cbn [efrom] in F; discriminate F.
Qed.

Lemma interm_down : forall es p q, chain E (tgt p, Interm) es (tgt q, Parts) -> exists w r, q = p ++ w :: r /\ es = mkEdge ItoL (tgt p, Interm) (tgt (p ++ [w]), Normal) :: down (p ++ [w]) r.
Proof.
  intros [|e es] p q H; cbn [chain] in H; [discriminate|]. destruct H as (I & F & C). pose proof (HS _ I) as Sh. destruct Sh; cbn [efrom eto] in *; try discriminate F. injection F as ->.
  destruct (down_unique _ _ _ C) as (r & -> & ->). exists w, r. rewrite <- app_assoc. auto.
Qed.

Lemma tgt_no_src : forall es p k c, chain E (tgt p, k) es c -> fst (fst c) = TgtTree.
Proof.
  induction es as [|e es IH]; intros p k c H; cbn [chain] in H; [subst; reflexivity|]. destruct H as (I & F & C). pose proof (HS _ I) as Sh. destruct Sh; cbn [efrom eto] in *; try discriminate F; exact (IH _ _ _ C).
Qed.

Lemma interm_src_end : forall es c k d, chain E (src c, Interm) es (src d, k) -> es = [] /\ d = c /\ k = Interm.
Proof.
  intros [|e es] c k d H; cbn [chain] in H; [injection H as -> ->; auto|]. destruct H as (I & F & C). pose proof (HS _ I) as Sh. destruct Sh; cbn [efrom eto] in *; try discriminate F. apply tgt_no_src in C. discriminate C.
Qed.

Lemma up_unique : forall es s c, chain E (src s, Normal) es (src c, Normal) -> exists r, s = c ++ r /\ es = up c (rev r).
Proof.
  induction es as [|e es IH]; intros s c H; cbn [chain] in H; [injection H as ->; exists []; rewrite app_nil_r; auto|]. destruct H as (I & F & C). pose proof (HS _ I) as Sh. destruct Sh; cbn [efrom eto] in *; try discriminate F.
  - injection F as <-. destruct (IH _ _ C) as (r & -> & ->). exists (r ++ [w]). rewrite <- app_assoc. split; [reflexivity|]. rewrite rev_app_distr. cbn [rev app up]. rewrite rev_involutive. reflexivity.
  - injection F as ->. apply interm_src_end in C. destruct C as (_ & _ & C). discriminate C.
  - apply tgt_no_src in C. discriminate C.
  - apply tgt_no_src in C. discriminate C.
Qed.

Lemma up_interm_unique : forall es s c, chain E (src s, Normal) es (src c, Interm) -> exists r, s = c ++ r /\ es = up c (rev r) ++ [mkEdge MtoI (src c, Normal) (src c, Interm)].
Proof.
  induction es as [|e es IH]; intros s c H; cbn [chain] in H; [discriminate|]. destruct H as (I & F & C). pose proof (HS _ I) as Sh. destruct Sh; cbn [efrom eto] in *; try discriminate F.
  - injection F as <-. destruct (IH _ _ C) as (r & -> & ->). exists (r ++ [w]). rewrite <- app_assoc. split; [reflexivity|]. rewrite rev_app_distr. cbn [rev app up]. rewrite rev_involutive. reflexivity.
  - injection F as ->. apply interm_src_end in C. destruct C as (-> & -> & _). exists []. rewrite app_nil_r. auto.
  - apply tgt_no_src in C. discriminate C.
  - apply tgt_no_src in C. discriminate C.
Qed.

(** The way from the points of [s] to [(c, k)] in the source tree. *)
Definition rise (s c : path) (k : kind) : list edge :=
  match k with
  | Parts => []
  | Normal => mkEdge StoM (src s, Parts) (src s, Normal) :: up c (rev (skipn (length c) s))
  | Interm => mkEdge StoM (src s, Parts) (src s, Normal) :: up c (rev (skipn (length c) s)) ++ [mkEdge MtoI (src c, Normal) (src c, Interm)]
  end.
Lemma skip_pre : forall (c r : path), skipn (length c) (c ++ r) = r.
Proof. intros. rewrite skipn_app, skipn_all, Nat.sub_diag. reflexivity. Qed.

Lemma rise_unique : forall es s c k, chain E (src s, Parts) es (src c, k) -> es = rise s c k /\ prefix c s /\ (k = Parts -> c = s).
Proof.
  intros [|e es] s c k H; cbn [chain] in H; [injection H as -> <-; cbn; split; [reflexivity|split; [apply prefix_refl|reflexivity]]|]. destruct H as (I & F & C). pose proof (HS _ I) as Sh. destruct Sh; cbn [efrom eto] in *; try discriminate F.
  - injection F as ->. destruct k.
    + exfalso. assert (N : forall es p d, chain E (src p, Normal) es (src d, Parts) -> False).
      { induction es0 as [|e' es0 IH]; intros p d H; cbn [chain] in H; [discriminate|]. destruct H as (I' & F' & C'). pose proof (HS _ I') as Sh. destruct Sh; cbn [efrom eto] in *; try discriminate F'; [exact (IH _ _ C')| | |];
        [apply interm_src_end in C'; destruct C' as (_ & _ & C'); discriminate C'|apply tgt_no_src in C'; discriminate C'|apply tgt_no_src in C'; discriminate C']. }
      exact (N _ _ _ C).
    + destruct (up_unique _ _ _ C) as (r & -> & ->). cbn [rise]. rewrite skip_pre. split; [reflexivity|]. split; [exists r; reflexivity|discriminate].
    + destruct (up_interm_unique _ _ _ C) as (r & -> & ->). cbn [rise]. rewrite skip_pre. split; [reflexivity|]. split; [exists r; reflexivity|discriminate].
  - apply tgt_no_src in C. discriminate C.
  - apply tgt_no_src in C. discriminate C.
Qed.

Definition fall (p q : path) (k : kind) : list edge :=
  match k with
  | Parts => []
  | Normal => down p (skipn (length p) q)
  | Interm => match skipn (length p) q with
              | w :: r => mkEdge ItoL (tgt p, Interm) (tgt (p ++ [w]), Normal) :: down (p ++ [w]) r
              | [] => []
              end
  end.
Lemma fall_unique : forall es p q k, chain E (tgt p, k) es (tgt q, Parts) -> es = fall p q k /\ prefix p q /\ (k = Parts -> p = q) /\
  (k = Interm -> exists w, prefix (p ++ [w]) q /\ exists es', es = mkEdge ItoL (tgt p, Interm) (tgt (p ++ [w]), Normal) :: es').
Proof.
  intros es p q [| |] H.
  - apply parts_end in H. destruct H as [-> H]. injection H as ->. cbn. split; [reflexivity|]. split; [apply prefix_refl|]. split; [reflexivity|discriminate].
  - apply down_unique in H. destruct H as (r & -> & ->). cbn [fall]. rewrite skip_pre. split; [reflexivity|]. split; [exists r; reflexivity|]. split; discriminate.
  - apply interm_down in H. destruct H as (w & r & -> & ->). cbn [fall]. rewrite skip_pre. split; [reflexivity|]. split; [exists (w :: r); reflexivity|]. split; [discriminate|]. intros _. exists w. split; [exists r; rewrite <- app_assoc; reflexivity|]. eexists. reflexivity.
Qed.

(** A chain from the source tree to the target tree crosses once. *)
Lemma split_cross : forall es c k b, chain E (src c, k) es b -> fst (fst b) = TgtTree ->
  exists es1 e es2, es = es1 ++ e :: es2 /\ chain E (src c, k) es1 (efrom e) /\ In e E /\ cross e /\ chain E (eto e) es2 b.
Proof.
  induction es as [|e es IH]; intros c k b H T; cbn [chain] in H; [subst; discriminate T|]. destruct H as (I & F & C). pose proof (HS _ I) as Sh.
  destruct (fst (fst (eto e))) eqn:X.
  - destruct (eto e) as [[sd d] kd] eqn:Ee. cbn in X. subst sd. destruct (IH _ _ _ C T) as (es1 & e' & es2 & -> & C1 & I' & Cr & C2). exists (e :: es1), e', es2. split; [reflexivity|]. split; [|auto].
    cbn [chain]. split; [assumption|]. split; [assumption|]. rewrite Ee. assumption.
  - exists [], e, es. split; [reflexivity|]. split; [cbn; congruence|]. split; [assumption|]. split; [|assumption]. split; [rewrite F; reflexivity|assumption].
Qed.

Lemma effective_app_r : forall a b, effective (a ++ b) -> effective b.
Proof. induction a as [|e a IH]; intros b H; [assumption|]. apply IH. cbn [app] in H. destruct (a ++ b) eqn:X; [constructor|]. cbn [effective] in H. exact (proj2 H). Qed.

Lemma cross_ends : forall e, In e E -> cross e -> exists c k p k', efrom e = (src c, k) /\ eto e = (tgt p, k') /\ (k' = Interm -> eop e = ItoI).
Proof.
  intros e I [X Y]. pose proof (HS _ I) as Sh. destruct Sh; cbn in X, Y; try discriminate; cbn [efrom eto eop]; do 4 eexists; split; try reflexivity; split; try reflexivity; try discriminate; auto.
Qed.

Lemma chain_joins : forall s q es, chain E (src s, Parts) es (tgt q, Parts) -> effective es ->
  exists e, In e E /\ joins s q e /\ es = rise s (opath (efrom e)) (snd (efrom e)) ++ e :: fall (opath (eto e)) q (snd (eto e)).
Proof.
  intros s q es C Ef. destruct (split_cross _ _ _ _ C eq_refl) as (es1 & e & es2 & -> & C1 & I & Cr & C2). exists e. split; [assumption|].
  destruct (cross_ends _ I Cr) as (c & k & p & k' & F & T & O). rewrite F in C1. rewrite T in C2. destruct (rise_unique _ _ _ _ C1) as (-> & P1 & P2). destruct (fall_unique _ _ _ _ C2) as (X & P3 & P4 & P5). split.
  - split; [assumption|]. rewrite F, T. cbn [opath fst snd src tgt]. split; [assumption|]. split; [assumption|]. split; [assumption|]. split; [assumption|]. intros K. destruct (P5 K) as (w & Pw & es' & ->). exists w. split; [assumption|].
    apply effective_app_r in Ef. cbn [effective] in Ef. destruct Ef as [A _]. unfold acts_on in A. rewrite (O K), F in A. exact A.
  - rewrite F, T. cbn [opath fst snd src tgt]. rewrite <- X. reflexivity.
Qed.

Definition quiet (e : edge) : Prop := eop e <> ItoI.
Lemma effective_quiet : forall es f es', Forall quiet es -> effective (f :: es') -> effective (es ++ f :: es').
Proof.
  induction es as [|e es IH]; intros f es' Q H; [assumption|]. inversion Q; subst. pose proof (IH f es' ltac:(assumption) H) as R. destruct (es ++ f :: es') as [|g l] eqn:X; [destruct es; discriminate|]. cbn [app]. rewrite X. cbn [effective]. split; [|exact R].
  unfold acts_on. destruct (eop e) eqn:Y; try exact I. exfalso. apply H2. assumption.
Qed.
Lemma up_quiet : forall c rr, Forall quiet (up c rr).
Proof. induction rr; cbn [up]; constructor; [discriminate|assumption]. Qed.
Lemma down_quiet : forall r p, Forall quiet (down p r).
Proof. induction r; intros; cbn [down]; repeat constructor; try discriminate; apply IHr. Qed.
Lemma rise_quiet : forall s c k, Forall quiet (rise s c k).
Proof. intros s c [| |]; cbn [rise]; repeat constructor; try discriminate; [apply up_quiet|]. apply Forall_app. split; [apply up_quiet|repeat constructor; discriminate]. Qed.
Lemma quiet_effective : forall es, Forall quiet es -> effective es.
Proof.
  intros es Q. induction Q as [|e es H Q IH]; [exact I|]. destruct es as [|f es]; [exact I|]. cbn [effective]. split; [|exact IH]. unfold acts_on. destruct (eop e) eqn:Y; try exact I. contradiction.
Qed.

(** What the construction must provide. *)
Context (sleaf dleaf : path -> Prop).
Context (Hone : forall s q, sleaf s -> dleaf q -> exists e, In e E /\ joins s q e /\ forall e', In e' E -> joins s q e' -> e' = e).
Context (Hrise : forall s q e, sleaf s -> dleaf q -> In e E -> joins s q e -> chain E (src s, Parts) (rise s (opath (efrom e)) (snd (efrom e))) (efrom e)).
Context (Hfall : forall s q e, sleaf s -> dleaf q -> In e E -> joins s q e -> chain E (eto e) (fall (opath (eto e)) q (snd (eto e))) (tgt q, Parts)).

Theorem one_chain : forall s q, sleaf s -> dleaf q -> exists! es, chain E (src s, Parts) es (tgt q, Parts) /\ effective es.
Proof.
  intros s q Hs Hq. destruct (Hone s q Hs Hq) as (e & I & J & U). exists (rise s (opath (efrom e)) (snd (efrom e)) ++ e :: fall (opath (eto e)) q (snd (eto e))). split; [split|].
  - apply chain_app. exists (efrom e). split; [eapply Hrise; eassumption|]. cbn [chain]. split; [assumption|]. split; [reflexivity|]. eapply Hfall; eassumption.
  - apply effective_quiet; [apply rise_quiet|]. destruct J as (Cr & _ & P & _ & _ & W). destruct (cross_ends _ I Cr) as (c & k & p & k' & F & T & O). rewrite T in *. cbn [opath fst snd tgt] in *. destruct k'; cbn [fall].
    + exact Logic.I.
    + pose proof (quiet_effective _ (down_quiet (skipn (length p) q) p)) as Q. destruct (down p (skipn (length p) q)) as [|f l] eqn:D; [exact Logic.I|]. cbn [effective]. split; [|exact Q]. unfold acts_on. destruct (eop e) eqn:Y; try exact Logic.I.
      destruct (skipn (length p) q); cbn [down] in D; injection D as <- _; cbn; destruct (efrom e) as [[? ?] ?]; exact Logic.I.
    + destruct (W eq_refl) as (w & [r ->] & A). rewrite <- app_assoc. rewrite skip_pre. cbn [app]. pose proof (quiet_effective _ (down_quiet r (p ++ [w]))) as Q. destruct (down (p ++ [w]) r) as [|f l] eqn:D.
      * cbn [effective]. split; [|exact Logic.I]. unfold acts_on. rewrite (O eq_refl). rewrite F in *. cbn. exact A.
      * cbn [effective]. split; [unfold acts_on; rewrite (O eq_refl); rewrite F in *; cbn; exact A|]. split; [unfold acts_on; cbn; exact Logic.I|exact Q].
  - intros es [C Ef]. destruct (chain_joins s q es C Ef) as (e' & I' & J' & ->). rewrite (U e' I' J'). reflexivity.
Qed.
End Paths.
