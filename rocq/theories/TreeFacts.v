(** General facts about trees. *)
From Coq Require Import ZArith List Bool Lia.
From Verif Require Import Base ListFacts IndexModel IndexSpec IndexProofs GridProofs TreeModel.
Import ListNotations.

Section Ind.
Context {A : Type} (P : tree A -> Prop).
Hypothesis H : forall a cs, (forall c, In (Some c) cs -> P c) -> P (T a cs).
Fixpoint tree_ind' (t : tree A) : P t :=
  match t with
  | T a cs => H a cs
     ((fix go (l : list (option (tree A))) : forall c, In (Some c) l -> P c :=
         match l with
         | [] => fun c X => match X with end
         | o :: l' => fun c X =>
             match X with
             | or_introl E => match o as o' return o' = Some c -> P c with
                              | Some d => fun E' => match E' in (_ = y) return match y with Some c' => P c' | None => True end with eq_refl => tree_ind' d end
                              | None => fun E' => match E' in (_ = y) return match y with Some c' => P c' | None => True end with eq_refl => I end
                              end E
             | or_intror X' => go l' c X'
             end
         end) cs)
  end.
End Ind.

Lemma sub_app : forall A (t : tree A) p q, sub t (p ++ q) = match sub t p with Some t' => sub t' q | None => None end.
Proof.
  intros A t p q. revert t. induction p as [|w p IH]; intros t; cbn; [reflexivity|]. destruct (kid t w); [apply IH|reflexivity].
Qed.

Lemma kid_in : forall A (t : tree A) w c, kid t w = Some c -> In (Some c) (kids t).
Proof. intros A t w c H. unfold kid in H. destruct (nth_error (kids t) w) as [[d|]|] eqn:E; inversion H; subst. eapply nth_error_In; eassumption. Qed.

Lemma in_kid : forall A (t : tree A) c, In (Some c) (kids t) -> exists w, kid t w = Some c.
Proof. intros A t c H. apply In_nth_error in H. destruct H as [w H]. exists w. unfold kid. rewrite H. reflexivity. Qed.

Lemma nodes_self : forall A (t : tree A), In t (nodes t).
Proof. intros A [a cs]. left. reflexivity. Qed.

Lemma nodes_sub : forall A (t n : tree A), In n (nodes t) <-> exists p, sub t p = Some n.
Proof.
  intros A t. induction t as [a cs IH] using tree_ind'. intros n. cbn [nodes]. split.
  - intros [<-|H]; [exists []; reflexivity|]. apply in_flat_map in H. destruct H as ([c|] & Hc & H); [|contradiction].
    destruct (proj1 (IH c Hc n) H) as [p Hp]. destruct (in_kid _ (T a cs) c Hc) as [w Hw]. exists (w :: p). cbn [sub]. rewrite Hw. assumption.
  - intros [[|w p] H]; cbn [sub] in H; [inversion H; left; reflexivity|]. right.
    destruct (kid (T a cs) w) as [c|] eqn:K; [|discriminate]. apply in_flat_map. exists (Some c).
    pose proof (kid_in _ _ _ _ K) as Hc. cbn in Hc. split; [assumption|]. apply (IH c Hc). eauto.
Qed.

Lemma kid_no_kids : forall A (a : A) w, kid (T a no_kids) w = None.
Proof. intros A a w. unfold kid. cbn [kids]. destruct (nth_error no_kids w) as [o|] eqn:E; [|reflexivity].
  apply nth_error_In in E. apply repeat_spec in E. subst. reflexivity. Qed.

(** Index of the node reached by a path. *)
Definition follow (i : index) (p : list nat) : index := fold_left (fun i w => child (Z.of_nat w) i) p i.

(** Every node sits at the index its path says; eight slots each. *)
Definition indexed {A} (idx : A -> index) (t : tree A) : Prop :=
  forall p n, sub t p = Some n -> length (kids n) = 8 /\ forall w c, kid n w = Some c -> idx (info c) = child (Z.of_nat w) (idx (info n)).

Lemma indexed_kid : forall A (idx : A -> index) (t : tree A) w c, indexed idx t -> kid t w = Some c -> indexed idx c.
Proof. intros A idx t w c H K p n S. apply (H (w :: p)). cbn [sub]. rewrite K. assumption. Qed.

Lemma kid_lt : forall A (idx : A -> index) (t : tree A) w c, indexed idx t -> kid t w = Some c -> w < 8.
Proof.
  intros A idx t w c H K. destruct (H [] t eq_refl) as [L _]. unfold kid in K. destruct (nth_error (kids t) w) eqn:E; [|discriminate].
  rewrite <- L. apply nth_error_Some. congruence.
Qed.

Lemma indexed_follow : forall A (idx : A -> index) p (t n : tree A), indexed idx t -> sub t p = Some n -> idx (info n) = follow (idx (info t)) p.
Proof.
  intros A idx. induction p as [|w p IH]; intros t n H S; cbn in S.
  - inversion S. reflexivity.
  - destruct (kid t w) as [c|] eqn:K; [|discriminate]. rewrite (IH c n (indexed_kid _ _ _ _ _ H K) S).
    change (follow (idx (info t)) (w :: p)) with (follow (child (Z.of_nat w) (idx (info t))) p).
    f_equal. destruct (H [] t eq_refl) as [_ X]. apply X. assumption.
Qed.

Lemma indexed_path_lt : forall A (idx : A -> index) p (t n : tree A), indexed idx t -> sub t p = Some n -> Forall (fun w => w < 8) p.
Proof.
  intros A idx. induction p as [|w p IH]; intros t n H S; constructor; cbn in S; destruct (kid t w) as [c|] eqn:K; try discriminate.
  - eapply kid_lt; eassumption.
  - eapply IH; [|eassumption]. eapply indexed_kid; eassumption.
Qed.

Open Scope Z_scope.
Lemma follow_facts : forall p i, in_grid i -> Forall (fun w => (w < 8)%nat) p ->
  in_grid (follow i p) /\ ilevel (follow i p) = ilevel i + Z.of_nat (length p) /\ parent (Z.of_nat (length p)) (follow i p) = i.
Proof.
  induction p as [|w p IH]; intros i G F.
  - cbn. split; [assumption|]. split; [lia|]. apply parent_0. apply G.
  - inversion F; subst. destruct (child_facts (Z.of_nat w) i ltac:(lia) G) as (G' & L & Pa & _).
    destruct (IH _ G' H2) as (A & B & C). change (follow i (w :: p)) with (follow (child (Z.of_nat w) i) p).
    split; [assumption|]. split; [cbn [length]; lia|].
    replace (Z.of_nat (length (w :: p))) with (1 + Z.of_nat (length p)) by (cbn [length]; lia).
    rewrite <- parent_parent by (destruct A; lia). rewrite C. assumption.
Qed.

(** Different paths of one length lead to different indices. *)
Lemma follow_inj : forall p q i, in_grid i -> Forall (fun w => (w < 8)%nat) p -> Forall (fun w => (w < 8)%nat) q ->
  length p = length q -> follow i p = follow i q -> p = q.
Proof.
  induction p as [|w p IH]; intros [|v q] i G Fp Fq L E; try discriminate; [reflexivity|].
  inversion Fp; subst. inversion Fq; subst. cbn [length] in L.
  destruct (child_facts (Z.of_nat w) i ltac:(lia) G) as (Gw & Lw & Pw & Ww).
  destruct (child_facts (Z.of_nat v) i ltac:(lia) G) as (Gv & Lv & Pv & Wv).
  change (follow i (w :: p)) with (follow (child (Z.of_nat w) i) p) in E. change (follow i (v :: q)) with (follow (child (Z.of_nat v) i) q) in E.
  destruct (follow_facts p _ Gw H2) as (_ & _ & P1). destruct (follow_facts q _ Gv H4) as (_ & _ & P2).
  assert (Ec : child (Z.of_nat w) i = child (Z.of_nat v) i) by (rewrite <- P1, <- P2; injection L as L; rewrite L, E; reflexivity).
  assert (w = v) by (rewrite Ec in Ww; lia). subst v. f_equal. apply (IH q _ Gw); auto.
Qed.

(** Every index below [i] is reached by exactly one path. *)
Lemma follow_surj : forall (d : nat) i j, in_grid j -> parent (Z.of_nat d) j = i -> ilevel i + Z.of_nat d = ilevel j ->
  exists p, length p = d /\ Forall (fun w => (w < 8)%nat) p /\ follow i p = j.
Proof.
  induction d as [|d IH]; intros i j G P L.
  - exists []. split; [reflexivity|]. split; [constructor|]. cbn in *. rewrite parent_0 in P by (destruct G; lia). symmetry. assumption.
  - assert (Hi : 0 <= ilevel i). { rewrite <- P. apply parent_level_nonneg; [lia|apply G]. }
    assert (Hj : 1 <= ilevel j) by lia.
    destruct (octant_of_parent j G Hj) as [Ho Hw].
    destruct (IH i (parent 1 j)) as (p & Lp & Fp & Ep).
    + apply parent_in_grid; [lia|assumption].
    + rewrite parent_parent by lia. rewrite <- P. f_equal. lia.
    + rewrite level_of_parent by lia. lia.
    + exists (p ++ [Z.to_nat (which_child j)]). split; [rewrite app_length; cbn; lia|]. split.
      * apply Forall_app. split; [assumption|]. constructor; [lia|constructor].
      * unfold follow. rewrite fold_left_app. cbn [fold_left]. change (fold_left (fun i w => child (Z.of_nat w) i) p i) with (follow i p).
        rewrite Ep. rewrite Z2Nat.id by lia. apply child_of_parent; assumption.
Qed.
