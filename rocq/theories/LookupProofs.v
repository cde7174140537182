From Coq Require Import ZArith List Bool Lia.
From Verif Require Import Base ListFacts IndexModel IndexSpec IndexProofs GridProofs TreeModel TreeFacts LookupModel LookupSpec.
Import ListNotations.
Open Scope Z_scope.

Lemma assert_ok : forall b u, assert_ b = Ok u -> b = true.
Proof. intros [|] u H; [reflexivity|discriminate]. Qed.

(** The walk finds whatever is there. *)
Lemma find_complete : forall p fuel t n, indexed l_idx t -> in_grid (l_idx (info t)) ->
  sub t p = Some n -> (length p <= fuel)%nat -> find_node fuel t (l_idx (info n)) = Ok n.
Proof.
  induction p as [|w p IH]; intros fuel t n HI G S F.
  - cbn in S. inversion S; subst. unfold find_node. destruct fuel; cbn [assert_ bind]; rewrite Z.sub_diag; reflexivity.
  - pose proof (indexed_follow _ _ _ _ _ HI S) as Ef. pose proof (indexed_path_lt _ _ _ _ _ HI S) as Fl.
    cbn [sub] in S. destruct (kid t w) as [c|] eqn:K; [|discriminate].
    destruct fuel as [|fuel]; [cbn in F; lia|]. cbn [length] in F.
    destruct (follow_facts _ _ G Fl) as (Gn & Ln & Pn). rewrite <- Ef in *.
    cbn [find_node]. replace (ilevel (l_idx (info n)) - ilevel (l_idx (info t))) with (Z.of_nat (length (w :: p))) by lia.
    replace (0 <=? Z.of_nat (length (w :: p))) with true by (symmetry; apply Z.leb_le; lia). cbn [assert_ bind].
    replace (Z.of_nat (length (w :: p)) =? 0) with false by (symmetry; apply Z.eqb_neq; cbn [length]; lia).
    rewrite Pn. replace (index_eqb (l_idx (info t)) (l_idx (info t))) with true by (symmetry; apply index_eqb_eq; reflexivity). cbn [assert_ bind].
    replace (Z.of_nat (length (w :: p)) - 1) with (Z.of_nat (length p)) by (cbn [length]; lia).
    inversion Fl; subst. destruct (child_facts (Z.of_nat w) _ ltac:(lia) G) as (Gc & Lc & Pc & Wc).
    destruct (follow_facts p _ Gc H2) as (_ & _ & Pp).
    change (follow (l_idx (info t)) (w :: p)) with (follow (child (Z.of_nat w) (l_idx (info t))) p) in Ef. rewrite <- Ef in Pp. rewrite Pp, Wc.
    replace (Z.of_nat w <? 0) with false by (symmetry; apply Z.ltb_ge; lia).
    replace (8 <=? Z.of_nat w) with false by (symmetry; apply Z.leb_gt; lia).
    rewrite Nat2Z.id, K. apply IH; [eapply indexed_kid; eassumption| |assumption|lia].
    destruct (HI [] t eq_refl) as [_ X]. rewrite (X _ _ K). assumption.
Qed.

(** Whatever it finds is a node of the tree. *)
Lemma find_sound : forall fuel t i n, find_node fuel t i = Ok n -> In n (nodes t).
Proof.
  induction fuel as [|fuel IH]; intros t i n H; cbn [find_node] in H;
    destruct (assert_ (0 <=? ilevel i - ilevel (l_idx (info t)))) as [u|] eqn:A; try discriminate; cbn [bind] in H;
    destruct (ilevel i - ilevel (l_idx (info t)) =? 0) eqn:E;
    try (inversion H; subst; apply nodes_self);
    destruct (assert_ _) as [u'|] eqn:A' in H; try discriminate; cbn [bind] in H; try discriminate.
  destruct (_ <? 0); [discriminate|]. destruct (8 <=? _); [discriminate|].
  destruct (kid t _) as [c|] eqn:K; [|discriminate].
  apply IH in H. apply nodes_sub in H. destruct H as [p Hp]. apply nodes_sub. eexists (_ :: p). cbn [sub]. rewrite K. eassumption.
Qed.

(** The loop runs at most once per level. *)
Lemma find_fuel : forall fuel t i, indexed l_idx t -> ilevel i - ilevel (l_idx (info t)) <= Z.of_nat fuel ->
  find_node fuel t i <> Fail OutOfFuel.
Proof.
  induction fuel as [|fuel IH]; intros t i HI F; cbn [find_node];
    destruct (0 <=? ilevel i - ilevel (l_idx (info t))) eqn:A; cbn [assert_ bind]; try discriminate;
    destruct (ilevel i - ilevel (l_idx (info t)) =? 0) eqn:E; try discriminate.
  - apply Z.leb_le in A. apply Z.eqb_neq in E. lia.
  - destruct (index_eqb _ _); cbn [assert_ bind]; try discriminate.
    destruct (_ <? 0); try discriminate. destruct (8 <=? _); try discriminate.
    destruct (kid t _) as [c|] eqn:K; try discriminate. apply IH; [eapply indexed_kid; eassumption|].
    destruct (HI [] t eq_refl) as [_ X]. rewrite (X _ _ K). cbn [child ilevel]. lia.
Qed.

Lemma node_unique : forall t i m n, indexed l_idx t -> in_grid (l_idx (info t)) ->
  node_at t i m -> node_at t i n -> m = n.
Proof.
  intros t i m n HI G [Hm Em] [Hn En]. apply nodes_sub in Hm. apply nodes_sub in Hn. destruct Hm as [p Hp]. destruct Hn as [q Hq].
  pose proof (find_complete p (length p + length q) t m HI G Hp ltac:(lia)) as A.
  pose proof (find_complete q (length p + length q) t n HI G Hq ltac:(lia)) as B.
  rewrite Em in A. rewrite En in B. rewrite A in B. inversion B. reflexivity.
Qed.

Lemma have_ok : forall o a, have o = Ok a <-> o = Some a.
Proof. intros [x|] a; cbn; split; intros H; inversion H; reflexivity. Qed.

Lemma lookup_slot : forall fuel t i op, tree_lookup fuel t i op =
  do curr <- find_node fuel t i; do _ <- assert_ (index_eqb (l_idx (info curr)) i); have (slot_for op (info curr)).
Proof. intros fuel t i op. unfold tree_lookup. destruct op; reflexivity. Qed.

Lemma lookup_iff : forall fuel t i op a, indexed l_idx t -> in_grid (l_idx (info t)) -> ilevel i - ilevel (l_idx (info t)) <= Z.of_nat fuel ->
  (tree_lookup fuel t i op = Ok a <-> exists n, node_at t i n /\ slot_for op (info n) = Some a).
Proof.
  intros fuel t i op a HI G F. rewrite lookup_slot. split.
  - destruct (find_node fuel t i) as [n|] eqn:E; [|discriminate]. cbn [bind].
    destruct (index_eqb (l_idx (info n)) i) eqn:X; cbn [assert_ bind]; [|discriminate]. intros H. apply have_ok in H.
    exists n. split; [|assumption]. split; [eapply find_sound; eassumption|]. apply index_eqb_eq. assumption.
  - intros (n & [Hn En] & S). apply nodes_sub in Hn. destruct Hn as [p Hp].
    assert (Hl : (length p <= fuel)%nat). { pose proof (follow_facts p _ G (indexed_path_lt _ _ _ _ _ HI Hp)) as (_ & L & _).
      rewrite <- (indexed_follow _ _ _ _ _ HI Hp), En in L. lia. }
    rewrite <- En. rewrite (find_complete p fuel t n HI G Hp Hl). cbn [bind].
    replace (index_eqb _ _) with true by (symmetry; apply index_eqb_eq; reflexivity). cbn [assert_ bind]. apply have_ok. assumption.
Qed.

Lemma lookup_no_fuel : forall fuel t i op, indexed l_idx t -> ilevel i - ilevel (l_idx (info t)) <= Z.of_nat fuel -> tree_lookup fuel t i op <> Fail OutOfFuel.
Proof.
  intros fuel t i op HI F. pose proof (find_fuel fuel t i HI F) as N. rewrite lookup_slot. destruct (find_node fuel t i) as [n|e]; cbn [bind].
  - destruct (index_eqb _ _); cbn [assert_ bind]; [|discriminate]. destruct (slot_for op (info n)); discriminate.
  - intros H. apply N. inversion H. reflexivity.
Qed.
