(** C04: looking up an LCO by index. *)
From Coq Require Import ZArith List Bool Lia.
From Verif Require Import Base ListFacts IndexModel IndexSpec IndexProofs GridProofs TreeModel TreeFacts LookupModel LookupSpec LookupProofs.
Import ListNotations.
Open Scope Z_scope.

Definition root_index : index := mkIndex 0 0 0 0.

(** A tree whose nodes carry the indices of their positions below the root. *)
Definition well_indexed (t : tree lnode) : Prop := l_idx (info t) = root_index /\ indexed l_idx t.

Lemma root_grid : in_grid root_index.
Proof. unfold in_grid, root_index. cbn. lia. Qed.

(** The walk returns the node with the given index whenever there is one. *)
Theorem C04_walk_finds : forall t i n, well_indexed t -> node_at t i n -> find_node (Z.to_nat (ilevel i)) t i = Ok n.
Proof.
  intros t i n [R HI] [Hn En]. apply nodes_sub in Hn. destruct Hn as [p Hp].
  pose proof root_grid as G. rewrite <- R in G.
  pose proof (follow_facts p _ G (indexed_path_lt _ _ _ _ _ HI Hp)) as (_ & L & _).
  rewrite <- (indexed_follow _ _ _ _ _ HI Hp), En, R in L. cbn in L.
  rewrite <- En. apply (find_complete p); try assumption. rewrite En. lia.
Qed.
Print Assumptions C04_walk_finds.

(** At most one node has a given index. *)
Theorem C04_index_unique : forall t i m n, well_indexed t -> node_at t i m -> node_at t i n -> m = n.
Proof. intros t i m n [R HI]. apply node_unique; [assumption|]. rewrite R. apply root_grid. Qed.
Print Assumptions C04_index_unique.

(** A lookup succeeds exactly when the tree has a node with that index and the
    node has the LCO the operation needs; the answer is that LCO.  In all other
    cases an assert fails or a null pointer is followed: the walk never loops
    and never returns another node's address. *)
Theorem C04_lookup_iff : forall t i op, well_indexed t ->
  (forall a, tree_lookup (Z.to_nat (ilevel i)) t i op = Ok a <-> exists n, node_at t i n /\ slot_for op (info n) = Some a)
  /\ tree_lookup (Z.to_nat (ilevel i)) t i op <> Fail OutOfFuel.
Proof.
  intros t i op [R HI]. pose proof root_grid as G. rewrite <- R in G. split.
  - intros a. apply lookup_iff; try assumption. rewrite R. cbn. lia.
  - apply lookup_no_fuel; [assumption|]. rewrite R. cbn. lia.
Qed.
Print Assumptions C04_lookup_iff.

(** The dual tree asks the source tree exactly for edges ending there. *)
Theorem C04_dual_lookup_iff : forall st tt i op a, well_indexed st -> well_indexed tt ->
  (dual_lookup (Z.to_nat (ilevel i)) st tt i op = Ok a <->
   exists n, (ends_in_source op /\ node_at st i n \/ ~ ends_in_source op /\ node_at tt i n) /\ slot_for op (info n) = Some a).
Proof.
  intros st tt i op a Hs Ht. pose proof (proj1 (C04_lookup_iff st i op Hs) a) as S. pose proof (proj1 (C04_lookup_iff tt i op Ht) a) as T.
  assert (D : {ends_in_source op} + {~ ends_in_source op}) by (unfold ends_in_source; destruct op; try (left; auto; fail); right; intros [Q|[Q|Q]]; discriminate).
  assert (E : dual_lookup (Z.to_nat (ilevel i)) st tt i op =
    if D then tree_lookup (Z.to_nat (ilevel i)) st i op else match op with Nop => Fail AssertFail | _ => tree_lookup (Z.to_nat (ilevel i)) tt i op end).
  { destruct D as [D|D]; unfold ends_in_source in D; destruct op; try reflexivity; exfalso; try (apply D; auto; fail); destruct D as [Q|[Q|Q]]; discriminate. }
  rewrite E. destruct D as [D|D].
  - rewrite S. split.
    + intros (n & Hn & X). exists n. split; [left; split; assumption|assumption].
    + intros (n & [[_ Hn]|[Q _]] & X); [|contradiction]. exists n. split; assumption.
  - transitivity (exists n, node_at tt i n /\ slot_for op (info n) = Some a).
    + destruct op; try exact T. cbn [slot_for]. split; [discriminate|]. intros (n & _ & X). discriminate.
    + split.
      * intros (n & Hn & X). exists n. split; [right; split; assumption|assumption].
      * intros (n & [[Q _]|[_ Hn]] & X); [contradiction|]. exists n. split; assumption.
Qed.
Print Assumptions C04_dual_lookup_iff.

(** A tree with two levels below the root. *)
Definition ex_leaf (i : index) (a : Z) : tree lnode := T {| l_idx := i; l_normal := Some a; l_interm := None; l_parts := Some (a + 1) |} no_kids.
Definition ex_tree : tree lnode :=
  let c5 := child 5 root_index in
  T {| l_idx := root_index; l_normal := None; l_interm := None; l_parts := None |}
    [None; Some (ex_leaf (child 1 root_index) 10); None; None; None;
     Some (T {| l_idx := c5; l_normal := Some 20; l_interm := Some 21; l_parts := None |}
             [Some (ex_leaf (child 0 c5) 30); None; None; None; None; None; None; Some (ex_leaf (child 7 c5) 40)]); None; None].

Lemma ex_leaf_indexed : forall i a, indexed l_idx (ex_leaf i a).
Proof.
  intros i a p n S. destruct p as [|w p].
  - inversion S. split; [reflexivity|]. intros w c K. unfold ex_leaf in K. rewrite kid_no_kids in K. discriminate.
  - cbn [sub] in S. unfold ex_leaf in S. rewrite kid_no_kids in S. discriminate.
Qed.

Lemma ex_node_indexed : forall t, length (kids t) = 8%nat ->
  (forall w c, kid t w = Some c -> l_idx (info c) = child (Z.of_nat w) (l_idx (info t)) /\ indexed l_idx c) -> indexed l_idx t.
Proof.
  intros t L H p n S. destruct p as [|w p].
  - inversion S; subst. split; [assumption|]. intros w c K. apply H. assumption.
  - cbn [sub] in S. destruct (kid t w) as [c|] eqn:K; [|discriminate]. destruct (H _ _ K) as [_ X]. exact (X p n S).
Qed.

Example C04_nonvacuous : well_indexed ex_tree /\
  tree_lookup 2 ex_tree (child 7 (child 5 root_index)) StoT = Ok 41 /\
  tree_lookup 1 ex_tree (child 5 root_index) MtoI = Ok 21 /\
  tree_lookup 2 ex_tree (child 3 (child 5 root_index)) StoT = Fail NullDeref /\
  tree_lookup 1 ex_tree (child 5 root_index) StoT = Fail AssertFail.
Proof.
  split; [|vm_compute; repeat split; reflexivity]. split; [reflexivity|].
  apply ex_node_indexed; [reflexivity|]. intros w c K. destruct w as [|[|[|[|[|[|[|[|w]]]]]]]]; cbn in K; try discriminate; try (destruct w; discriminate); inversion K; subst; clear K; (split; [reflexivity|]); try apply ex_leaf_indexed.
  apply ex_node_indexed; [reflexivity|]. intros w c K. destruct w as [|[|[|[|[|[|[|[|w]]]]]]]]; cbn in K; try discriminate; try (destruct w; discriminate); inversion K; subst; clear K; (split; [reflexivity|]); apply ex_leaf_indexed.
Qed.
