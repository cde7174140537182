(** C99: a tree releases each node, gate and lock once; on one rank nothing is left; on several
    the gates of the empty cells of other ranks and some empty blocks are. *)
From Coq Require Import ZArith List Bool Arith Lia.
From Verif Require Import Base IndexModel TreeModel TreeFacts CompressModel CompressProps GateProofs HoldModel HoldSpec HoldProofs.
Import ListNotations.
Open Scope nat_scope.

(** Nothing fails, nothing is acquired or released twice and only what was acquired is
    released. *)
Theorem C99_once : forall A (idx : A -> index) rank owner count (branch : nat -> tree A) fuel junk cell top cells,
  (forall k, k < cells -> exists e, cell (Z.of_nat k) = Ok e /\ e_idx e = idx (info (branch k)) /\ e_child e = repeat None 8) ->
  (forall k, k < cells -> indexed idx (branch k) /\ length (nodes (branch k)) <= fuel) ->
  exists l, tree_life rank owner count branch fuel junk cell top cells = Ok l /\ sound l.
Proof. intros A idx rank owner count branch fuel junk cell top cells HC HB. destruct (tree_ok idx rank owner count branch fuel junk cell cells HC HB top) as (l & E & S & _). eauto. Qed.
Print Assumptions C99_once.

(** What is left: for the cells of other ranks, the gate if the cell is empty and the block of no
    nodes if the cell has no children. *)
Theorem C99_left : forall A (idx : A -> index) rank owner count (branch : nat -> tree A) fuel junk cell top cells l,
  (forall k, k < cells -> exists e, cell (Z.of_nat k) = Ok e /\ e_idx e = idx (info (branch k)) /\ e_child e = repeat None 8) ->
  (forall k, k < cells -> indexed idx (branch k) /\ length (nodes (branch k)) <= fuel) ->
  tree_life rank owner count branch fuel junk cell top cells = Ok l ->
  forall r, left_over l r <-> exists k, k < cells /\ owner k <> rank /\ ((count k = 0 /\ r = RGate k) \/ (count k <> 0 /\ single (branch k) /\ r = RBlock k)).
Proof.
  intros A idx rank owner count branch fuel junk cell top cells l HC HB E. destruct (tree_ok idx rank owner count branch fuel junk cell cells HC HB top) as (l' & E' & _ & H & _).
  rewrite E in E'. injection E' as <-. exact H.
Qed.
Print Assumptions C99_left.

(** What is held meanwhile: below own cells the nodes of the branch, below cells of other ranks
    as many. *)
Theorem C99_held : forall A (idx : A -> index) rank owner count (branch : nat -> tree A) fuel junk cell top cells l,
  (forall k, k < cells -> exists e, cell (Z.of_nat k) = Ok e /\ e_idx e = idx (info (branch k)) /\ e_child e = repeat None 8) ->
  (forall k, k < cells -> indexed idx (branch k) /\ length (nodes (branch k)) <= fuel) ->
  tree_life rank owner count branch fuel junk cell top cells = Ok l ->
  (forall k p, In (RNode k p) (gets l) <-> k < cells /\ owner k = rank /\ count k <> 0 /\ p <> [] /\ exists n, sub (branch k) p = Some n) /\
  (forall k i, In (RBlockLock k i) (gets l) <-> k < cells /\ owner k <> rank /\ count k <> 0 /\ i < length (nodes (branch k)) - 1).
Proof.
  intros A idx rank owner count branch fuel junk cell top cells l HC HB E. destruct (tree_ok idx rank owner count branch fuel junk cell cells HC HB top) as (l' & E' & _ & _ & H).
  rewrite E in E'. injection E' as <-. exact H.
Qed.
Print Assumptions C99_held.

(** Nothing is left exactly if every cell is the rank's own or has records and children. *)
Theorem C99_clean : forall A (idx : A -> index) rank owner count (branch : nat -> tree A) fuel junk cell top cells l,
  (forall k, k < cells -> exists e, cell (Z.of_nat k) = Ok e /\ e_idx e = idx (info (branch k)) /\ e_child e = repeat None 8) ->
  (forall k, k < cells -> indexed idx (branch k) /\ length (nodes (branch k)) <= fuel) ->
  tree_life rank owner count branch fuel junk cell top cells = Ok l ->
  ((forall r, ~ left_over l r) <-> forall k, k < cells -> owner k = rank \/ (count k <> 0 /\ exists w c, kid (branch k) w = Some c)).
Proof.
  intros A idx rank owner count branch fuel junk cell top cells l HC HB E. pose proof (C99_left A idx rank owner count branch fuel junk cell top cells l HC HB E) as H. split.
  - intros N k Hk. destruct (Nat.eq_dec (owner k) rank) as [O|O]; [auto|right]. destruct (Nat.eq_dec (count k) 0) as [C|C].
    + exfalso. apply (N (RGate k)). apply H. exists k. auto.
    + split; [assumption|]. destruct (is_leaf (branch k)) eqn:L.
      * exfalso. apply (N (RBlock k)). apply H. exists k. apply leaf_single in L. auto 10.
      * unfold is_leaf, n_children in L. apply Nat.eqb_neq in L. destruct (filter _ (kids (branch k))) as [|o f] eqn:F; [cbn in L; congruence|].
        assert (X : In o (o :: f)) by (left; reflexivity). rewrite <- F in X. apply filter_In in X. destruct X as [X Y]. destruct o as [c|]; [|discriminate].
        apply in_kid in X. destruct X as [w X]. eauto.
  - intros N r L. apply H in L. destruct L as (k & Hk & O & L). destruct (N k Hk) as [X|[X (w & c & K)]]; [contradiction|]. destruct L as [[C _]|(_ & S & _)]; [contradiction|]. rewrite S in K. discriminate.
Qed.
Print Assumptions C99_clean.

(** So alone a rank leaves nothing. *)
Theorem C99_one_rank : forall A (idx : A -> index) rank owner count (branch : nat -> tree A) fuel junk cell top cells l,
  (forall k, k < cells -> exists e, cell (Z.of_nat k) = Ok e /\ e_idx e = idx (info (branch k)) /\ e_child e = repeat None 8) ->
  (forall k, k < cells -> indexed idx (branch k) /\ length (nodes (branch k)) <= fuel) ->
  tree_life rank owner count branch fuel junk cell top cells = Ok l -> (forall k, k < cells -> owner k = rank) -> forall r, In r (gets l) <-> In r (drops l).
Proof.
  intros A idx rank owner count branch fuel junk cell top cells l HC HB E O r. destruct (tree_ok idx rank owner count branch fuel junk cell cells HC HB top) as (l' & E' & (_ & _ & I) & H & _).
  rewrite E in E'. injection E' as <-. split; [|apply I]. intros G. assert (DE : forall a b : resource, {a = b} + {a <> b}) by (repeat decide equality).
  destruct (in_dec DE r (drops l)) as [X|X]; [assumption|]. exfalso. destruct (proj1 (H r) (conj G X)) as (k & Hk & N & _). apply N. apply O. assumption.
Qed.
Print Assumptions C99_one_rank.

(** Two ranks; cell 0 belongs to rank 0 and has the branch of C19's case; of rank 1's cells the
    first has that branch, the second no records, the third records and no children. *)
Definition ho_owner (k : nat) : nat := if k =? 0 then 0 else 1.
Definition ho_count (k : nat) : nat := if k =? 2 then 0 else if k <? 2 then 7 else 3.
Definition ho_branch (k : nat) : tree index := if k <? 2 then ex_branch else ex_lf ex_cell.
Definition ho_cell (_ : Z) : res enode := Ok (mkE ex_cell None (repeat None 8)).
Definition ho_life (rank : nat) : res (list event) := tree_life rank ho_owner ho_count ho_branch 5 99 ho_cell 1 4.
Lemma ho_cells : forall k, k < 4 -> exists e, ho_cell (Z.of_nat k) = Ok e /\ e_idx e = info (ho_branch k) /\ e_child e = repeat None 8.
Proof. intros k _. eexists. split; [reflexivity|]. split; [|reflexivity]. unfold ho_branch. destruct (k <? 2); reflexivity. Qed.
Lemma ho_branches : forall k, k < 4 -> indexed (fun x => x) (ho_branch k) /\ length (nodes (ho_branch k)) <= 5.
Proof.
  intros k _. unfold ho_branch. destruct (k <? 2); (split; [|cbn; lia]); [apply C19_nonvacuous|apply ex_lf_indexed].
Qed.

Theorem C99_released_refuted : ~ (forall A (idx : A -> index) rank owner count (branch : nat -> tree A) fuel junk cell top cells l,
  (forall k, k < cells -> exists e, cell (Z.of_nat k) = Ok e /\ e_idx e = idx (info (branch k)) /\ e_child e = repeat None 8) ->
  (forall k, k < cells -> indexed idx (branch k) /\ length (nodes (branch k)) <= fuel) ->
  tree_life rank owner count branch fuel junk cell top cells = Ok l -> forall r, In r (gets l) -> In r (drops l)).
Proof.
  intros H. destruct (C99_once index (fun x => x) 0 ho_owner ho_count ho_branch 5 99%Z ho_cell 1 4 ho_cells ho_branches) as (l & E & _).
  destruct (proj2 (C99_left index (fun x => x) 0 ho_owner ho_count ho_branch 5 99%Z ho_cell 1 4 l ho_cells ho_branches E (RGate 2))) as [G N].
  - exists 2. repeat split; [lia|discriminate|]. left. split; reflexivity.
  - apply N. exact (H index (fun x => x) 0 ho_owner ho_count ho_branch 5 99%Z ho_cell 1 4 l ho_cells ho_branches E (RGate 2) G).
Qed.
Print Assumptions C99_released_refuted.

(** Rank 0 leaves the gate of cell 2 and the block of cell 3; rank 1, which owns them, nothing. *)
Definition same (a b : resource) : bool :=
  match a, b with
  | RDone, RDone | RTop, RTop => true
  | RTopLock i, RTopLock j | RSema i, RSema j | RGate i, RGate j | RBlock i, RBlock j => i =? j
  | RNode i p, RNode j q | RNodeGate i p, RNodeGate j q | RNodeLock i p, RNodeLock j q => (i =? j) && (if list_eq_dec Nat.eq_dec p q then true else false)
  | RBlockLock i p, RBlockLock j q => (i =? j) && (p =? q)
  | _, _ => false
  end.
Definition remains (x : res (list event)) : res (list resource) := do l <- x; Ok (filter (fun r => negb (existsb (same r) (drops l))) (gets l)).
Example C99_nonvacuous : remains (ho_life 0) = Ok [RGate 2; RBlock 3] /\ remains (ho_life 1) = Ok [] /\
  (do l <- ho_life 0; Ok (length (gets l), length (drops l))) = Ok (33, 31).
Proof. repeat split; vm_compute; reflexivity. Qed.
