(** Proofs about what a tree holds. *)
From Coq Require Import ZArith List Bool Arith Lia Permutation.
From Verif Require Import Base ListFacts IndexModel TreeModel TreeFacts CompressModel CompressProps GateProofs HoldModel HoldSpec.
Import ListNotations.
Open Scope nat_scope.

(** ** Lists *)
Lemma nodup_flat_map : forall X Y (f : X -> list Y) l, NoDup l -> (forall x, In x l -> NoDup (f x)) ->
  (forall x y r, In x l -> In y l -> In r (f x) -> In r (f y) -> x = y) -> NoDup (flat_map f l).
Proof.
  intros X Y f l N E D. induction l as [|a l IH]; cbn [flat_map]; [constructor|]. inversion N; subst. apply NoDup_app_intro.
  - apply E. left. reflexivity.
  - apply IH; [assumption|intros; apply E; right; assumption|]. intros x y r Hx Hy. apply D; right; assumption.
  - intros r Hr Hl. apply in_flat_map in Hl. destruct Hl as (y & Hy & Hr'). assert (a = y) by (apply (D a y r); [left; reflexivity|right; assumption|assumption|assumption]). subst. contradiction.
Qed.
Lemma perm_flat_map : forall X Y (f g : X -> list Y) l, Permutation (flat_map f l ++ flat_map g l) (flat_map (fun x => f x ++ g x) l).
Proof.
  intros X Y f g l. induction l as [|a l IH]; cbn [flat_map]; [constructor|]. rewrite <- !app_assoc. apply Permutation_app_head.
  rewrite <- IH. rewrite !app_assoc. apply Permutation_app_tail, Permutation_app_comm.
Qed.
Lemma gets_app : forall a b, gets (a ++ b) = gets a ++ gets b. Proof. intros. apply flat_map_app. Qed.
Lemma drops_app : forall a b, drops (a ++ b) = drops a ++ drops b. Proof. intros. apply flat_map_app. Qed.
Lemma gets_get : forall X (f : X -> resource) l, gets (map (fun i => Get (f i)) l) = map f l.
Proof. intros X f l. induction l as [|a l IH]; [reflexivity|]. cbn. f_equal. exact IH. Qed.
Lemma drops_get : forall X (f : X -> resource) l, drops (map (fun i => Get (f i)) l) = [].
Proof. intros X f l. induction l as [|a l IH]; [reflexivity|]. exact IH. Qed.
Lemma gets_drop : forall X (f : X -> resource) l, gets (map (fun i => Drop (f i)) l) = [].
Proof. intros X f l. induction l as [|a l IH]; [reflexivity|]. exact IH. Qed.
Lemma drops_drop : forall X (f : X -> resource) l, drops (map (fun i => Drop (f i)) l) = map f l.
Proof. intros X f l. induction l as [|a l IH]; [reflexivity|]. cbn. f_equal. exact IH. Qed.
Lemma gets_concat : forall ls, gets (concat ls) = concat (map gets ls).
Proof. induction ls as [|a ls IH]; [reflexivity|]. cbn [concat map]. rewrite gets_app, IH. reflexivity. Qed.
Lemma drops_concat : forall ls, drops (concat ls) = concat (map drops ls).
Proof. induction ls as [|a ls IH]; [reflexivity|]. cbn [concat map]. rewrite drops_app, IH. reflexivity. Qed.

Lemma setup_gets : forall s, gets (flat_map (fun k => [Get (RSema k); Get (RGate k)]) s) = flat_map (fun k => [RSema k; RGate k]) s.
Proof. intros s. induction s as [|a s IH]; [reflexivity|]. cbn [flat_map]. rewrite gets_app, IH. reflexivity. Qed.
Lemma setup_drops : forall s, drops (flat_map (fun k => [Get (RSema k); Get (RGate k)]) s) = [].
Proof. intros s. induction s as [|a s IH]; [reflexivity|]. cbn [flat_map]. rewrite drops_app, IH. reflexivity. Qed.

Section Branch.
Context {A : Type}.

(** ** The nodes below a node *)
Fixpoint under (t : tree A) (p : list nat) : list (list nat) :=
  match t with
  | T _ cs => (fix go (cs : list (option (tree A))) (i : nat) : list (list nat) :=
      match cs with [] => [] | None :: r => go r (S i) | Some c :: r => (p ++ [i]) :: under c (p ++ [i]) ++ go r (S i) end) cs 0
  end.
Fixpoint kunder (p : list nat) (cs : list (option (tree A))) (i : nat) : list (list nat) :=
  match cs with [] => [] | None :: r => kunder p r (S i) | Some c :: r => (p ++ [i]) :: under c (p ++ [i]) ++ kunder p r (S i) end.
Lemma under_eq : forall t p, under t p = kunder p (kids t) 0.
Proof.
  intros [a cs] p. cbn [under kids]. generalize 0. induction cs as [|[c|] cs IH]; intros w; cbn [kunder]; [reflexivity| |apply IH].
  rewrite IH. reflexivity.
Qed.
Lemma kunder_in : forall p cs i q, In q (kunder p cs i) <-> exists k c, nth_error cs k = Some (Some c) /\ (q = p ++ [i + k] \/ In q (under c (p ++ [i + k]))).
Proof.
  intros p cs. induction cs as [|[c|] cs IH]; intros w q; cbn [kunder].
  - split; [contradiction|]. intros (k & c & H & _). destruct k; discriminate.
  - cbn [In]. rewrite in_app_iff, IH. split.
    + intros [<-|[H|(k & d & H & Hq)]]; [exists 0, c|exists 0, c|exists (S k), d]; rewrite ?Nat.add_0_r, ?Nat.add_succ_r; cbn [nth_error]; auto.
    + intros ([|k] & d & H & Hq); cbn [nth_error] in H.
      * injection H as ->. rewrite Nat.add_0_r in Hq. destruct Hq as [->|Hq]; auto.
      * right. right. exists k, d. rewrite Nat.add_succ_r in Hq. auto.
  - rewrite IH. split.
    + intros (k & d & H & Hq). exists (S k), d. rewrite Nat.add_succ_r. auto.
    + intros ([|k] & d & H & Hq); cbn [nth_error] in H; [discriminate|]. exists k, d. rewrite Nat.add_succ_r in Hq. auto.
Qed.
Lemma under_in : forall t p q, In q (under t p) <-> exists l n, l <> [] /\ q = p ++ l /\ sub t l = Some n.
Proof.
  intros t. induction t as [a cs IH] using tree_ind'. intros p q. rewrite under_eq, kunder_in. cbn [kids]. split.
  - intros (k & c & Hk & Hq). assert (K : kid (T a cs) k = Some c) by (apply kid_nth; assumption). cbn [Nat.add] in Hq. destruct Hq as [->|Hq].
    + exists [k], c. repeat split; [discriminate|]. cbn [sub]. rewrite K. reflexivity.
    + apply (IH c (nth_error_In _ _ Hk)) in Hq. destruct Hq as (l & n & _ & -> & Hs). exists (k :: l), n. split; [discriminate|]. split; [rewrite <- app_assoc; reflexivity|].
      cbn [sub]. rewrite K. assumption.
  - intros ([|k l] & n & N & -> & Hs); [congruence|]. cbn [sub] in Hs. destruct (kid (T a cs) k) as [c|] eqn:K; [|discriminate].
    apply kid_nth in K. cbn [kids] in K. exists k, c. split; [assumption|]. cbn [Nat.add]. destruct l as [|w l]; [left; reflexivity|right].
    apply (IH c (nth_error_In _ _ K)). exists (w :: l), n. split; [discriminate|]. rewrite <- app_assoc. auto.
Qed.
Lemma kunder_nodup : forall p cs i, (forall c, In (Some c) cs -> forall q, NoDup (under c q)) -> NoDup (kunder p cs i).
Proof.
  intros p cs. induction cs as [|[c|] cs IH]; intros w H; cbn [kunder]; [constructor| |apply IH; intros; apply H; right; assumption].
  constructor.
  - rewrite in_app_iff. intros [X|X].
    + apply under_in in X. destruct X as (l & n & N & E & _). apply (f_equal (@length nat)) in E. rewrite !app_length in E. destruct l; [congruence|cbn in E; lia].
    + apply kunder_in in X. destruct X as (k & d & _ & [E|X]); [apply app_inv_head in E; injection E; lia|].
      apply under_in in X. destruct X as (l & n & _ & E & _). rewrite <- app_assoc in E. apply app_inv_head in E. injection E. lia.
  - apply NoDup_app_intro; [apply H; left; reflexivity|apply IH; intros; apply H; right; assumption|].
    intros x X Y. apply under_in in X. destruct X as (l & n & N & -> & _). apply kunder_in in Y. destruct Y as (k & d & _ & [E|Y]).
    + rewrite <- app_assoc in E. apply app_inv_head in E. injection E. lia.
    + apply under_in in Y. destruct Y as (m & n' & _ & E & _). rewrite <- !app_assoc in E. apply app_inv_head in E. injection E. lia.
Qed.
Lemma under_nodup : forall t p, NoDup (under t p).
Proof. intros t. induction t as [a cs IH] using tree_ind'. intros p. rewrite under_eq. apply kunder_nodup. intros c Hc. apply IH. assumption. Qed.
Lemma under_length : forall t p, S (length (under t p)) = length (nodes t).
Proof.
  intros t. induction t as [a cs IH] using tree_ind'. intros p. rewrite under_eq. cbn [kids nodes length]. f_equal. generalize 0. revert IH.
  induction cs as [|[c|] cs IHc]; intros IH w; cbn [kunder flat_map length]; [reflexivity| |apply IHc; intros; apply IH; right; assumption].
  rewrite !app_length. rewrite <- (IH c (or_introl eq_refl) (p ++ [w])). cbn. f_equal. f_equal. apply IHc. intros. apply IH. right. assumption.
Qed.

(** ** Building *)
Fixpoint kpart (k : nat) (p : list nat) (cs : list (option (tree A))) (i : nat) : list event :=
  match cs with
  | [] => []
  | Some c :: cs' => [Get (RNode k (p ++ [i])); Get (RNodeGate k (p ++ [i])); Get (RNodeLock k (p ++ [i]))] ++ partition k (p ++ [i]) true c ++ kpart k p cs' (S i)
  | None :: cs' => kpart k p cs' (S i)
  end.
Lemma partition_eq : forall k p b t, partition k p b t = (if b then [Drop (gate_of k p)] else []) ++ kpart k p (kids t) 0.
Proof.
  intros k p b [a cs]. cbn [partition kids]. f_equal. generalize 0. induction cs as [|[c|] cs IH]; intros w; cbn [kpart]; [reflexivity| |apply IH].
  cbv zeta. rewrite IH. reflexivity.
Qed.
Definition made (k : nat) (q : list nat) : list resource := [RNode k q; RNodeGate k q; RNodeLock k q].
Lemma partition_gets : forall k t p b, gets (partition k p b t) = flat_map (made k) (under t p).
Proof.
  intros k t. induction t as [a cs IH] using tree_ind'. intros p b. rewrite partition_eq, under_eq, gets_app. cbn [kids].
  replace (gets (if b then [Drop (gate_of k p)] else [])) with (@nil resource) by (destruct b; reflexivity). cbn [app]. generalize 0. revert IH.
  induction cs as [|[c|] cs IHc]; intros IH w; cbn [kpart kunder]; [reflexivity| |apply IHc; intros; apply IH; right; assumption].
  rewrite !gets_app, (IH c (or_introl eq_refl)). cbn [flat_map]. rewrite flat_map_app, IHc by (intros; apply IH; right; assumption). reflexivity.
Qed.
Lemma gate_of_app : forall k p i, gate_of k (p ++ [i]) = RNodeGate k (p ++ [i]).
Proof. intros k [|a p] i; reflexivity. Qed.
Lemma partition_drops : forall k t p b, drops (partition k p b t) = (if b then [gate_of k p] else []) ++ map (RNodeGate k) (under t p).
Proof.
  intros k t. induction t as [a cs IH] using tree_ind'. intros p b. rewrite partition_eq, under_eq, drops_app. cbn [kids]. f_equal; [destruct b; reflexivity|].
  generalize 0. revert IH. induction cs as [|[c|] cs IHc]; intros IH w; cbn [kpart kunder]; [reflexivity| |apply IHc; intros; apply IH; right; assumption].
  rewrite !drops_app, (IH c (or_introl eq_refl)). cbn [map]. rewrite map_app, IHc by (intros; apply IH; right; assumption). rewrite gate_of_app. reflexivity.
Qed.

(** ** Deleting *)
Definition whole (v : list nat * tree A) : list (list nat) := fst v :: under (snd v) (fst v).
Lemma below_under : forall v, flat_map whole (below v) = under (snd v) (fst v).
Proof.
  intros [p t]. unfold below. cbn [fst snd]. rewrite under_eq. generalize 0. induction (kids t) as [|[c|] cs IH]; intros w; cbn [flat_map kunder]; [reflexivity| |apply IH].
  unfold whole at 1. cbn [fst snd app]. rewrite IH. reflexivity.
Qed.
Lemma level_perm : forall V, Permutation (flat_map whole V) (map fst V ++ flat_map whole (flat_map below V)).
Proof.
  induction V as [|v V IH]; cbn [flat_map map]; [constructor|]. rewrite flat_map_app, below_under. unfold whole at 1. cbn [app]. constructor. rewrite IH.
  rewrite !app_assoc. apply Permutation_app_tail, Permutation_app_comm.
Qed.
Definition gone (k : nat) (q : list nat) : list resource := [RNodeLock k q; RNode k q].
Lemma destroy_drops : forall k fuel V, length (flat_map whole V) <= fuel -> exists es L, destroy_branch fuel k V = Ok es /\ gets es = [] /\ drops es = flat_map (gone k) L /\ Permutation L (flat_map whole V).
Proof.
  intros k fuel. induction fuel as [|fuel IH]; intros V F.
  - destruct V as [|v V]; [exists [], []; repeat split; constructor|cbn in F; lia].
  - destruct V as [|v V]; [exists [], []; repeat split; constructor|]. pose proof (level_perm (v :: V)) as P.
    pose proof (Permutation_length P) as PL. rewrite app_length, map_length in PL. cbn [length] in PL.
    destruct (IH (flat_map below (v :: V))) as (es & L & E & G & D & PP); [lia|].
    assert (X : forall U : list (list nat * tree A), gets (flat_map (fun v => [Drop (RNodeLock k (fst v)); Drop (RNode k (fst v))]) U) = [] /\
      drops (flat_map (fun v => [Drop (RNodeLock k (fst v)); Drop (RNode k (fst v))]) U) = flat_map (gone k) (map fst U)).
    { induction U as [|u U [I1 I2]]; [split; reflexivity|]. cbn [flat_map map]. rewrite gets_app, drops_app, I1, I2. split; reflexivity. }
    destruct (X (v :: V)) as [X1 X2].
    eexists _, (map fst (v :: V) ++ L). split; [cbn [destroy_branch]; rewrite E; reflexivity|]. rewrite gets_app, drops_app, X1, X2, G, D, flat_map_app. repeat split; [reflexivity..|].
    rewrite P. apply Permutation_app_head. assumption.
Qed.
Lemma destroy_all : forall k fuel V, length (flat_map whole V) <= fuel -> exists bs L, mapM (fun v => destroy_branch fuel k [v]) V = Ok bs /\
  gets (concat bs) = [] /\ drops (concat bs) = flat_map (gone k) L /\ Permutation L (flat_map whole V).
Proof.
  intros k fuel V. induction V as [|v V IH]; intros F; [exists [], []; repeat split; constructor|]. cbn [flat_map] in F. rewrite app_length in F.
  destruct IH as (bs & L & E & G & D & P); [lia|]. destruct (destroy_drops k fuel [v]) as (es & M & E' & G' & D' & P'); [cbn [flat_map]; rewrite app_nil_r; lia|].
  exists (es :: bs), (M ++ L). cbn [mapM]. rewrite E', E. cbn [bind concat flat_map]. rewrite gets_app, drops_app, G, G', D, D', flat_map_app. repeat split; [reflexivity..|].
  cbn [flat_map] in P'. rewrite app_nil_r in P'. apply Permutation_app; assumption.
Qed.
Lemma own_ok : forall k fuel (t : tree A), length (nodes t) <= fuel -> exists es L, delete_own fuel k t = Ok es /\ gets es = [] /\
  drops es = RSema k :: flat_map (gone k) L ++ [RGate k] /\ Permutation L (under t []).
Proof.
  intros k fuel t F. pose proof (below_under ([], t)) as B. cbn [fst snd] in B. destruct (destroy_all k fuel (below ([], t))) as (bs & L & E & G & D & P).
  - rewrite B. pose proof (under_length t []). lia.
  - eexists _, L. unfold delete_own. rewrite E. cbn [bind]. split; [reflexivity|]. rewrite B in P. rewrite !gets_app, !drops_app, G, D. repeat split. assumption.
Qed.

Lemma leaf_single : forall t : tree A, is_leaf t = true <-> single t.
Proof.
  intros t. unfold is_leaf, single, n_children. rewrite Nat.eqb_eq. split.
  - intros H w. destruct (kid t w) as [c|] eqn:K; [|reflexivity]. apply kid_in in K. apply length_zero_iff_nil in H.
    assert (X : In (Some c) (filter (fun o : option (tree A) => match o with Some _ => true | None => false end) (kids t))) by (apply filter_In; auto). rewrite H in X. contradiction.
  - intros H. apply length_zero_iff_nil. destruct (filter _ (kids t)) as [|o l] eqn:E; [reflexivity|]. assert (X : In o (o :: l)) by (left; reflexivity). rewrite <- E in X.
    apply filter_In in X. destruct X as [X Y]. destruct o as [c|]; [|discriminate]. apply in_kid in X. destruct X as [w X]. rewrite H in X. discriminate.
Qed.
End Branch.

(** ** One cell *)
Section Cell.
Context {A : Type}.
Variables (idx : A -> index) (rank : nat) (owner count : nat -> nat) (branch : nat -> tree A) (fuel : nat) (junk : Z) (cell : Z -> res enode) (cells : nat).

(** What is acquired for cell k and what is released, its lock and gate included. *)
Definition leak (k : nat) (r : resource) : Prop :=
  owner k <> rank /\ ((count k = 0 /\ r = RGate k) \/ (count k <> 0 /\ single (branch k) /\ r = RBlock k)).
Definition cell_of (r : resource) : option nat :=
  match r with RDone | RTop | RTopLock _ => None | RSema k | RGate k | RNode k _ | RNodeGate k _ | RNodeLock k _ | RBlock k | RBlockLock k _ => Some k end.
Definition good (k : nat) (G D : list resource) : Prop :=
  NoDup G /\ NoDup D /\ incl D G /\ (forall r, In r G -> cell_of r = Some k) /\ (forall r, In r G /\ ~ In r D <-> leak k r) /\
  (forall p, In (RNode k p) G <-> owner k = rank /\ count k <> 0 /\ p <> [] /\ exists n, sub (branch k) p = Some n) /\
  (forall i, In (RBlockLock k i) G <-> owner k <> rank /\ count k <> 0 /\ i < length (nodes (branch k)) - 1).

Lemma made_in : forall k L r, In r (flat_map (made k) L) <-> exists q, In q L /\ (r = RNode k q \/ r = RNodeGate k q \/ r = RNodeLock k q).
Proof.
  intros k L r. rewrite in_flat_map. split; intros (q & Hq & H); exists q; (split; [assumption|]).
  - cbn in H. intuition congruence.
  - cbn. intuition congruence.
Qed.
Lemma gone_in : forall k L r, In r (flat_map (gone k) L) <-> exists q, In q L /\ (r = RNodeLock k q \/ r = RNode k q).
Proof.
  intros k L r. rewrite in_flat_map. split; intros (q & Hq & H); exists q; (split; [assumption|]).
  - cbn in H. intuition congruence.
  - cbn. intuition congruence.
Qed.
Lemma made_nodup : forall k L, NoDup L -> NoDup (flat_map (made k) L).
Proof.
  intros k L H. apply nodup_flat_map; [assumption| |].
  - intros q _. repeat constructor; cbn; intuition discriminate.
  - intros x y r _ _ Hx Hy. cbn in Hx, Hy. intuition congruence.
Qed.
Lemma gone_nodup : forall k L, NoDup L -> NoDup (flat_map (gone k) L).
Proof.
  intros k L H. apply nodup_flat_map; [assumption| |].
  - intros q _. repeat constructor; cbn; intuition discriminate.
  - intros x y r _ _ Hx Hy. cbn in Hx, Hy. intuition congruence.
Qed.

Hypothesis cells_ok : forall k, k < cells -> exists e, cell (Z.of_nat k) = Ok e /\ e_idx e = idx (info (branch k)) /\ e_child e = repeat None 8.
Hypothesis branches_ok : forall k, k < cells -> indexed idx (branch k) /\ length (nodes (branch k)) <= fuel.

Lemma own_cell : forall k, k < cells -> owner k = rank -> count k <> 0 -> exists es, cell_life rank owner count branch fuel junk cell k = Ok es /\ good k ([RSema k; RGate k] ++ gets es) (drops es).
Proof.
  intros k KC HO HC. destruct (branches_ok k KC) as [_ HF]. destruct (own_ok k fuel (branch k) HF) as (es & L & E & G & D & P).
  exists (partition k [] false (branch k) ++ es). split.
  - unfold cell_life, build_cell, delete_cell, mine. rewrite HO, Nat.eqb_refl. apply Nat.eqb_neq in HC. rewrite HC. cbn [bind fst snd]. rewrite E. reflexivity.
  - rewrite gets_app, drops_app, G, D, partition_gets, partition_drops, app_nil_r. cbn [app]. pose proof (under_nodup (branch k) []) as N.
    pose proof (Permutation_NoDup (Permutation_sym P) N) as NL.
    assert (I : forall q, In q L <-> In q (under (branch k) [])) by (intros q; split; apply Permutation_in; [|apply Permutation_sym]; assumption).
    unfold good. repeat match goal with |- _ /\ _ => split end.
    + constructor; [|constructor; [|apply made_nodup; assumption]].
      * intros [X|X]; [discriminate|]. apply made_in in X. destruct X as (q & _ & X). intuition discriminate.
      * intros X. apply made_in in X. destruct X as (q & _ & X). intuition discriminate.
    + apply NoDup_app_intro.
      * apply FinFun.Injective_map_NoDup; [|assumption]. intros x y X. congruence.
      * constructor.
        -- rewrite in_app_iff. intros [X|[X|[]]]; [|discriminate]. apply gone_in in X. destruct X as (q & _ & X). intuition discriminate.
        -- apply NoDup_app_intro; [apply gone_nodup; assumption|repeat constructor; intros []|]. intros x X [<-|[]]. apply gone_in in X. destruct X as (q & _ & X). intuition discriminate.
      * intros x X Y. apply in_map_iff in X. destruct X as (q & <- & _). destruct Y as [Y|Y]; [discriminate|]. apply in_app_iff in Y. destruct Y as [Y|[Y|[]]]; [|discriminate].
        apply gone_in in Y. destruct Y as (q' & _ & Y). intuition discriminate.
    + intros r H. cbn [In]. rewrite made_in. apply in_app_iff in H. destruct H as [H|[H|H]].
      * apply in_map_iff in H. destruct H as (q & <- & Hq). right. right. exists q. auto.
      * auto.
      * apply in_app_iff in H. destruct H as [H|[H|[]]]; [|auto]. apply gone_in in H. destruct H as (q & Hq & H). apply I in Hq. right. right. exists q. tauto.
    + intros r H. destruct H as [<-|[<-|H]]; [reflexivity..|]. apply made_in in H. destruct H as (q & _ & [->|[->| ->]]); reflexivity.
    + intros r. split; [|intros [X _]; contradiction]. intros [H H']. exfalso. apply H'. rewrite in_app_iff. destruct H as [<-|[<-|H]]; [right; left; reflexivity|right; right; apply in_app_iff; right; left; reflexivity|].
      apply made_in in H. destruct H as (q & Hq & [->|[->| ->]]).
      * right. right. apply in_app_iff. left. apply gone_in. exists q. rewrite I. auto.
      * left. apply in_map. assumption.
      * right. right. apply in_app_iff. left. apply gone_in. exists q. rewrite I. auto.
    + intros p. split.
      * intros [H|[H|H]]; [discriminate..|]. apply made_in in H. destruct H as (q & Hq & H). assert (p = q) by (intuition congruence). subst q. apply under_in in Hq. destruct Hq as (l & n & Nl & -> & S). cbn [app]. eauto.
      * intros (_ & _ & Np & n & S). right. right. apply made_in. exists p. split; [|auto]. apply under_in. exists p, n. auto.
    + intros i. split; [|intros (X & _); contradiction]. intros [H|[H|H]]; [discriminate..|]. apply made_in in H. destruct H as (q & _ & H). intuition discriminate.
Qed.

Lemma own_empty : forall k, owner k = rank -> count k = 0 -> exists es, cell_life rank owner count branch fuel junk cell k = Ok es /\ good k ([RSema k; RGate k] ++ gets es) (drops es).
Proof.
  intros k HO HC. exists [Drop (RSema k); Drop (RGate k)]. split.
  - unfold cell_life, build_cell, delete_cell, mine. rewrite HO, Nat.eqb_refl, HC. reflexivity.
  - cbn. unfold good, leak, incl. cbn [In]. repeat split; try (intuition (try congruence; try discriminate)); repeat constructor; cbn; intuition (try congruence; try discriminate).
    all: subst; cbn; auto.
Qed.

Lemma other_cell : forall k, k < cells -> owner k <> rank -> exists es, cell_life rank owner count branch fuel junk cell k = Ok es /\ good k ([RSema k; RGate k] ++ gets es) (drops es).
Proof.
  intros k KC HO. assert (M : mine rank owner k = false) by (apply Nat.eqb_neq; assumption). destruct (cells_ok k KC) as (e & Hc & He & Hn).
  unfold cell_life, build_cell, delete_cell. rewrite M. destruct (count k =? 0) eqn:HC.
  - apply Nat.eqb_eq in HC. rewrite Hc. cbn [bind fst snd]. rewrite Hn. exists [Drop (RSema k)]. split; [reflexivity|].
    cbn. unfold good, leak, incl. cbn [In]. repeat split; try (intuition (try congruence; try discriminate)); repeat constructor; cbn; intuition (try congruence; try discriminate).
    all: subst; cbn; auto.
  - apply Nat.eqb_neq in HC. destruct (branches_ok k KC) as [HI HF].
    destruct (C19_round_trip A idx (branch k) fuel junk (Z.of_nat k) cell e HI HF Hc He Hn) as (msg & m & HS & HR & _ & _ & _ & _ & _ & HL & _ & HB).
    rewrite HS. cbn [bind]. rewrite HR. cbn [bind fst snd]. unfold delete_other. rewrite HB.
    assert (LL : length (m_block m) = length (nodes (branch k)) - 1) by lia. rewrite LL. unfold receive. rewrite LL.
    set (sz := length (nodes (branch k)) - 1). assert (SN : NoDup (map (RBlockLock k) (seq 0 sz))) by (apply FinFun.Injective_map_NoDup; [intros x y X; congruence|apply seq_NoDup]).
    assert (SI : forall r, In r (map (RBlockLock k) (seq 0 sz)) <-> exists i, i < sz /\ r = RBlockLock k i).
    { intros r. rewrite in_map_iff. split; [intros (i & <- & H); apply in_seq in H; exists i; split; [lia|reflexivity]|intros (i & H & ->); exists i; rewrite in_seq; split; [reflexivity|lia]]. }
    assert (LS : is_leaf (branch k) = true -> sz = 0).
    { intros H. apply leaf_single in H. pose proof (under_length (branch k) []) as U. destruct (under (branch k) []) as [|q l] eqn:E; [subst sz; cbn in U; lia|].
      assert (X : In q (under (branch k) [])) by (rewrite E; left; reflexivity). apply under_in in X. destruct X as ([|w l'] & n & N & _ & S); [congruence|]. cbn [sub] in S. rewrite H in S. discriminate. }
    assert (KG : forall tl, gets (([Get (RBlock k)] ++ map (fun i => Get (RBlockLock k i)) (seq 0 sz)) ++ [Drop (RGate k)]) ++ tl = RBlock k :: map (RBlockLock k) (seq 0 sz) ++ tl).
    { intros tl. rewrite !gets_app, gets_get. cbn [gets flat_map app]. rewrite app_nil_r. reflexivity. }
    assert (KD : drops (([Get (RBlock k)] ++ map (fun i => Get (RBlockLock k i)) (seq 0 sz)) ++ [Drop (RGate k)]) = [RGate k]).
    { rewrite !drops_app, drops_get. reflexivity. }
    assert (NG : NoDup (RSema k :: RGate k :: RBlock k :: map (RBlockLock k) (seq 0 sz))).
    { constructor; [intros [X|[X|X]]; [discriminate..|apply SI in X; destruct X as (i & _ & X); discriminate]|]. constructor; [intros [X|X]; [discriminate|apply SI in X; destruct X as (i & _ & X); discriminate]|].
      constructor; [intros X; apply SI in X; destruct X as (i & _ & X); discriminate|assumption]. }
    assert (TG : forall r, In r (RSema k :: RGate k :: RBlock k :: map (RBlockLock k) (seq 0 sz)) -> cell_of r = Some k).
    { intros r [<-|[<-|[<-|X]]]; [reflexivity..|]. apply SI in X. destruct X as (i & _ & ->). reflexivity. }
    assert (ND : forall p, In (RNode k p) (RSema k :: RGate k :: RBlock k :: map (RBlockLock k) (seq 0 sz)) <-> owner k = rank /\ count k <> 0 /\ p <> [] /\ exists n, sub (branch k) p = Some n).
    { intros p. split; [|intros (X & _); contradiction]. intros [X|[X|[X|X]]]; [discriminate..|]. apply SI in X. destruct X as (i & _ & X). discriminate. }
    assert (BL : forall i, In (RBlockLock k i) (RSema k :: RGate k :: RBlock k :: map (RBlockLock k) (seq 0 sz)) <-> owner k <> rank /\ count k <> 0 /\ i < sz).
    { intros i. split; [intros [X|[X|[X|X]]]; [discriminate..|]; apply SI in X; destruct X as (j & Hj & X); injection X as ->; auto|]. intros (_ & _ & H). right. right. right. apply SI. eauto. }
    destruct (is_leaf (branch k)) eqn:LF.
    + specialize (LS eq_refl). apply leaf_single in LF. cbn [bind]. eexists. split; [reflexivity|]. rewrite drops_app, gets_app.
      change (Get (RBlock k) :: map (fun i => Get (RBlockLock k i)) (seq 0 sz)) with ([Get (RBlock k)] ++ map (fun i => Get (RBlockLock k i)) (seq 0 sz)). rewrite KG, KD.
      cbn [gets drops flat_map app]. rewrite app_nil_r. unfold good. repeat match goal with |- _ /\ _ => split end; [exact NG| | |exact TG| |exact ND|exact BL].
      * repeat constructor; cbn; intuition discriminate.
      * intros r [<-|[<-|[]]]; cbn; auto.
      * intros r. rewrite LS. cbn. unfold leak. split; [intros [[<-|[<-|[<-|[]]]] Y]; try (exfalso; apply Y; tauto)|intros [_ [[X _]|(_ & _ & ->)]]; [contradiction|split; [tauto|intuition discriminate]]].
        split; [assumption|]. right. auto.
    + cbn [bind Z.eqb]. eexists. split; [reflexivity|]. rewrite drops_app, gets_app.
      change (Get (RBlock k) :: map (fun i => Get (RBlockLock k i)) (seq 0 sz)) with ([Get (RBlock k)] ++ map (fun i => Get (RBlockLock k i)) (seq 0 sz)). rewrite KG, KD.
      change (Drop (RSema k) :: map (fun i => Drop (RBlockLock k i)) (seq 0 sz) ++ [Drop (RBlock k)]) with ([Drop (RSema k)] ++ map (fun i => Drop (RBlockLock k i)) (seq 0 sz) ++ [Drop (RBlock k)]).
      rewrite !gets_app, !drops_app, gets_drop, drops_drop. cbn [gets drops flat_map app]. rewrite app_nil_r. unfold good. repeat match goal with |- _ /\ _ => split end; [exact NG| | |exact TG| |exact ND|exact BL].
      * apply (Permutation_NoDup (l := RSema k :: RGate k :: RBlock k :: map (RBlockLock k) (seq 0 sz))); [|exact NG].
        rewrite perm_swap. constructor. constructor. rewrite Permutation_app_comm. reflexivity.
      * intros r [<-|[<-|X]]; [cbn; auto..|]. apply in_app_iff in X. destruct X as [X|[<-|[]]]; cbn; auto.
      * intros r. split.
        -- intros [X Y]. exfalso. apply Y. cbn [In] in X |- *. rewrite in_app_iff. cbn [In]. tauto.
        -- intros [_ [[X _]|(_ & X & _)]]; [contradiction|]. apply leaf_single in X. congruence.
Qed.

Lemma cell_ok : forall k, k < cells -> exists es, cell_life rank owner count branch fuel junk cell k = Ok es /\ good k ([RSema k; RGate k] ++ gets es) (drops es).
Proof.
  intros k KC. destruct (Nat.eq_dec (owner k) rank) as [O|O]; [|apply other_cell; assumption].
  destruct (Nat.eq_dec (count k) 0) as [C|C]; [apply own_empty|apply own_cell]; assumption.
Qed.

(** ** The whole tree *)
Lemma cells_life : forall ks, (forall k, In k ks -> k < cells) -> exists es, mapM (cell_life rank owner count branch fuel junk cell) ks = Ok es /\
  exists G D, (forall k, In k ks -> good k (G k) (D k)) /\ Permutation (flat_map (fun k => [RSema k; RGate k]) ks ++ gets (concat es)) (flat_map G ks) /\ drops (concat es) = flat_map D ks.
Proof.
  intros ks H. assert (X : forall k, exists es, k < cells -> cell_life rank owner count branch fuel junk cell k = Ok es /\ good k ([RSema k; RGate k] ++ gets es) (drops es)).
  { intros k. destruct (lt_dec k cells) as [L|L]; [destruct (cell_ok k L) as [es E]; exists es; auto|exists []; intros; contradiction]. }
  assert (Y : exists f : nat -> list event, forall k, In k ks -> cell_life rank owner count branch fuel junk cell k = Ok (f k) /\ good k ([RSema k; RGate k] ++ gets (f k)) (drops (f k))).
  { exists (fun k => match cell_life rank owner count branch fuel junk cell k with Ok es => es | Fail _ => [] end). intros k Hk. destruct (X k) as [es E]. destruct (E (H k Hk)) as [E1 E2]. rewrite E1. auto. }
  clear X. destruct Y as [f Hf]. exists (map f ks). split; [apply mapM_ok; intros k Hk; apply Hf; assumption|].
  exists (fun k => [RSema k; RGate k] ++ gets (f k)), (fun k => drops (f k)). split; [intros k Hk; apply Hf; assumption|]. split.
  - rewrite gets_concat, map_map, <- flat_map_concat_map. apply perm_flat_map.
  - rewrite drops_concat, map_map, <- flat_map_concat_map. reflexivity.
Qed.

Lemma tree_ok : forall top, exists l, tree_life rank owner count branch fuel junk cell top cells = Ok l /\ sound l /\
  (forall r, left_over l r <-> exists k, k < cells /\ leak k r) /\
  (forall k p, In (RNode k p) (gets l) <-> k < cells /\ owner k = rank /\ count k <> 0 /\ p <> [] /\ exists n, sub (branch k) p = Some n) /\
  (forall k i, In (RBlockLock k i) (gets l) <-> k < cells /\ owner k <> rank /\ count k <> 0 /\ i < length (nodes (branch k)) - 1).
Proof.
  intros top. destruct (cells_life (seq 0 cells)) as (es & E & G & D & HG & PG & PD); [intros k Hk; apply in_seq in Hk; lia|].
  eexists. split; [unfold tree_life; rewrite E; reflexivity|]. set (l := setup top cells ++ _).
  set (tl := map RTopLock (seq 0 (top + cells))).
  assert (GL : Permutation (gets l) (RDone :: RTop :: tl ++ flat_map G (seq 0 cells))).
  { subst l tl. unfold setup. rewrite !gets_app, gets_get, gets_drop. cbn [gets flat_map app]. rewrite app_nil_r. constructor. constructor.
    rewrite <- PG, <- !app_assoc. apply Permutation_app_head. apply Permutation_app; [|reflexivity].
    rewrite setup_gets. reflexivity. }
  assert (DL : Permutation (drops l) (RDone :: RTop :: tl ++ flat_map D (seq 0 cells))).
  { subst l tl. unfold setup. rewrite !drops_app, drops_get, drops_drop, PD, setup_drops. cbn [drops flat_map app].
    cbn [app]. rewrite !app_assoc, Permutation_app_comm. cbn [app]. rewrite perm_swap. constructor. constructor. apply Permutation_app_comm. }
  clearbody l.
  assert (TI : forall r, In r tl <-> exists i, i < top + cells /\ r = RTopLock i).
  { intros r. subst tl. rewrite in_map_iff. split; [intros (i & <- & H); apply in_seq in H; exists i; split; [lia|reflexivity]|intros (i & H & ->); exists i; rewrite in_seq; split; [reflexivity|lia]]. }
  assert (TN : NoDup tl) by (apply FinFun.Injective_map_NoDup; [intros x y X; congruence|apply seq_NoDup]). clearbody tl.
  assert (IS : forall k, In k (seq 0 cells) <-> k < cells) by (intros k; rewrite in_seq; lia).
  assert (FG : forall r, In r (flat_map G (seq 0 cells)) <-> exists k, k < cells /\ In r (G k)).
  { intros r. rewrite in_flat_map. split; intros (k & Hk & H); exists k; rewrite ?IS in *; auto. }
  assert (FD : forall r, In r (flat_map D (seq 0 cells)) <-> exists k, k < cells /\ In r (D k)).
  { intros r. rewrite in_flat_map. split; intros (k & Hk & H); exists k; rewrite ?IS in *; auto. }
  assert (TG : forall k r, k < cells -> In r (G k) -> cell_of r = Some k) by (intros k r Hk; apply (HG k); apply IS; assumption).
  assert (DG : forall k r, k < cells -> In r (D k) -> In r (G k)) by (intros k r Hk; apply (HG k); apply IS; assumption).
  assert (GN : forall X, (forall k, In k (seq 0 cells) -> NoDup (X k)) -> (forall k r, k < cells -> In r (X k) -> cell_of r = Some k) -> NoDup (RDone :: RTop :: tl ++ flat_map X (seq 0 cells))).
  { intros X N T. assert (F : forall r, In r (flat_map X (seq 0 cells)) -> exists k, cell_of r = Some k).
    { intros r H. apply in_flat_map in H. destruct H as (k & Hk & H). exists k. apply T; [apply IS; assumption|assumption]. }
    constructor; [intros [Y|Y]; [discriminate|]; apply in_app_iff in Y; destruct Y as [Y|Y]; [apply TI in Y; destruct Y as (i & _ & Y); discriminate|apply F in Y; destruct Y; discriminate]|].
    constructor; [intros Y; apply in_app_iff in Y; destruct Y as [Y|Y]; [apply TI in Y; destruct Y as (i & _ & Y); discriminate|apply F in Y; destruct Y; discriminate]|].
    apply NoDup_app_intro; [assumption| |intros r Y Z; apply TI in Y; destruct Y as (i & _ & ->); apply F in Z; destruct Z; discriminate].
    apply nodup_flat_map; [apply seq_NoDup|assumption|]. intros x y r Hx Hy Rx Ry. apply T in Rx; [|apply IS; assumption]. apply T in Ry; [|apply IS; assumption]. congruence. }
  assert (inG : forall r, In r (gets l) <-> r = RDone \/ r = RTop \/ In r tl \/ exists k, k < cells /\ In r (G k)).
  { intros r. rewrite <- FG. split; [intros H; apply (Permutation_in _ GL) in H|intros H; apply (Permutation_in _ (Permutation_sym GL))]; cbn [In] in *; rewrite in_app_iff in *; intuition congruence. }
  assert (inD : forall r, In r (drops l) <-> r = RDone \/ r = RTop \/ In r tl \/ exists k, k < cells /\ In r (D k)).
  { intros r. rewrite <- FD. split; [intros H; apply (Permutation_in _ DL) in H|intros H; apply (Permutation_in _ (Permutation_sym DL))]; cbn [In] in *; rewrite in_app_iff in *; intuition congruence. }
  split; [split; [|split]|split; [|split]].
  - apply (Permutation_NoDup (Permutation_sym GL)). apply GN; [intros k Hk; apply (HG k Hk)|exact TG].
  - apply (Permutation_NoDup (Permutation_sym DL)). apply GN; [intros k Hk; apply (HG k Hk)|]. intros k r Hk H. apply TG; [assumption|]. apply DG; assumption.
  - intros r H. apply inD in H. apply inG. destruct H as [H|[H|[H|(k & Hk & H)]]]; auto. right. right. right. exists k. auto.
  - intros r. unfold left_over. rewrite inG, inD. split.
    + intros [[H|[H|[H|(k & Hk & H)]]] H']; [tauto..|]. exists k. split; [assumption|]. apply (HG k (proj2 (IS k) Hk)). split; [assumption|]. intros X. apply H'. right. right. right. eauto.
    + intros (k & Hk & H). apply (HG k (proj2 (IS k) Hk)) in H. destruct H as [H1 H2]. split; [right; right; right; eauto|]. pose proof (TG k r Hk H1) as T.
      intros [->|[->|[X|(j & Hj & X)]]]; [discriminate..|apply TI in X; destruct X as (i & _ & ->); discriminate|]. pose proof (TG j r Hj (DG j r Hj X)). assert (j = k) by congruence. subst. contradiction.
  - intros k p. rewrite inG. split.
    + intros [X|[X|[X|(j & Hj & X)]]]; [discriminate..|apply TI in X; destruct X as (i & _ & X); discriminate|]. pose proof (TG j _ Hj X) as T. injection T as <-. apply (HG k (proj2 (IS k) Hj)) in X. auto.
    + intros (Hk & X). right. right. right. exists k. split; [assumption|]. apply (HG k (proj2 (IS k) Hk)). assumption.
  - intros k i. rewrite inG. split.
    + intros [X|[X|[X|(j & Hj & X)]]]; [discriminate..|apply TI in X; destruct X as (i' & _ & X); discriminate|]. pose proof (TG j _ Hj X) as T. injection T as <-. apply (HG k (proj2 (IS k) Hj)) in X. auto.
    + intros (Hk & X). right. right. right. exists k. split; [assumption|]. apply (HG k (proj2 (IS k) Hk)). assumption.
Qed.
End Cell.
