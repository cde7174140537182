(** Where the multipole methods stop in the target tree. *)
From Coq Require Import ZArith List Bool Arith Lia.
From Verif Require Import Base ListFacts IndexModel TreeModel TreeFacts RefineModel LookupModel GeomModel DagModel MethodModel DagSpec DagProofs DagPaths DagExec DagSound MethodProofs MethodTasks MethodSound DirectBHProofs FmmProofs Fmm97Proofs.
Import ListNotations.
Open Scope nat_scope.

(** Children of boxes that are not neighbours are not neighbours. *)
Lemma near_parents : forall c p v w, v < 8 -> w < 8 -> ~ apart (idx_of (c ++ [v])) (idx_of (p ++ [w])) -> ~ apart (idx_of c) (idx_of p).
Proof.
  intros c p v w Hv Hw N (a & H). apply N. exists a. rewrite !idx_snoc.
  assert (B : forall n, (n = 0 \/ n = 1 \/ n = 2 \/ n = 3 \/ n = 4 \/ n = 5 \/ n = 6 \/ n = 7) -> forall i, (2 * icoord a i <= icoord a (child (Z.of_nat n) i) <= 2 * icoord a i + 1)%Z).
  { intros n Hn i. unfold child. destruct a; cbn [icoord ix iy iz]; decompose [or] Hn; subst n; cbn; lia. }
  pose proof (B v ltac:(lia) (idx_of c)). pose proof (B w ltac:(lia) (idx_of p)). lia.
Qed.

Section Stops.
Context {A B : Type} (m : method A B) (unif : nat) (same : bool) (S : tree A) (T : tree B) (HS8 : eight S) (HT8 : eight T) (HTd : deep unif T).
Context (Href : refine_test m = fmm_refine).
(** The children of a neighbour are handed on. *)
Context (Hproc : forall n cons a2 new x k, process m n cons false = Ok (a2, new) -> In x cons -> length (fst x) = length (fst n) ->
  well_sep (idx_of (fst x)) (idx_of (fst n)) = false -> In k (children x) -> In k new).
Context (Hsub : forall n pi cons acc, vis m unif same S T n pi cons acc -> forall x, In x cons -> sub S (fst x) = Some (snd x)).
Let V := vis m unif same S T.

Lemma stops_sub : forall n pi cons acc, V n pi cons acc -> sub T (fst n) = Some (snd n).
Proof. intros n pi cons acc H. apply visited_sub in H. destruct H as (p & Ep & Sp). cbn in Ep, Sp. subst p. assumption. Qed.

Lemma near_cons : forall n pi cons acc, V n pi cons acc -> forall c t, sub S c = Some t -> length c = length (fst n) -> ~ apart (idx_of c) (idx_of (fst n)) -> In (c, t) cons.
Proof.
  intros n pi cons acc H. pose proof H as G. unfold V, vis in H. induction H as [|n pi cons acc a2 cons' k H IH R P I]; intros c t Sc Lc Nc.
  - destruct c; [|discriminate Lc]. cbn in Sc. injection Sc as <-. left. reflexivity.
  - destruct k as [q u]. apply children_in in I. destruct I as (w & W8 & _ & ->). cbn [fst] in *.
    destruct (list_eq_dec Nat.eq_dec c []) as [->|Ne]; [rewrite app_length in Lc; cbn in Lc; lia|].
    destruct (snoc_parent c Ne) as [v Ev]. rewrite Ev in Sc, Lc, Nc |- *. set (c0 := parent_of c) in *.
    rewrite !app_length in Lc. cbn [length] in Lc. rewrite sub_app in Sc. destruct (sub S c0) as [t0|] eqn:S0; [|discriminate Sc]. cbn in Sc.
    destruct (kid t0 v) as [t'|] eqn:K; [|discriminate Sc]. injection Sc as ->.
    assert (V8 : v < 8) by (eapply kid_lt8; [exact (HS8 _ _ S0)|exact K]).
    assert (N0 : ~ apart (idx_of c0) (idx_of (fst n))) by (eapply near_parents; [exact V8|exact W8|exact Nc]).
    assert (J : In (c0, t0) cons) by (apply IH; [exact H|exact S0|lia|exact N0]).
    eapply (Hproc n cons a2 cons' (c0, t0)); [exact P|exact J|cbn; lia| |].
    + destruct (well_sep (idx_of c0) (idx_of (fst n))) eqn:W; [|exact W]. exfalso. apply N0. apply well_sep_apart. exact W.
    + apply children_in. exists v. auto.
Qed.

Lemma refines_iff : forall n pi cons acc, V n pi cons acc -> (refines m unif same n cons = false <-> finished unif same S T (fst n)).
Proof.
  intros n pi cons acc H. pose proof (stops_sub _ _ _ _ H) as Sn. unfold refines, finished. rewrite Sn, Href.
  pose proof (leaf_iff _ _ _ _ HT8 Sn) as Lf. unfold is_leaf in Lf. destruct (Nat.ltb_spec (length (fst n)) unif) as [L|L].
  - split; [discriminate|]. intros (_ & X & _). lia.
  - destruct (n_children (snd n) =? 0); [split; [|reflexivity]; intros _; split; [discriminate|]; split; [lia|left; apply Lf; reflexivity]|].
    assert (NL : ~ leaf_at T (fst n)) by (intros X; apply Lf in X; discriminate X).
    unfold fmm_refine. split.
    + intros F. apply orb_false_iff in F. destruct F as [F1 F2]. split; [discriminate|]. split; [lia|]. right. split; [exact F1|].
      intros c Sc Lc Nc. destruct (sub S c) as [t|] eqn:E; [|congruence]. pose proof (near_cons _ _ _ _ H c t E Lc Nc) as I.
      apply (leaf_iff _ _ _ _ HS8 E). destruct (is_leaf t) eqn:Lt; [reflexivity|]. exfalso. rewrite <- not_true_iff_false in F2. apply F2.
      apply existsb_exists. exists (c, t). split; [exact I|]. cbn [fst snd]. rewrite Lt, !idx_level, Lc, Z.eqb_refl. cbn [negb andb].
      destruct (well_sep (idx_of c) (idx_of (fst n))) eqn:W; [|reflexivity]. exfalso. apply Nc. apply well_sep_apart. exact W.
    + intros (_ & _ & [X|[Sm X]]); [contradiction|]. rewrite Sm. cbn [orb]. apply not_true_iff_false. intros Y. apply existsb_exists in Y.
      destruct Y as ([c t] & I & Y). cbn [fst snd] in Y. apply andb_true_iff in Y. destruct Y as [Y Y3]. apply andb_true_iff in Y. destruct Y as [Y1 Y2].
      pose proof (Hsub _ _ _ _ H _ I) as Sc. cbn [fst snd] in Sc. apply Z.eqb_eq in Y1. rewrite !idx_level in Y1.
      assert (Q : leaf_at S c).
      { apply X; [congruence|lia|]. intros Z. apply well_sep_apart in Z. rewrite Z in Y2. discriminate Y2. }
      apply (leaf_iff _ _ _ _ HS8 Sc) in Q. rewrite Q in Y3. discriminate Y3.
Qed.

Lemma refined_above : forall n pi cons acc, V n pi cons acc -> forall p, prefix p (fst n) -> p <> fst n -> ~ finished unif same S T p.
Proof.
  intros n pi cons acc H. pose proof H as G. unfold V, vis in H. induction H as [|n pi cons acc a2 cons' k H IH R P I]; intros p [r Hr] Np.
  - cbn in Hr. destruct p; [cbn in Np; congruence|discriminate Hr].
  - destruct k as [q u]. apply children_in in I. destruct I as (w & _ & _ & ->). cbn [fst] in *.
    destruct r as [|y r _] using rev_ind; [rewrite app_nil_r in Hr; congruence|]. rewrite app_assoc in Hr. apply app_inj_tail in Hr. destruct Hr as [Hr _].
    destruct (list_eq_dec Nat.eq_dec p (fst n)) as [->|Ne].
    + intros F. apply (refines_iff _ _ _ _ H) in F. congruence.
    + apply (IH H); [exists r; exact Hr|exact Ne].
Qed.

Context (Hok : forall n pi cons acc, V n pi cons acc -> exists r, process m n cons (negb (refines m unif same n cons)) = Ok r).
Lemma reach : forall q, sub T q <> None -> (forall p, prefix p q -> p <> q -> ~ finished unif same S T p) -> exists n pi cons acc, V n pi cons acc /\ fst n = q.
Proof.
  induction q as [|w q IH] using rev_ind; intros Sq Hn; [exists ([], T), false, [([], S)], []; split; [constructor|reflexivity]|].
  rewrite sub_app in Sq. destruct (sub T q) as [t|] eqn:Et; [|congruence]. cbn in Sq. destruct (kid t w) as [k|] eqn:K; [|congruence].
  destruct IH as (n & pi & cons & acc & H & En); [discriminate| |].
  { intros p [r ->] Np. apply Hn; [exists (r ++ [w]); rewrite app_assoc; reflexivity|]. intros X. apply (f_equal (@length nat)) in X. rewrite !app_length in X. cbn in X. lia. }
  pose proof (stops_sub _ _ _ _ H) as Sn. rewrite En, Et in Sn. injection Sn as Sn.
  assert (R : refines m unif same n cons = true).
  { apply not_false_iff_true. intros X. apply (refines_iff _ _ _ _ H) in X. rewrite En in X. apply (Hn q); [exists [w]; reflexivity| |exact X]. intros Y. apply (f_equal (@length nat)) in Y. rewrite app_length in Y. cbn in Y. lia. }
  destruct (Hok _ _ _ _ H) as ([a2 cons'] & P). rewrite R in P. cbn [negb] in P.
  eexists (q ++ [w], k), _, cons', _. split; [|reflexivity]. eapply V_kid with (c := (q ++ [w], k)); [exact H|exact R|exact P|].
  destruct n as [q' t']. cbn [fst snd] in *. subst q' t'. apply children_in. exists w. split; [eapply kid_lt8; [exact (HT8 _ _ Et)|exact K]|auto].
Qed.

Lemma stops_iff : forall q, (exists n pi cons acc, V n pi cons acc /\ fst n = q /\ refines m unif same n cons = false) <-> first_finished unif same S T q.
Proof.
  intros q. split.
  - intros (n & pi & cons & acc & H & <- & R). split; [apply (refines_iff _ _ _ _ H); exact R|]. apply (refined_above _ _ _ _ H).
  - intros [F Hn]. destruct (reach q) as (n & pi & cons & acc & H & <-); [apply F|exact Hn|]. exists n, pi, cons, acc. split; [exact H|]. split; [reflexivity|]. apply (refines_iff _ _ _ _ H). exact F.
Qed.
End Stops.

Section Both.
Context {A B : Type} (S : tree A) (T : tree B) (HS8 : eight S) (HT8 : eight T) (fuel unif : nat) (same : bool).
Context (HSl : lower fuel S) (HTl : lower fuel T) (HSd : deep unif S) (HTd : deep unif T).

Lemma kids_descend : forall (x k : path * tree A), In k (children x) -> In k (descend x).
Proof. intros x k I. unfold descend. destruct (children x); [destruct I|exact I]. Qed.

Theorem fmm_stops : exists ss tt, create_dag (@fmm A B fuel) unif same fuel S T = Ok (ss, tt) /\ forall q, stops (ss ++ tt) q <-> first_finished unif same S T q.
Proof.
  destruct (fmm_dag_full S T HS8 HT8 fuel unif same HSl HTl HSd HTd) as (ss & tt & Hc & St & Vi & _). exists ss, tt. split; [exact Hc|].
  intros q. rewrite St. apply stops_iff; auto.
  - intros n cons a2 new x k P I L W J. cbn [process fmm] in P. injection P as _ <-. apply in_flat_map. exists x. split; [exact I|].
    unfold fmm_inner. rewrite level_ltb, L, Nat.ltb_irrefl, W. cbn [snd]. apply kids_descend. exact J.
  - intros n pi cons acc H x I. destruct (Vi _ _ _ _ H) as (_ & ((Va & _) & _)). apply Va. exact I.
  - intros n pi cons acc H. destruct (Vi _ _ _ _ H) as (Sn & Iv). destruct (fmm_process S T HS8 fuel unif same HSl n cons Sn Iv) as (xs & new & E & _). eauto.
Qed.

Theorem fmm97_stops : exists ss tt, create_dag (@fmm97 A B fuel) unif same fuel S T = Ok (ss, tt) /\ forall q, stops (ss ++ tt) q <-> first_finished unif same S T q.
Proof.
  destruct (fmm97_dag_full S T HS8 HT8 fuel unif same HSl HTl HSd HTd) as (ss & tt & Hc & St & Vi & _). exists ss, tt. split; [exact Hc|].
  intros q. rewrite St. apply stops_iff; auto.
  - intros n cons a2 new x k P I L W J. cbn [process fmm97] in P. injection P as _ <-. apply in_flat_map. exists x. split; [exact I|].
    unfold fmm97_inner. rewrite level_ltb, L, Nat.ltb_irrefl, W. cbn [fst snd negb]. apply kids_descend. exact J.
  - intros n pi cons acc H x I. destruct (Vi _ _ _ _ H) as (_ & ((Va & _) & _)). apply Va. exact I.
  - intros n pi cons acc H. destruct (Vi _ _ _ _ H) as (Sn & Iv). destruct (fmm97_process S T HS8 fuel unif same HSl n cons Sn Iv) as (xs & mg & new & E & _). eauto.
Qed.
End Both.

(** With the same points as sources and targets these are the leaves. *)
Lemma finished_same : forall A B unif (S : tree A) (T : tree B) q, deep unif T -> (first_finished unif true S T q <-> leaf_at T q).
Proof.
  intros A B unif S T q D. split.
  - intros [(_ & _ & [H|[H _]]) _]; [exact H|discriminate H].
  - intros L. pose proof L as (n & Sn & Kn). split; [split; [congruence|]; split; [apply D; exact L|left; exact L]|].
    intros p [r ->] Np (_ & _ & [(n1 & S1 & K1)|[H _]]); [|discriminate H]. destruct r as [|w r]; [rewrite app_nil_r in Np; congruence|].
    rewrite sub_app, S1 in Sn. cbn in Sn. rewrite K1 in Sn. discriminate Sn.
Qed.
