(** Facts about single tasks of the built-in methods. *)
From Coq Require Import ZArith List Bool Arith Lia Permutation.
From Verif Require Import Base ListFacts IndexModel IndexSpec IndexProofs TreeModel TreeFacts RefineModel LookupModel GeomModel DagModel DagSpec DagProofs MethodModel DagPaths DagExec DagSound.
Import ListNotations.
Open Scope nat_scope.

(** ** Program order *)
Fixpoint prog (o : owner) (known : list dnode) (l : list act) : Prop :=
  match l with
  | [] => True
  | Add n :: l' => prog o (n :: known) l'
  | Link e :: l' => (fst (efrom e) = o -> In (efrom e) known) /\ In (eto e) known /\ prog o known l'
  end.
Lemma prog_weaken : forall o l k k', incl k k' -> prog o k l -> prog o k' l.
Proof.
  induction l as [|[n|e] l IH]; intros k k' I H; cbn [prog] in *; [exact H| |].
  - eapply IH; [|exact H]. intros x [->|J]; [left; reflexivity|right; apply I; assumption].
  - destruct H as (H1 & H2 & H3). split; [auto|]. split; [auto|]. eapply IH; eassumption.
Qed.
Lemma prog_app : forall o a b k, prog o k a -> prog o (adds a ++ k) b -> prog o k (a ++ b).
Proof.
  induction a as [|[n|e] a IH]; intros b k H1 H2; cbn [app prog] in *; [exact H2| |].
  - apply IH; [assumption|]. eapply prog_weaken; [|exact H2]. intros x I. change (adds (Add n :: a)) with (n :: adds a) in I. cbn [app] in I. destruct I as [->|I]; [apply in_or_app; right; left; reflexivity|]. apply in_app_or in I. apply in_or_app. destruct I; [left|right; right]; assumption.
  - destruct H1 as (A1 & A2 & A3). split; [assumption|]. split; [assumption|]. apply IH; assumption.
Qed.
Lemma prog_links : forall o k l, (forall e, In (Link e) l -> fst (efrom e) <> o /\ In (eto e) k) -> (forall n, ~ In (Add n) l) -> prog o k l.
Proof.
  intros o k l H N. induction l as [|[n|e] l IH]; cbn [prog]; [exact I|exfalso; eapply N; left; reflexivity|]. destruct (H e (or_introl eq_refl)) as [H1 H2]. split; [intros X; contradiction|]. split; [assumption|]. apply IH; [intros; apply H; right; assumption|intros n X; eapply N; right; exact X].
Qed.
Lemma prog_split : forall o a1 k e a2, prog o k (a1 ++ Link e :: a2) -> (fst (efrom e) = o -> In (efrom e) (adds a1 ++ k)) /\ In (eto e) (adds a1 ++ k).
Proof.
  induction a1 as [|[n|e'] a1 IH]; intros k e a2 H; cbn [app prog] in *.
  - cbn. tauto.
  - destruct (IH _ _ _ H) as [H1 H2]. assert (X : incl (adds a1 ++ n :: k) (adds (Add n :: a1) ++ k)).
    { change (adds (Add n :: a1)) with (n :: adds a1). intros x J. cbn [app]. apply in_app_or in J. destruct J as [J|[->|J]]; [right; apply in_or_app; left; assumption|left; reflexivity|right; apply in_or_app; right; assumption]. }
    split; [intros Y; apply X; auto|apply X; assumption].
  - destruct H as (_ & _ & H). exact (IH _ _ _ H).
Qed.
Lemma prog_split0 : forall o a1 e a2, prog o [] (a1 ++ Link e :: a2) -> (fst (efrom e) = o -> In (efrom e) (adds a1)) /\ In (eto e) (adds a1).
Proof. intros o a1 e a2 H. apply prog_split in H. rewrite app_nil_r in H. assumption. Qed.

(** ** Counting *)
Definition only_links (l : list act) : Prop := forall n, ~ In (Add n) l.
Lemma only_adds : forall l, only_links l -> adds l = [].
Proof. intros l H. destruct (adds l) as [|n r] eqn:E; [reflexivity|]. exfalso. apply (H n). apply in_adds. rewrite E. left. reflexivity. Qed.

Definition cnt {X} (s : path) (cons : list (path * tree X)) : nat := length (filter (fun n => prefixb (fst n) s) cons).
Definition ocov (s : path) (a : act) : bool :=
  match a with Link e => match fst (efrom e) with (SrcTree, c) => prefixb c s | _ => false end | Add _ => false end.
Definition ocnt (s : path) (l : list act) : nat := length (filter (ocov s) l).
Lemma cnt_app : forall X s (a b : list (path * tree X)), cnt s (a ++ b) = cnt s a + cnt s b.
Proof. intros. unfold cnt. rewrite filter_app, app_length. reflexivity. Qed.
Lemma cnt_cons : forall X s n (b : list (path * tree X)), cnt s (n :: b) = cnt s [n] + cnt s b.
Proof. intros. rewrite <- cnt_app. reflexivity. Qed.
Lemma cnt_one : forall X s (n : path * tree X), cnt s [n] = if prefixb (fst n) s then 1 else 0.
Proof. intros. unfold cnt. cbn. destruct (prefixb (fst n) s); reflexivity. Qed.
Lemma ocnt_app : forall s a b, ocnt s (a ++ b) = ocnt s a + ocnt s b.
Proof. intros. unfold ocnt. rewrite filter_app, app_length. reflexivity. Qed.

Lemma one_of : forall X (l : list X), NoDup l -> (forall x y, In x l -> In y l -> x = y) -> length l <= 1.
Proof. intros X [|x [|y l]] N H; cbn; try lia. exfalso. inversion N; subst. apply H2. left. apply H; [right; left; reflexivity|left; reflexivity]. Qed.

Lemma cnt_children_le : forall X s (n : path * tree X), cnt s (children n) <= cnt s [n].
Proof.
  intros X s n. rewrite cnt_one. unfold cnt. destruct (prefixb (fst n) s) eqn:P.
  - apply one_of; [apply NoDup_filter; apply children_nodup'|]. intros [q c] [q' c'] I I'. apply filter_In in I. apply filter_In in I'. destruct I as [I P1], I' as [I' P2]. apply (children_same _ n); try assumption. cbn [fst] in *. apply prefixb_iff in P1. apply prefixb_iff in P2.
    apply children_in in I. apply children_in in I'. destruct I as (w & _ & _ & ->), I' as (w' & _ & _ & ->). apply prefix_eq; [eapply prefix_comparable; [exact P1|exact P2|rewrite !app_length; cbn; lia]|rewrite !app_length; reflexivity].
  - destruct (filter _ (children n)) as [|[q c] l] eqn:F; [cbn; lia|]. assert (I : In (q, c) (filter (fun n => prefixb (fst n) s) (children n))) by (rewrite F; left; reflexivity). apply filter_In in I. destruct I as [I P1]. cbn [fst] in P1. apply children_in in I. destruct I as (w & _ & _ & ->). apply prefixb_iff, prefix_snoc in P1. destruct P1 as [P1 _]. apply prefixb_iff in P1. congruence.
Qed.

Section Count.
Context {A : Type} (S : tree A) (HS8 : eight S).
Definition valid (cons : list (path * tree A)) : Prop := forall n, In n cons -> sub S (fst n) = Some (snd n).
Lemma valid_children : forall n, sub S (fst n) = Some (snd n) -> valid (children n).
Proof. intros n H [q c] I. apply children_in in I. destruct I as (w & _ & K & ->). cbn [fst snd]. rewrite sub_snoc, H. assumption. Qed.

Lemma cnt_children : forall s n, leaf_at S s -> sub S (fst n) = Some (snd n) -> is_leaf (snd n) = false -> cnt s (children n) = cnt s [n].
Proof.
  intros s n (ns & Ss & Ks) Sn Lf. pose proof (cnt_children_le _ s n) as LE. rewrite cnt_one in *. destruct (prefixb (fst n) s) eqn:P; [|lia].
  apply prefixb_iff in P. destruct P as [[|w r] Es].
  - rewrite app_nil_r in Es. subst s. exfalso. assert (snd n = ns) by congruence. subst ns. unfold is_leaf in Lf. apply Nat.eqb_neq in Lf. apply Lf. apply n_children_0; [exact (HS8 _ _ Sn)|assumption].
  - rewrite Es in Ss. rewrite sub_app, Sn in Ss. cbn in Ss. destruct (kid (snd n) w) as [c|] eqn:K; [|discriminate].
    assert (I : In (fst n ++ [w], c) (children n)) by (apply children_in; exists w; split; [eapply kid_lt8; [exact (HS8 _ _ Sn)|exact K]|auto]).
    enough (1 <= cnt s (children n)) by lia. unfold cnt. assert (J : In (fst n ++ [w], c) (filter (fun n0 => prefixb (fst n0) s) (children n))) by (apply filter_In; split; [assumption|]; apply prefixb_iff; rewrite Es; exists r; cbn [fst]; rewrite <- app_assoc; reflexivity).
    destruct (filter _ _); [destruct J|cbn; lia].
Qed.

Lemma flat_count : forall s (f : path * tree A -> list act) (g : path * tree A -> list (path * tree A)) cons,
  (forall n, In n cons -> ocnt s (f n) + cnt s (g n) = cnt s [n]) -> ocnt s (flat_map f cons) + cnt s (flat_map g cons) = cnt s cons.
Proof.
  intros s f g. induction cons as [|n cons IH]; intros H; [reflexivity|]. cbn [flat_map]. rewrite ocnt_app, cnt_app, (cnt_cons _ s n cons). pose proof (H n (or_introl eq_refl)). specialize (IH (fun n I => H n (or_intror I))). lia.
Qed.
Lemma flat_count_le : forall s (f : path * tree A -> list act) (g : path * tree A -> list (path * tree A)) cons,
  (forall n, In n cons -> ocnt s (f n) + cnt s (g n) <= cnt s [n]) -> ocnt s (flat_map f cons) + cnt s (flat_map g cons) <= cnt s cons.
Proof.
  intros s f g. induction cons as [|n cons IH]; intros H; [cbn; lia|]. cbn [flat_map]. rewrite ocnt_app, cnt_app, (cnt_cons _ s n cons). pose proof (H n (or_introl eq_refl)). specialize (IH (fun n I => H n (or_intror I))). lia.
Qed.

Lemma nodup_ocnt : forall l, (forall e, In e (links l) -> fst (fst (efrom e)) = SrcTree) -> (forall s, ocnt s l <= 1) -> NoDup (links l).
Proof.
  induction l as [|[n|e] l IH]; intros H1 H2; [constructor| |].
  - change (links (Add n :: l)) with (links l) in *. apply IH; [assumption|]. intros s. specialize (H2 s). unfold ocnt in *. cbn in H2. assumption.
  - change (links (Link e :: l)) with (e :: links l) in *. constructor.
    + intros I. specialize (H2 (opath (efrom e))). apply in_links in I. unfold ocnt in H2. cbn [filter] in H2.
      assert (C : ocov (opath (efrom e)) (Link e) = true). { cbn. specialize (H1 e (or_introl eq_refl)). unfold opath. destruct (fst (efrom e)) as [sd c]. cbn in *. subst sd. apply prefixb_iff. apply prefix_refl. }
      rewrite C in H2. assert (J : In (Link e) (filter (ocov (opath (efrom e))) l)) by (apply filter_In; auto). destruct (filter (ocov (opath (efrom e))) l); [destruct J|cbn in H2; lia].
    + apply IH; [intros; apply H1; right; assumption|]. intros s. specialize (H2 s). unfold ocnt in *. cbn [filter] in H2. destruct (ocov s (Link e)); cbn [length] in H2; lia.
Qed.

(** ** The loop of Direct and BH *)
Section Rounds.
Context (step : path * tree A -> list act * list (path * tree A)) (Q : act -> Prop) (leaf : bool).
Context (Hs1 : forall s n, leaf_at S s -> sub S (fst n) = Some (snd n) -> ocnt s (fst (step n)) + cnt s (snd (step n)) = cnt s [n]).
Context (Hs2 : forall s n, ocnt s (fst (step n)) + cnt s (snd (step n)) <= cnt s [n]).
Context (Hs3 : forall n a, sub S (fst n) = Some (snd n) -> In a (fst (step n)) -> Q a).
Context (Hs4 : forall n, sub S (fst n) = Some (snd n) -> valid (snd (step n))).
Context (Hs5 : leaf = true -> forall n, incl (snd (step n)) (children n)).

Lemma rounds_facts : forall fuel cons acts new, rounds step fuel leaf cons = Ok (acts, new) -> valid cons ->
  (forall s, leaf_at S s -> ocnt s acts + cnt s new = cnt s cons) /\ (forall s, ocnt s acts + cnt s new <= cnt s cons) /\
  (forall a, In a acts -> Q a) /\ valid new /\ (leaf = true -> new = []).
Proof.
  induction fuel as [|fuel IH]; intros cons acts new H V; [discriminate|]. cbn [rounds] in H.
  assert (V' : valid (flat_map (fun s => snd (step s)) cons)) by (intros n I; apply in_flat_map in I; destruct I as (n' & I' & I); exact (Hs4 _ (V _ I') _ I)).
  assert (F1 : forall s, leaf_at S s -> ocnt s (flat_map (fun x => fst (step x)) cons) + cnt s (flat_map (fun x => snd (step x)) cons) = cnt s cons) by (intros s Hs; apply flat_count; intros n I; apply Hs1; [assumption|apply V; assumption]).
  assert (F2 : forall s, ocnt s (flat_map (fun x => fst (step x)) cons) + cnt s (flat_map (fun x => snd (step x)) cons) <= cnt s cons) by (intros s; apply flat_count_le; intros n I; apply Hs2).
  assert (F3 : forall a, In a (flat_map (fun x => fst (step x)) cons) -> Q a) by (intros a I; apply in_flat_map in I; destruct I as (n & I & J); exact (Hs3 _ _ (V _ I) J)).
  destruct (leaf && negb (nil_list (flat_map (fun s => snd (step s)) cons))) eqn:C.
  - destruct (rounds step fuel leaf (flat_map (fun s => snd (step s)) cons)) as [[r1 r2]|] eqn:R; [|discriminate]. cbn in H. injection H as <- <-. destruct (IH _ _ _ R V') as (G1 & G2 & G3 & G4 & G5). split; [|split; [|split; [|split]]]; auto.
    + intros s Hs. rewrite ocnt_app. specialize (G1 s Hs). specialize (F1 s Hs). lia.
    + intros s. rewrite ocnt_app. specialize (G2 s). specialize (F2 s). lia.
    + intros a I. apply in_app_or in I. destruct I; auto.
  - injection H as <- <-. split; [exact F1|]. split; [exact F2|]. split; [exact F3|]. split; [exact V'|]. intros L. rewrite L in C. cbn in C. destruct (flat_map (fun s => snd (step s)) cons); [reflexivity|discriminate].
Qed.

Lemma rounds_ok : forall fuel cons, 0 < fuel -> (forall n, In n cons -> lower fuel (snd n)) -> exists r, rounds step fuel leaf cons = Ok r.
Proof using Hs5.
  clear - Hs5.
  induction fuel as [|fuel IH]; intros cons H0 H; [lia|]. cbn [rounds]. destruct (leaf && negb (nil_list (flat_map (fun s => snd (step s)) cons))) eqn:C; [|eauto]. apply andb_true_iff in C. destruct C as [L C].
  destruct (IH (flat_map (fun s => snd (step s)) cons)) as [r ->]; [| |cbn; eauto].
  - destruct (flat_map (fun s => snd (step s)) cons) as [|[q c] l] eqn:F; [discriminate|]. assert (I : In (q, c) (flat_map (fun s => snd (step s)) cons)) by (rewrite F; left; reflexivity). apply in_flat_map in I. destruct I as (n & I & J). apply (Hs5 L) in J. apply children_in in J. destruct J as (w & _ & K & _). assert (X : sub (snd n) [w] = Some c) by (cbn; rewrite K; reflexivity). specialize (H n I _ _ X). cbn in H. lia.
  - intros [q c] I. apply in_flat_map in I. destruct I as (n & I & J). apply (Hs5 L) in J. apply children_in in J. destruct J as (w & _ & K & ->). cbn [snd]. intros p t X. assert (Y : sub (snd n) (w :: p) = Some t) by (cbn; rewrite K; assumption). specialize (H n I _ _ Y). cbn in H. lia.
Qed.
End Rounds.
End Count.
