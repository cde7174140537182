(** The FMM97 method, with merge-and-shift. *)
From Coq Require Import ZArith List Bool Arith Lia Permutation.
From Verif Require Import Base ListFacts IndexModel IndexSpec IndexProofs TreeModel TreeFacts RefineModel LookupModel GeomModel DagModel DagSpec DagProofs MethodModel DagPaths DagExec DagSound MethodProofs MethodTasks MethodSound DirectBHProofs FmmProofs.
Import ListNotations.
Open Scope nat_scope.

Section Fmm97.
Context {A B : Type} (S : tree A) (T : tree B) (HS8 : eight S) (HT8 : eight T).

(** The source box has yet to be dealt with below [p]: not one that reached [p] through the
    intermediate expansion of the parent. *)
Definition nosk (p : path) (n : path * tree A) : bool :=
  negb ((length (fst n) =? length p) && well_sep (idx_of (fst n)) (idx_of p)).

Lemma cnt_split : forall s f (l : list (path * tree A)), cnt s (filter f l) + cnt s (filter (fun x => negb (f x)) l) = cnt s l.
Proof.
  intros s f. induction l as [|x l IH]; [reflexivity|]. cbn [filter]. rewrite (cnt_cons _ s x l). destruct (f x); cbn [negb]; rewrite cnt_cons; lia.
Qed.
Lemma cnt_filter_le : forall s f (l : list (path * tree A)), cnt s (filter f l) <= cnt s l.
Proof. intros. pose proof (cnt_split s f l). lia. Qed.
Lemma filter_ext_list : forall X (f g : X -> bool) l, (forall x, In x l -> f x = g x) -> filter f l = filter g l.
Proof. intros X f g. induction l as [|x l IH]; intros H; [reflexivity|]. cbn. rewrite H by (left; reflexivity). rewrite IH by (intros; apply H; right; assumption). reflexivity. Qed.
Lemma filter_flat_map' : forall X Y (f : Y -> bool) (g : X -> list Y) l, filter f (flat_map g l) = flat_map (fun x => filter f (g x)) l.
Proof. intros X Y f g. induction l as [|x l IH]; [reflexivity|]. cbn. rewrite filter_app, IH. reflexivity. Qed.

Lemma inner97 : forall p n, sub T p <> None -> sub S (fst n) = Some (snd n) -> length (fst n) <= length p -> (length (fst n) < length p -> is_leaf (snd n) = true) ->
  let r := fmm97_inner p n in
  handed S p n (snd (fst r)) /\ (forall a, In a (fst (fst r)) -> flink S p true a) /\
  (forall d, In d (snd r) -> sub S (fst d) = Some (snd d) /\ length (fst d) = Datatypes.S (length p) /\ 1 <= length p) /\
  (forall s, ocnt s (fst (fst r)) + cnt s (snd r) <= cnt s [n]) /\ (forall s, cnt s (snd (fst r)) <= cnt s [n]) /\
  (forall s w, w < 8 -> leaf_at S s -> ocnt s (fst (fst r)) + cnt s (filter (fun d => well_sep (idx_of (fst d)) (idx_of (p ++ [w]))) (snd r)) + cnt s (filter (nosk (p ++ [w])) (snd (fst r))) = if nosk p n then cnt s [n] else 0).
Proof.
  intros p n Tp Sn Le Lf. unfold fmm97_inner. rewrite level_ltb. destruct (Nat.ltb_spec (length (fst n)) (length p)) as [L|L].
  - specialize (Lf L). assert (N : forall w, nosk (p ++ [w]) n = true) by (intros w; unfold nosk; rewrite app_length; replace (length (fst n) =? length p + length [w]) with false by (symmetry; apply Nat.eqb_neq; cbn; lia); reflexivity).
    assert (N0 : nosk p n = true) by (unfold nosk; replace (length (fst n) =? length p) with false by (symmetry; apply Nat.eqb_neq; lia); reflexivity).
    destruct (well_sep_asym (idx_of p) (idx_of (fst n))) eqn:W; cbn [fst snd].
    + split; [intros c []|]. split; [|split; [intros d []|split; [|split]]].
      * intros a [<-|[]]. apply FL_StoL; [apply (leaf_iff _ _ _ _ HS8 Sn); assumption|assumption|]. apply asym_clear; [rewrite !idx_level; lia|assumption].
      * intros s. unfold do_StoL. rewrite (ocnt_link s n _ Parts) by reflexivity. change (cnt s []) with 0. lia.
      * intros s. change (cnt s []) with 0. lia.
      * intros s w _ Hs. rewrite N0. unfold do_StoL. rewrite (ocnt_link s n _ Parts) by reflexivity. cbn [filter]. change (cnt s []) with 0. lia.
    + split; [apply handed_keep; assumption|]. split; [intros a []|]. split; [intros d []|]. split; [|split].
      * intros s. change (ocnt s []) with 0. change (cnt s []) with 0. lia.
      * intros s. lia.
      * intros s w _ Hs. rewrite N0. cbn [filter]. rewrite N. change (ocnt s []) with 0. change (cnt s []) with 0. lia.
  - assert (El : length (fst n) = length p) by lia. destruct (well_sep (idx_of (fst n)) (idx_of p)) eqn:W; cbn [negb fst snd].
    + split; [intros c []|]. split; [intros a []|]. split; [intros d []|]. split; [|split]; try (intros s; change (ocnt s []) with 0; change (cnt s []) with 0; lia). intros s w _ Hs. unfold nosk at 2. rewrite El, Nat.eqb_refl, W. reflexivity.
    + assert (N0 : nosk p n = true) by (unfold nosk; rewrite W, andb_false_r; reflexivity).
      match goal with |- context [if ?b then children n else []] => set (i2i := b) end.
      assert (Ch : forall d, In d (children n) -> exists v, v < 8 /\ fst d = fst n ++ [v] /\ sub S (fst d) = Some (snd d)).
      { intros d I. pose proof (valid_children S n Sn d I) as X. destruct d as [q c]. apply children_in in I. destruct I as (v & V8 & _ & ->). exists v. auto. }
      pose proof (shares_descend S HS8 n Sn) as [D1 D2].
      split; [apply handed_descend; assumption|]. split; [intros a []|]. split; [|split; [|split]].
      * intros d I. destruct i2i eqn:E; [|destruct I]. destruct (Ch d I) as (v & _ & Ev & Sd). split; [assumption|]. rewrite Ev, app_length. cbn. split; [lia|]. unfold i2i in E. apply andb_true_iff in E. destruct E as [E _]. unfold level in E. rewrite idx_level in E. apply Z.leb_le in E. lia.
      * intros s. change (ocnt s []) with 0. pose proof (cnt_children_le _ s n). destruct i2i; [lia|]. change (cnt s []) with 0. lia.
      * intros s. specialize (D2 s). change (ocnt s []) with 0 in D2. lia.
      * intros s w W8 Hs. rewrite N0. specialize (D1 s Hs). change (ocnt s []) with 0 in D1 |- *. rewrite <- D1. cbn [Nat.add].
        destruct (is_leaf (snd n)) eqn:Lf'.
        -- assert (C : children n = []) by (apply children_nil; [exact (HS8 _ _ Sn)|assumption]). unfold descend. rewrite C. replace (if i2i then [] else []) with (@nil (path * tree A)) by (destruct i2i; reflexivity). cbn [filter].
           assert (N : nosk (p ++ [w]) n = true) by (unfold nosk; rewrite app_length; replace (length (fst n) =? length p + length [w]) with false by (symmetry; apply Nat.eqb_neq; cbn; lia); reflexivity). rewrite N. change (cnt s []) with 0. lia.
        -- assert (C : descend n = children n) by (unfold descend; destruct (children n) eqn:C; [apply children_nil in C; [congruence|exact (HS8 _ _ Sn)]|reflexivity]). rewrite C.
           assert (F : filter (nosk (p ++ [w])) (children n) = filter (fun d => negb (well_sep (idx_of (fst d)) (idx_of (p ++ [w])))) (children n)).
           { apply filter_ext_list. intros d I. destruct (Ch d I) as (v & _ & Ev & _). unfold nosk. rewrite Ev, !app_length, El. cbn [length]. rewrite Nat.eqb_refl. reflexivity. }
           rewrite F. destruct i2i eqn:E; [apply cnt_split|].
           assert (G : filter (fun d => negb (well_sep (idx_of (fst d)) (idx_of (p ++ [w])))) (children n) = children n).
           { apply filter_all. intros d I. destruct (Ch d I) as (v & V8 & Ev & Sd). apply negb_true_iff. unfold i2i in E. apply andb_false_iff in E. destruct E as [E|E].
             - unfold level in E. rewrite idx_level in E. apply Z.leb_gt in E. destruct (well_sep (idx_of (fst d)) (idx_of (p ++ [w]))) eqn:X; [|reflexivity]. exfalso. apply well_sep_apart in X.
               assert (p = []) by (destruct p; [reflexivity|cbn in E; lia]). subst p. apply apart_level in X.
               + rewrite Ev, idx_level, app_length, El in X. cbn in X. lia.
               + apply (idx_grid _ _ S HS8). rewrite Sd. discriminate.
               + apply follow_facts; [apply root_grid|]. constructor; [assumption|constructor].
               + rewrite Ev, !idx_level, !app_length, El. reflexivity.
             - rewrite !orb_false_iff, !negb_false_iff, !Z.eqb_eq in E. destruct E as [[E1 E2] E3]. rewrite Ev, !idx_snoc. apply siblings_near; assumption. }
           rewrite G. cbn [filter]. change (cnt s []) with 0. reflexivity.
Qed.

Lemma leaf97 : forall fuel p n, lower fuel S -> sub T p <> None -> sub S (fst n) = Some (snd n) -> length (fst n) <= length p -> (length (fst n) < length p -> is_leaf (snd n) = true) ->
  exists l, fmm97_leaf fuel p n = Ok l /\ (forall s, leaf_at S s -> ocnt s l = if nosk p n then cnt s [n] else 0) /\ (forall s, ocnt s l <= cnt s [n]) /\ forall a, In a l -> flink S p false a.
Proof.
  intros fuel p n Lo Tp Sn Le Lf. unfold fmm97_leaf. rewrite level_ltb. destruct (Nat.ltb_spec (length (fst n)) (length p)) as [L|L].
  - specialize (Lf L). assert (N0 : nosk p n = true) by (unfold nosk; replace (length (fst n) =? length p) with false by (symmetry; apply Nat.eqb_neq; lia); reflexivity). rewrite N0.
    destruct (well_sep_asym (idx_of p) (idx_of (fst n))) eqn:W; (eexists; split; [reflexivity|]; split; [|split]).
    + intros s _. eapply ocnt_link. reflexivity.
    + intros s. unfold do_StoL. rewrite (ocnt_link s n _ Parts) by reflexivity. lia.
    + intros a [<-|[]]. apply FL_StoL; [apply (leaf_iff _ _ _ _ HS8 Sn); assumption|assumption|]. apply asym_clear; [rewrite !idx_level; lia|assumption].
    + intros s _. eapply ocnt_link. reflexivity.
    + intros s. unfold do_StoT. rewrite (ocnt_link s n _ Parts) by reflexivity. lia.
    + intros a [<-|[]]. apply FL_StoT; [reflexivity|]. apply (leaf_iff _ _ _ _ HS8 Sn). assumption.
  - destruct (well_sep (idx_of (fst n)) (idx_of p)) eqn:W; cbn [negb].
    + exists []. split; [reflexivity|]. unfold nosk. replace (length (fst n) =? length p) with true by (symmetry; apply Nat.eqb_eq; lia). rewrite W. cbn. split; [reflexivity|]. split; [intros; cbn; lia|intros a []].
    + destruct (pcr_facts S T HS8 fuel p n) as (l & Hl & [S1 S2] & F); auto; [intros p' n' X; pose proof (lower_sub _ _ _ _ _ Lo Sn _ _ X); lia|]. exists l. split; [assumption|]. unfold nosk. rewrite W, andb_false_r. cbn [negb]. split; [|split; [|assumption]].
      * intros s Hs. specialize (S1 s Hs). change (cnt s []) with 0 in S1. lia.
      * intros s. specialize (S2 s). lia.
Qed.

Section Dag.
Context (fuel unif : nat) (same : bool).
Context (HSl : lower fuel S) (HTl : lower fuel T) (HSd : deep unif S) (HTd : deep unif T).
Let m := @fmm97 A B fuel.
Let ref n cons := refines m unif same n cons.
Definition itoi (p : path) (merge : list (path * tree A)) : list act := map (fun s => do_ItoI (tgt p) (src (fst s))) merge.
Definition pc97 (s p : path) (cons : list (path * tree A)) : nat := cnt s (filter (nosk p) cons).

Lemma itoi_ocnt : forall s p l, ocnt s (itoi p l) = cnt s l.
Proof. intros s p. induction l as [|x l IH]; [reflexivity|]. rewrite cnt_cons, <- IH. unfold itoi. cbn [map]. change (do_ItoI (tgt p) (src (fst x)) :: map (fun s0 : path * tree A => do_ItoI (tgt p) (src (fst s0))) l) with ([do_ItoI (tgt p) (src (fst x))] ++ itoi p l). rewrite ocnt_app. f_equal. eapply ocnt_link. reflexivity. Qed.
Lemma itoi_jcnt : forall s q p w l, prefix (p ++ [w]) q -> jcnt s q (itoi p l) = cnt s (filter (fun d => well_sep (idx_of (fst d)) (idx_of (p ++ [w]))) l).
Proof.
  intros s q p w l [r ->]. induction l as [|x l IH]; [reflexivity|].
  unfold itoi, jcnt. cbn [map filter]. assert (E : jcov s ((p ++ [w]) ++ r) (do_ItoI (tgt p) (src (fst x))) = prefixb (fst x) s && well_sep (idx_of (fst x)) (idx_of (p ++ [w]))).
  { unfold jcov, do_ItoI. cbn [efrom eto src tgt]. unfold src, tgt. f_equal. rewrite !app_length. cbn [length]. replace (length p <? length p + 1 + length r) with true by (symmetry; apply Nat.ltb_lt; lia). cbn [andb]. f_equal. f_equal. rewrite firstn_app, app_length. cbn [length]. replace (Datatypes.S (length p) - (length p + 1)) with 0 by lia. rewrite firstn_O, app_nil_r. apply firstn_all2. rewrite app_length. cbn. lia. }
  rewrite E. unfold jcnt, itoi in IH. destruct (prefixb (fst x) s) eqn:P, (well_sep (idx_of (fst x)) (idx_of (p ++ [w]))); cbn [andb]; try rewrite (cnt_cons _ s x), cnt_one, P; cbn [length]; rewrite IH; try reflexivity.
Qed.
Lemma flat_sum : forall X (f g h k : X -> nat) l, (forall x, In x l -> f x + g x + h x = k x) -> list_sum (map f l) + list_sum (map g l) + list_sum (map h l) = list_sum (map k l).
Proof. intros X f g h k. induction l as [|x l IH]; intros H; [reflexivity|]. cbn. pose proof (H x (or_introl eq_refl)). specialize (IH (fun y I => H y (or_intror I))). unfold list_sum in *. cbn. lia. Qed.
Lemma ocnt_flat : forall X s (f : X -> list act) l, ocnt s (flat_map f l) = list_sum (map (fun x => ocnt s (f x)) l).
Proof. intros X s f. induction l as [|x l IH]; [reflexivity|]. cbn [flat_map map]. rewrite ocnt_app, IH. reflexivity. Qed.
Lemma cnt_flat : forall X s (f : X -> list (path * tree A)) l, cnt s (flat_map f l) = list_sum (map (fun x => cnt s (f x)) l).
Proof. intros X s f. induction l as [|x l IH]; [reflexivity|]. cbn [flat_map map]. rewrite cnt_app, IH. reflexivity. Qed.
Lemma pc97_sum : forall s p l, pc97 s p l = list_sum (map (fun n => if nosk p n then cnt s [n] else 0) l).
Proof. intros s p. unfold pc97. induction l as [|x l IH]; [reflexivity|]. cbn [filter map]. destruct (nosk p x); [rewrite cnt_cons, IH; reflexivity|exact IH]. Qed.

Lemma fmm97_process : forall n cons, sub T (fst n) = Some (snd n) -> fmm_inv S n cons ->
  exists xs mg new, process m n cons (negb (ref n cons)) = Ok ((xs ++ (if negb (nil_list mg) then add_interm (tgt (fst n)) :: itoi (fst n) mg else [])) ++ (if negb (ref n cons) && lev2 (fst n) then [do_LtoT (tgt (fst n)) (tgt (fst n))] else []), new) /\
    (forall a, In a xs -> flink S (fst n) (ref n cons) a) /\
    (forall d, In d mg -> ref n cons = true /\ sub S (fst d) = Some (snd d) /\ length (fst d) = Datatypes.S (length (fst n)) /\ 1 <= length (fst n)) /\
    (forall s, ocnt s xs + cnt s mg <= cnt s cons) /\
    (ref n cons = false -> forall s, leaf_at S s -> ocnt s xs = pc97 s (fst n) cons) /\
    (ref n cons = true -> forall c, In c (children n) -> fmm_inv S c new) /\
    (ref n cons = true -> forall s w, w < 8 -> leaf_at S s -> ocnt s xs + cnt s (filter (fun d => well_sep (idx_of (fst d)) (idx_of (fst n ++ [w]))) mg) + pc97 s (fst n ++ [w]) new = pc97 s (fst n) cons).
Proof.
  intros n cons Sn Iv. pose proof Iv as [[V C] L]. assert (Tp : sub T (fst n) <> None) by (rewrite Sn; discriminate). unfold m, fmm97. cbn [process]. fold (lev2 (fst n)). destruct (ref n cons) eqn:R; cbn [negb andb].
  - set (f := fun s => fst (fst (fmm97_inner (fst n) s))). set (g := fun s => snd (fst (fmm97_inner (fst n) s))). set (h := fun s => snd (fmm97_inner (fst n) s)).
    exists (flat_map f cons), (flat_map h cons), (flat_map g cons).
    assert (F := fun x (I : In x cons) => inner97 (fst n) x Tp (V x I) (proj1 (L x I)) (proj2 (L x I))). cbn zeta in F.
    split; [rewrite app_nil_r; unfold f, g, h, itoi; destruct (flat_map (fun s => snd (fmm97_inner (fst n) s)) cons); reflexivity|]. split; [|split; [|split; [|split; [|split]]]].
    + intros a I. apply in_flat_map in I. destruct I as (x & I & J). apply (F x I). exact J.
    + intros d I. apply in_flat_map in I. destruct I as (x & I & J). split; [reflexivity|]. apply (F x I). exact J.
    + intros s. clear V C L Iv. revert F. generalize cons as l. induction l as [|x l IH]; intros F; [cbn; lia|]. cbn [flat_map]. rewrite ocnt_app, cnt_app, (cnt_cons _ s x l). destruct (F x (or_introl eq_refl)) as (_ & _ & _ & F4 & _). specialize (F4 s). specialize (IH (fun y I => F y (or_intror I))). unfold f, h in *. lia.
    + discriminate.
    + intros _ c I. destruct c as [q t]. apply children_in in I. destruct I as (w & _ & _ & ->). split; [split|].
      * intros x J. apply in_flat_map in J. destruct J as (y & J & K). destruct (F y J) as (F1 & _). apply (F1 _ K).
      * intros s. specialize (C s). enough (cnt s (flat_map g cons) <= cnt s cons) by lia. clear V C L Iv. revert F. generalize cons as l. induction l as [|x l IH]; intros F; [cbn; lia|]. cbn [flat_map]. rewrite cnt_app, (cnt_cons _ s x l). destruct (F x (or_introl eq_refl)) as (_ & _ & _ & _ & F5 & _). specialize (F5 s). specialize (IH (fun y I => F y (or_intror I))). unfold g in *. lia.
      * intros x J. apply in_flat_map in J. destruct J as (y & J & K). destruct (F y J) as (F1 & _). destruct (F1 _ K) as (_ & H1 & H2). cbn [fst]. rewrite app_length. cbn. rewrite Nat.add_1_r. auto.
    + intros _ s w W8 Hs. unfold pc97 at 1. rewrite !filter_flat_map', ocnt_flat, !cnt_flat, pc97_sum. apply flat_sum. intros x I. apply (F x I); assumption.
  - destruct (mapM_forall2 _ _ (fmm97_leaf fuel (fst n)) (fun n0 x => (forall s, leaf_at S s -> ocnt s x = if nosk (fst n) n0 then cnt s [n0] else 0) /\ (forall s, ocnt s x <= cnt s [n0]) /\ forall a, In a x -> flink S (fst n) false a) cons) as (r & Hr & Fr).
    { intros x I. apply (leaf97 fuel (fst n) x); auto; apply L; assumption. }
    exists (concat r), [], cons. rewrite Hr. cbn [bind nil_list negb]. split; [rewrite app_nil_r; reflexivity|]. split; [|split; [intros d []|split; [|split; [|split; discriminate]]]].
    + intros a I. apply in_concat in I. destruct I as (x & I & J). revert I J. clear - Fr. induction Fr as [|? ? ? ? (_ & _ & F) ? IH]; intros I J; [destruct I|]. destruct I as [->|I]; [apply F; assumption|apply IH; assumption].
    + intros s. change (cnt s []) with 0. clear - Fr. induction Fr as [|x y l l' (_ & F & _) Fr IH]; [cbn; lia|]. cbn [concat]. rewrite ocnt_app, (cnt_cons _ s x l). specialize (F s). lia.
    + intros _ s Hs. rewrite pc97_sum. clear - Fr Hs. induction Fr as [|x y l l' (F & _) Fr IH]; [reflexivity|]. cbn [concat map]. rewrite ocnt_app, (F s Hs), IH. reflexivity.
Qed.

(** The boxes merged are children of neighbours. *)
Lemma fmm97_near : forall n cons a2 new c, fmm_inv S n cons -> process m n cons false = Ok (a2, new) -> In (do_ItoI (tgt (fst n)) (src c)) a2 ->
  ~ apart (idx_of (parent_of c)) (idx_of (fst n)) /\ parent_of c <> fst n.
Proof.
  intros n cons a2 new c Iv P I. unfold m, fmm97 in P. cbn [process] in P. injection P as <- _. apply in_app_or in I. destruct I as [I|I].
  - exfalso. apply in_flat_map in I. destruct I as (x & _ & I). unfold fmm97_inner in I. destruct (_ <? _)%Z; [destruct (well_sep_asym _ _); [destruct I as [I|[]]; discriminate I|destruct I]|]. destruct (negb _); destruct I.
  - destruct (nil_list _); [destruct I|]. destruct I as [I|I]; [discriminate I|]. apply in_map_iff in I. destruct I as (d & Ed & I). injection Ed as Ed. subst c. apply in_flat_map in I. destruct I as (x & Ix & I).
    unfold fmm97_inner in I. destruct (_ <? _)%Z; [destruct (well_sep_asym _ _); destruct I|]. destruct (well_sep (idx_of (fst x)) (idx_of (fst n))) eqn:W; cbn [negb snd] in I; [destruct I|]. match type of I with In _ (if ?b then _ else _) => destruct b eqn:D end; [|destruct I].
    destruct d as [q t]. apply children_in in I. destruct I as (w & _ & _ & ->). cbn [fst]. rewrite parent_snoc. split.
    + intros Ap. apply well_sep_apart in Ap. congruence.
    + intros E. rewrite E in D. rewrite !Z.eqb_refl in D. cbn [negb orb] in D. rewrite andb_false_r in D. discriminate.
Qed.

(** ** Which level 2 targets receive anything *)
Lemma inner97_low : forall p n, sub T p <> None -> sub S (fst n) = Some (snd n) -> length (fst n) <= length p -> (length (fst n) < length p -> is_leaf (snd n) = true) -> length p < 2 ->
  shares S n (fst (fst (fmm97_inner p n))) (snd (fst (fmm97_inner p n))).
Proof.
  intros p n Tp Sn Le Lf L2. pose proof (idx_grid _ _ T HT8 Tp) as Gp. assert (Sc : sub S (fst n) <> None) by (rewrite Sn; discriminate). pose proof (idx_grid _ _ S HS8 Sc) as Gc. unfold fmm97_inner. rewrite level_ltb. destruct (Nat.ltb_spec (length (fst n)) (length p)) as [L|L].
  - destruct (well_sep_asym (idx_of p) (idx_of (fst n))) eqn:W; [|apply shares_keep]. exfalso. apply asym_clear in W; [|rewrite !idx_level; lia]. pose proof (clear_level _ _ Gp Gc W) as X. rewrite idx_level in X. lia.
  - destruct (well_sep (idx_of (fst n)) (idx_of p)) eqn:W; cbn [negb fst snd].
    + exfalso. apply well_sep_apart in W. pose proof (apart_level _ _ Gc Gp) as X. rewrite !idx_level in X. specialize (X ltac:(lia) W). lia.
    + apply shares_descend; assumption.
Qed.
Lemma fmm97_cover : forall n pi cons acc, vis m unif same S T n pi cons acc -> length (fst n) <= 2 -> fmm_inv S n cons /\ forall s, leaf_at S s -> cnt s cons = 1.
Proof.
  intros n pi cons acc H. unfold vis in H. pose proof H as G. induction H as [|n pi cons acc a2 cons' c H IH R P I]; intros L.
  - split; [apply fmm_inv_root|]. intros s _. rewrite cnt_one. reflexivity.
  - assert (Sn : sub T (fst n) = Some (snd n)) by (apply visited_sub in H; destruct H as (p & Ep & Sp); cbn in Ep, Sp; subst p; exact Sp). destruct c as [q t]. pose proof I as I0. apply children_in in I0. destruct I0 as (w & _ & _ & Eq). cbn [fst] in *. rewrite Eq, app_length in L. cbn in L.
    destruct (IH H) as [Iv Cv]; [lia|]. destruct (fmm97_process n cons Sn Iv) as (xs & mg & new & E & _ & _ & _ & _ & N & _). unfold ref in *. rewrite R in *. cbn [negb] in E. rewrite P in E. injection E as _ En. rewrite <- En in N. split; [apply N; [reflexivity|exact I]|]. clear N En new.
    unfold m, fmm97 in P. cbn [process] in P. injection P as _ <-. destruct Iv as [[V _] Lx]. assert (F : forall x, In x cons -> shares S x (fst (fst (fmm97_inner (fst n) x))) (snd (fst (fmm97_inner (fst n) x)))) by (intros x Ix; destruct (Lx x Ix); apply inner97_low; auto; [rewrite Sn; discriminate|lia]).
    assert (F0 : forall x, In x cons -> fst (fst (fmm97_inner (fst n) x)) = []).
    { intros x Ix. destruct (Lx x Ix). destruct (inner97 (fst n) x) as (_ & Fl & _); auto; [rewrite Sn; discriminate|]. destruct (fst (fst (fmm97_inner (fst n) x))) as [|a l]; [reflexivity|]. exfalso. apply (flink_low S T HS8 HT8 (fst n) a); [rewrite Sn; discriminate|lia|]. apply Fl. left. reflexivity. }
    destruct (shares_flat S cons (fun x => fst (fst (fmm97_inner (fst n) x))) (fun x => snd (fst (fmm97_inner (fst n) x))) F) as [F1 _].
    intros s Hs. specialize (F1 s Hs). rewrite (Cv s Hs) in F1. replace (flat_map (fun x => fst (fst (fmm97_inner (fst n) x))) cons) with (@nil act) in F1; [exact F1|]. symmetry. clear - F0. induction cons as [|x l IH]; [reflexivity|]. cbn [flat_map]. rewrite F0 by (left; reflexivity). apply IH. intros y I. apply F0. right. exact I.
Qed.
(** The merge list at a target of level 1. *)
Lemma merge_iff : forall n cons, sub T (fst n) = Some (snd n) -> fmm_inv S n cons -> (forall s, leaf_at S s -> cnt s cons = 1) -> length (fst n) = 1 ->
  (flat_map (fun s => snd (fmm97_inner (fst n) s)) cons <> [] <-> exists c, sub S c <> None /\ length c = 2 /\ parent_of c <> fst n).
Proof.
  intros n cons Sn Iv Cv Ln. pose proof Iv as [[V C] L]. assert (Tp : sub T (fst n) <> None) by (rewrite Sn; discriminate).
  assert (Near : forall x, In x cons -> length (fst x) = 1 -> well_sep (idx_of (fst x)) (idx_of (fst n)) = false).
  { intros x Ix Lx. destruct (well_sep (idx_of (fst x)) (idx_of (fst n))) eqn:W; [|reflexivity]. exfalso. apply well_sep_apart in W. assert (Sx : sub S (fst x) <> None) by (rewrite (V x Ix); discriminate). pose proof (apart_level _ _ (idx_grid _ _ S HS8 Sx) (idx_grid _ _ T HT8 Tp)) as X. rewrite !idx_level in X. specialize (X ltac:(lia) W). lia. }
  split.
  - intros H. destruct (flat_map (fun s => snd (fmm97_inner (fst n) s)) cons) as [|d l] eqn:F; [contradiction|]. assert (I : In d (flat_map (fun s => snd (fmm97_inner (fst n) s)) cons)) by (rewrite F; left; reflexivity). apply in_flat_map in I. destruct I as (x & Ix & Id).
    destruct (L x Ix) as [L1 L2]. unfold fmm97_inner in Id. rewrite level_ltb in Id. destruct (Nat.ltb_spec (length (fst x)) (length (fst n))) as [Q|Q]; [destruct (well_sep_asym (idx_of (fst n)) (idx_of (fst x))); destruct Id|]. rewrite Near in Id by (auto; lia). cbn [negb snd] in Id.
    match type of Id with context [if ?b then _ else _] => destruct b eqn:E end; [|destruct Id]. apply andb_true_iff in E. destruct E as [_ E]. pose proof (valid_children S x (V x Ix) d Id) as Sd. destruct d as [q t]. apply children_in in Id. destruct Id as (v & _ & _ & ->). cbn [fst snd] in Sd. exists (fst x ++ [v]). split; [rewrite Sd; discriminate|]. split; [rewrite app_length; cbn; lia|]. rewrite parent_snoc. intros Y. rewrite Y, !Z.eqb_refl in E. discriminate E.
  - intros (c & Sc & Lc & Pc). destruct (snoc_parent c) as [v W]; [intros ->; discriminate|]. set (x0 := parent_of c) in *. rewrite W in Sc. rewrite sub_app in Sc. destruct (sub S x0) as [tx|] eqn:Sx; [|contradiction]. assert (L0 : length x0 = 1) by (rewrite W, app_length in Lc; cbn in Lc; lia).
    destruct (cover_find S HS8 fuel n cons x0 HSl Iv Cv) as (x & Ix & Ex); [left; split; [rewrite Sx; discriminate|lia]|]. pose proof (V x Ix) as Vx. rewrite Ex, Sx in Vx. injection Vx as Vx.
    cbn in Sc. destruct (kid tx v) as [t|] eqn:K; [|contradiction]. assert (V8 : v < 8) by (eapply kid_lt8; [exact (HS8 _ _ Sx)|exact K]).
    assert (Id : In (x0 ++ [v], t) (children x)) by (apply children_in; exists v; rewrite Ex, <- Vx; auto).
    assert (J : In (x0 ++ [v], t) (flat_map (fun s => snd (fmm97_inner (fst n) s)) cons)); [|intros F; rewrite F in J; destruct J].
    apply in_flat_map. exists x. split; [assumption|]. unfold fmm97_inner. rewrite level_ltb, Ex, L0, Ln, Nat.ltb_irrefl. pose proof (Near x Ix) as Nr. rewrite Ex in Nr. rewrite Nr by assumption. cbn [negb snd]. match goal with |- In _ (if ?b then _ else _) => replace b with true; [exact Id|] end. symmetry. apply andb_true_iff. split; [unfold level; rewrite idx_level, Ln; reflexivity|].
    destruct (Z.eqb_spec (ix (idx_of x0)) (ix (idx_of (fst n)))) as [E1|]; [|reflexivity]. destruct (Z.eqb_spec (iy (idx_of x0)) (iy (idx_of (fst n)))) as [E2|]; [|reflexivity]. destruct (Z.eqb_spec (iz (idx_of x0)) (iz (idx_of (fst n)))) as [E3|]; [|reflexivity]. exfalso. apply Pc.
    destruct (sub T (fst n)) as [tn|] eqn:St; [|discriminate Sn]. apply (follow_inj x0 (fst n) root_index root_grid); [eapply path_lt8; [exact HS8|exact Sx]|eapply path_lt8; [exact HT8|exact St]|lia|]. fold (idx_of x0). fold (idx_of (fst n)). pose proof (idx_level x0) as Lx. pose proof (idx_level (fst n)) as Lp. clear - E1 E2 E3 Lx Lp L0 Ln. rewrite L0 in Lx. rewrite Ln in Lp. revert E1 E2 E3 Lx Lp. destruct (idx_of x0), (idx_of (fst n)). cbn. intros. subst. reflexivity.
Qed.
Lemma fmm97_pi : forall n pi cons acc, vis m unif same S T n pi cons acc -> length (fst n) = 2 -> (pi = true <-> exists c, sub S c <> None /\ length c = 2 /\ parent_of c <> parent_of (fst n)).
Proof.
  intros n pi cons acc H. unfold vis in H. destruct H as [|n pi cons acc a2 cons' c H R P I]; intros L; [discriminate L|].
  assert (Sn : sub T (fst n) = Some (snd n)) by (apply visited_sub in H; destruct H as (p & Ep & Sp); cbn in Ep, Sp; subst p; exact Sp). destruct c as [q t]. apply children_in in I. destruct I as (w & _ & _ & ->). cbn [fst] in *. rewrite app_length in L. cbn in L. rewrite parent_snoc.
  destruct (fmm97_cover n pi cons acc H) as [Iv Cv]; [lia|]. rewrite <- (merge_iff n cons Sn Iv Cv) by lia. unfold m, fmm97 in P. cbn [process] in P. injection P as <- _. set (mg := flat_map (fun s => snd (fmm97_inner (fst n) s)) cons). unfold target_acts. unfold m at 1. rewrite fmm97_inherit. rewrite !existsb_app.
  assert (X1 : forall b, existsb (is_add_interm (fst n)) (inh lev2 (fst n) pi b) = false).
  { intros b. unfold inh. replace (lev2 (fst n)) with false by (symmetry; destruct (lev2 (fst n)) eqn:X; [apply lev2_iff in X; lia|reflexivity]). rewrite app_nil_r. destruct b; [|reflexivity]. cbn [existsb is_add_interm add_parts add_interm orb]. match goal with |- context [dnode_dec ?u ?v] => destruct (dnode_dec u v) as [Y|]; [discriminate Y|reflexivity] end. }
  assert (X2 : existsb (is_add_interm (fst n)) (flat_map (fun s => fst (fst (fmm97_inner (fst n) s))) cons) = false).
  { destruct (existsb _ _) eqn:X; [|reflexivity]. apply existsb_exists in X. destruct X as (a & J & K). apply in_flat_map in J. destruct J as (x & J & J'). destruct Iv as [[V _] Lx]. destruct (Lx x J). destruct (inner97 (fst n) x) as (_ & Fl & _); auto; [rewrite Sn; discriminate|]. destruct (Fl a J'); discriminate K. }
  unfold refines in *. match goal with |- context [inh lev2 (fst n) pi ?b] => rewrite (X1 b) end. rewrite X2. cbn [orb]. destruct mg as [|d mg']; cbn [nil_list].
  - cbn. split; [discriminate|intros Y; contradiction].
  - cbn [existsb is_add_interm add_parts add_interm orb]. match goal with |- context [dnode_dec ?u ?v] => destruct (dnode_dec u v) as [|Y]; [|contradiction Y; reflexivity] end. split; [discriminate|reflexivity].
Qed.
Lemma fmm97_far : forall n cons a2 c', sub T (fst n) = Some (snd n) -> fmm_inv S n cons -> (forall s, leaf_at S s -> cnt s cons = 1) -> process m n cons (negb (ref n cons)) = Ok (a2, c') ->
  (exists c, leaf_at S c /\ length c < length (fst n) /\ clear_of (idx_of (fst n)) (idx_of c)) -> exists e, In (Link e) a2 /\ eto e = (tgt (fst n), Normal).
Proof.
  intros n cons a2 c' Sn Iv Cv P (c & Hc & Lc & Cl). destruct (cover_find S HS8 fuel n cons c HSl Iv Cv) as (x & I & <-); [auto|]. apply asym_clear in Cl; [|rewrite !idx_level; lia].
  assert (Lb : length (fst x) <? length (fst n) = true) by (apply Nat.ltb_lt; assumption). unfold m, fmm97 in P. cbn [process] in P. eexists. split; [|shelve]. destruct (negb (ref n cons)).
  - destruct (mapM (fmm97_leaf fuel (fst n)) cons) as [l|] eqn:M; [|discriminate P]. cbn [bind] in P. injection P as <- _. apply in_or_app. left. apply (mapM_concat_in _ _ _ _ _ M). eexists x, _. split; [exact I|]. unfold fmm97_leaf. rewrite level_ltb, Lb, Cl. split; [reflexivity|]. left. reflexivity.
  - injection P as <- _. apply in_or_app. left. apply in_flat_map. exists x. split; [exact I|]. unfold fmm97_inner. rewrite level_ltb, Lb, Cl. left. reflexivity.
  Unshelve. reflexivity.
Qed.
Lemma apart_parents : forall c p, length c = length p -> c <> [] -> apart (idx_of c) (idx_of p) -> parent_of c <> parent_of p.
Proof.
  intros c p L N Ap E. destruct (snoc_parent c N) as [v V]. destruct (snoc_parent p) as [w W]; [intros ->; destruct c; [contradiction|discriminate]|]. rewrite V, W, E, !idx_snoc in Ap. apply well_sep_apart in Ap. rewrite siblings_near in Ap by reflexivity. discriminate.
Qed.

Lemma jcnt_ltot : forall s q (b : bool) p, jcnt s q (if b then [do_LtoT (tgt p) (tgt p)] else []) = 0.
Proof. intros s q [|] p; reflexivity. Qed.
Lemma jcnt_interm : forall s q p mg, jcnt s q (if negb (nil_list mg) then add_interm (tgt p) :: itoi p mg else []) = jcnt s q (itoi p mg).
Proof. intros s q p [|x l]; reflexivity. Qed.

Theorem fmm97_dag_full : exists ss tt, create_dag m unif same fuel S T = Ok (ss, tt) /\
  (forall q, stops (ss ++ tt) q <-> exists n pi cons acc, vis m unif same S T n pi cons acc /\ fst n = q /\ refines m unif same n cons = false) /\
  (forall n pi cons acc, vis m unif same S T n pi cons acc -> sub T (fst n) = Some (snd n) /\ fmm_inv S n cons) /\
  (forall e, In e (all_edges (ss ++ tt)) <-> (exists p n, sub S p = Some n /\ slink lev2 lev2 p n e) \/
     (exists n pi cons a2 c', (exists acc, vis m unif same S T n pi cons acc) /\ fmm_inv S n cons /\ process m n cons (negb (refines m unif same n cons)) = Ok (a2, c') /\ In (Link e) (target_acts m unif same n pi cons a2))) /\
  good_dag S T (ss ++ tt) /\
  (forall e, In e (all_edges (ss ++ tt)) -> shape e) /\
  (forall x, In x (all_adds (ss ++ tt)) -> is_start S x \/ (fed (ss ++ tt) x <-> forall p, x = (tgt p, Normal) -> length p = 2 -> far_source97 S p)) /\
  (forall e, In e (all_edges (ss ++ tt)) -> (exists p n, sub S p = Some n /\ slink lev2 lev2 p n e) \/
     (exists p pi rf, sub T p <> None /\ (rf = false -> stops (ss ++ tt) p) /\
        (length p = 2 -> pi = true -> exists c, sub S c <> None /\ length c = 2 /\ parent_of c <> parent_of p) /\
        (In (Link e) (inh lev2 p pi (negb rf)) \/ flink S p rf (Link e) \/ (rf = false /\ lev2 p = true /\ e = LtoT_ p) \/
         (rf = true /\ exists c, sub S c <> None /\ length c = Datatypes.S (length p) /\ (~ apart (idx_of (parent_of c)) (idx_of p) /\ parent_of c <> p /\ sub T p <> None) /\ Link e = do_ItoI (tgt p) (src c))))).
Proof.
  destruct (assemble m unif same fuel S T lev2 lev2 lev2 true HS8 HT8 HSl HTl HSd HTd) with (Inv := fmm_inv S (B := B)) (pc := pc97) as (ss & tt & Hc & G & Sh & Ed & St & Vi & Ad & Fe); auto.
  - intros p w. apply lev2_snoc.
  - intros p w. apply lev2_snoc.
  - intros. apply fmm97_source.
  - apply fmm_inv_root.
  - intros n cons a2 cons' c Sn Iv R P I. destruct (fmm97_process n cons Sn Iv) as (xs & mg & new & E & _ & _ & _ & _ & N & _). unfold ref in *. rewrite R in *. cbn [negb] in E. rewrite P in E. injection E as _ <-. apply N; [reflexivity|assumption].
  - intros n pi cons a2 cons' Sn Iv P Hp1 Hp2 Hp3. destruct (fmm97_process n cons Sn Iv) as (xs & mg & new & E & Fl & Mg & Ct & _). unfold ref in *. rewrite P in E. injection E as -> <-. exists xs, (itoi (fst n) mg), (negb (nil_list mg)). split; [|reflexivity]. constructor.
    + unfold target_acts. unfold m at 1. rewrite fmm97_inherit. reflexivity.
    + intros X. destruct mg as [|d mg]; [discriminate|]. destruct (Mg d (or_introl eq_refl)) as (R & _ & _ & L1). split; [exact R|]. intros w. apply lev2_iff. rewrite app_length. cbn. lia.
    + intros a I. apply (flink_tlink S T HS8 HT8); [rewrite Sn; discriminate|]. apply Fl. assumption.
    + intros a I. unfold itoi in I. apply in_map_iff in I. destruct I as (d & <- & I). split; [destruct mg; [destruct I|reflexivity]|]. destruct (Mg d I) as (_ & Sd & Ld & L1). exists (fst d). split; [reflexivity|]. split; [rewrite Sd; discriminate|]. apply lev2_iff. lia.
    + intros s. rewrite ocnt_app, itoi_ocnt. specialize (Ct s). destruct Iv as [[_ C] _]. specialize (C s). lia.
    + intros X. destruct mg; discriminate.
  - intros n cons Sn Iv. destruct (fmm97_process n cons Sn Iv) as (xs & mg & new & E & _). eauto.
  - intros n pi cons a2 cons' Sn Iv R P s q c Hs I Pq. destruct c as [qc t]. apply children_in in I. destruct I as (w & W8 & _ & ->). cbn [fst] in *. destruct (fmm97_process n cons Sn Iv) as (xs & mg & new & E & Fl & Mg & Ct & _ & _ & Eq). unfold ref in *. rewrite R in *. cbn [negb] in E. rewrite P in E. injection E as -> <-. unfold target_acts. rewrite R. unfold m. rewrite fmm97_inherit.
    rewrite !jcnt_app, inh_jcnt, jcnt_interm, (itoi_jcnt _ _ _ _ _ Pq), (jcnt_ocnt _ _ xs) by (intros a I; eapply flink_cross; exact (Fl a I)). rewrite <- (Eq eq_refl s w W8 Hs). change (jcnt s q []) with 0. lia.
  - intros n pi cons a2 cons' s Sn Iv R P Hs. destruct (fmm97_process n cons Sn Iv) as (xs & mg & new & E & Fl & Mg & Ct & Eq & _). unfold ref in *. rewrite R in *. cbn [negb] in E. rewrite P in E. injection E as -> <-. unfold target_acts. rewrite R. unfold m. rewrite fmm97_inherit.
    rewrite !jcnt_app, inh_jcnt, jcnt_ltot, jcnt_interm, (jcnt_ocnt _ _ xs) by (intros a I; eapply flink_cross; exact (Fl a I)). rewrite <- (Eq eq_refl s Hs). destruct mg as [|d mg]; [cbn; lia|]. destruct (Mg d (or_introl eq_refl)) as (X & _). discriminate X.
  - exists ss, tt. split; [assumption|]. split; [exact St|]. split; [intros n pi cons acc V; destruct (Vi _ _ _ _ V) as (V1 & V2 & _); auto|]. split; [exact Ed|]. split; [assumption|]. split; [assumption|].
    match goal with |- _ /\ ?G => assert (Eg : G) end; [|split; [|exact Eg]].
    2: { intros x Ix. destruct (Fe x Ix) as [H|H]; [left; exact H|right]. split.
      - intros (e & Ie & Et) p -> Lp. destruct (Eg e Ie) as [(p' & n' & _ & Hs)|(p' & pi & rf & Tp & _ & Hpi & [J|[J|[(_ & _ & ->)|(_ & c & _ & _ & _ & J)]]])].
        + destruct Hs as [(-> & _)|[(w & _ & -> & _)|(-> & _)]]; discriminate Et.
        + unfold inh in J. apply in_app_or in J. destruct J as [J|J]; [destruct (negb rf); [destruct J as [J|[]]; discriminate J|destruct J]|]. destruct (lev2 p') eqn:L2; [|destruct J]. destruct J as [J|J]; [discriminate J|]. apply in_app_or in J. destruct J as [J|J].
          * destruct pi; [|destruct J]. destruct J as [J|[]]. injection J as <-. cbn [eto] in Et. injection Et as <-. left. destruct (Hpi Lp eq_refl) as (c & Sc & Lc & Pc). exists c. rewrite Lp. auto.
          * destruct p' as [|y r]; [destruct J|]. destruct (lev2 (parent_of (y :: r))) eqn:L3; [|destruct J]. destruct J as [J|[]]. injection J as <-. cbn [eto] in Et. injection Et as <-. exfalso. apply lev2_iff in L3. destruct (snoc_parent (y :: r)) as [w W]; [discriminate|]. rewrite W, app_length in Lp. cbn [length] in Lp. lia.
        + destruct (flink_normal _ _ _ _ _ J Et) as [-> [(c & Sc & Lc & Ap)|Hf]]; [left|right; exact Hf]. exists c. split; [exact Sc|]. split; [exact Lc|]. apply apart_parents; auto. intros ->. cbn in Lc. lia.
        + discriminate Et.
        + injection J as ->. discriminate Et.
      - intros Hf. destruct H as [H|(n & pi & cons & acc & V & -> & L2 & Pi & Pa)]; [exact H|]. destruct (Vi _ _ _ _ V) as (Sn & Iv & _). apply lev2_iff in L2.
        assert (Ln : length (fst n) = 2).
        { destruct (fst n) as [|y r] eqn:En; [cbn in L2; lia|]. destruct (snoc_parent (y :: r)) as [w W]; [discriminate|]. specialize (Pa _ _ W). rewrite W, app_length in L2 |- *. cbn [length] in *. destruct (lev2 (parent_of (y :: r))) eqn:L3; [discriminate Pa|]. destruct (Nat.le_gt_cases 2 (length (parent_of (y :: r)))) as [X|X]; [apply lev2_iff in X; congruence|lia]. }
        destruct (fmm97_cover n pi cons acc V) as [_ Cv]; [lia|]. destruct (fmm97_process n cons Sn Iv) as (xs & mg & new & E & _). destruct (Hf _ eq_refl Ln) as [(c & Sc & Lc & Pc)|Hf2].
        + exfalso. assert (X : pi = true) by (apply (fmm97_pi n pi cons acc V Ln); exists c; rewrite <- Ln; auto). congruence.
        + destruct (fmm97_far n cons _ _ Sn Iv Cv E Hf2) as (e & Ie & Et). exists e. split; [|exact Et]. apply Ed. right. eexists n, pi, cons, _, _. split; [exists acc; exact V|]. split; [exact Iv|]. split; [exact E|]. unfold target_acts. apply in_or_app. right. exact Ie. }
    intros e I. apply Ed in I. destruct I as [I|(n & pi & cons & a2 & c' & (acc & V) & Iv & P & J)]; [left; exact I|]. right. destruct (Vi _ _ _ _ V) as (Sn & _). destruct (fmm97_process n cons Sn Iv) as (xs & mg & new & E & Fl & Mg & _). unfold ref in *. rewrite P in E. injection E as -> <-.
    exists (fst n), pi, (refines m unif same n cons). split; [rewrite Sn; discriminate|]. split; [intros R; apply St; exists n, pi, cons, acc; auto|]. split; [intros Ln Pi; apply (fmm97_pi n pi cons acc V Ln); exact Pi|]. unfold target_acts in J. unfold m in J at 1. rewrite fmm97_inherit in J. apply in_app_or in J. destruct J as [J|J]; [left; exact J|]. apply in_app_or in J. destruct J as [J|J].
    + apply in_app_or in J. destruct J as [J|J]; [right; left; apply Fl; exact J|]. right. right. right. destruct mg as [|d0 mg0] eqn:Em; [destruct J|]. rewrite <- Em in *. replace (negb (nil_list mg)) with true in J by (rewrite Em; reflexivity). destruct J as [J|J]; [discriminate J|]. unfold itoi in J. apply in_map_iff in J. destruct J as (d & J & K). destruct (Mg d K) as (R & Sd & Ld & _). split; [exact R|]. exists (fst d). split; [rewrite Sd; discriminate|]. split; [exact Ld|]. split; [|symmetry; exact J]. rewrite R in P. cbn [negb] in P. destruct (fmm97_near n cons _ _ (fst d) Iv P) as [N1 N2]; [unfold itoi; apply in_or_app; left; apply in_or_app; right; rewrite Em; cbn [nil_list negb]; right; rewrite <- Em; apply in_map_iff; exists d; auto|]. split; [exact N1|]. split; [exact N2|rewrite Sn; discriminate].
    + right. right. left. destruct (refines m unif same n cons); [destruct J|]. cbn [negb andb] in J. destruct (lev2 (fst n)) eqn:L2; [|destruct J]. destruct J as [J|[]]. injection J as <-. auto.
Qed.
Theorem fmm97_dag : exists ss tt, create_dag m unif same fuel S T = Ok (ss, tt) /\ good_dag S T (ss ++ tt) /\
  (forall e, In e (all_edges (ss ++ tt)) -> shape e) /\
  (forall x, In x (all_adds (ss ++ tt)) -> is_start S x \/ (fed (ss ++ tt) x <-> forall p, x = (tgt p, Normal) -> length p = 2 -> far_source97 S p)) /\
  (forall e, In e (all_edges (ss ++ tt)) -> (exists p n, sub S p = Some n /\ slink lev2 lev2 p n e) \/
     (exists p pi rf, sub T p <> None /\ (rf = false -> stops (ss ++ tt) p) /\
        (length p = 2 -> pi = true -> exists c, sub S c <> None /\ length c = 2 /\ parent_of c <> parent_of p) /\
        (In (Link e) (inh lev2 p pi (negb rf)) \/ flink S p rf (Link e) \/ (rf = false /\ lev2 p = true /\ e = LtoT_ p) \/
         (rf = true /\ exists c, sub S c <> None /\ length c = Datatypes.S (length p) /\ (~ apart (idx_of (parent_of c)) (idx_of p) /\ parent_of c <> p /\ sub T p <> None) /\ Link e = do_ItoI (tgt p) (src c))))).
Proof. destruct fmm97_dag_full as (ss & tt & Hc & _ & _ & _ & R). exists ss, tt. auto. Qed.
End Dag.
End Fmm97.
