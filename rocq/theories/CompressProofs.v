From Coq Require Import ZArith List Bool Arith Lia.
From Verif Require Import Base ListFacts IndexModel TreeModel TreeFacts CompressModel CompressSpec.
Import ListNotations.
Open Scope nat_scope.

Section Proofs.
Context {A : Type} (idx : A -> index).

(** ** Counting *)
Definition total_nodes (V : list (tree A)) : nat := length (flat_map nodes V).

Lemma total_app : forall U V, total_nodes (U ++ V) = total_nodes U + total_nodes V.
Proof. intros. unfold total_nodes. rewrite flat_map_app, app_length. reflexivity. Qed.

Lemma present_kids : forall t : tree A, length (kids t) = 8 -> present t = flat_map (fun o => match o with Some c => [c] | None => [] end) (kids t).
Proof.
  intros [a cs] L. cbn [kids] in L. do 8 (destruct cs as [|? cs]; [discriminate|]). destruct cs; [|discriminate]. unfold present, kid. cbn [seq flat_map kids nth_error].
  assert (X : forall o : option (tree A), match match o with Some c => Some c | None => None end with Some c => [c] | None => [] end = match o with Some c => [c] | None => [] end) by (intros [c|]; reflexivity).
  rewrite !X. reflexivity.
Qed.

Lemma nodes_present : forall t : tree A, length (kids t) = 8 -> length (nodes t) = 1 + total_nodes (present t).
Proof.
  intros t L. rewrite present_kids by assumption. destruct t as [a cs]. cbn [nodes length kids]. f_equal. unfold total_nodes. clear L.
  induction cs as [|[c|] cs IH]; cbn [flat_map]; [reflexivity| |assumption]. rewrite flat_map_app, !app_length. cbn [flat_map]. rewrite app_nil_r. lia.
Qed.

Lemma in_present : forall (t c : tree A), In c (present t) -> exists w, w < 8 /\ kid t w = Some c.
Proof.
  intros t c H. apply in_flat_map in H. destruct H as (w & Hw & H). apply in_seq in Hw. destruct (kid t w) as [d|] eqn:K; [|contradiction]. destruct H as [->|[]]. exists w. split; [lia|assumption].
Qed.

Lemma total_step : forall V : list (tree A), (forall v, In v V -> indexed idx v) -> total_nodes V = length V + total_nodes (flat_map present V).
Proof.
  induction V as [|v V IH]; intros H; [reflexivity|]. change (v :: V) with ([v] ++ V). rewrite total_app, flat_map_app, total_app, app_length, IH by (intros; apply H; right; assumption).
  unfold total_nodes at 1. cbn [flat_map]. rewrite !app_nil_r. destruct (H v (or_introl eq_refl) [] v eq_refl) as [L _]. rewrite (nodes_present v L). cbn [length]. lia.
Qed.

Lemma indexed_present : forall V : list (tree A), (forall v, In v V -> indexed idx v) -> forall v, In v (flat_map present V) -> indexed idx v.
Proof.
  intros V H v Hv. apply in_flat_map in Hv. destruct Hv as (u & Hu & Hv). apply in_present in Hv. destruct Hv as (w & _ & K). eapply indexed_kid; [apply H; exact Hu|exact K].
Qed.

Lemma count_ok : forall fuel (V : list (tree A)) c, (forall v, In v V -> indexed idx v) -> total_nodes V <= fuel -> count_loop fuel V c = Ok (c + Z.of_nat (total_nodes V))%Z.
Proof.
  induction fuel as [|fuel IH]; intros V c H F; destruct V as [|v V]; try (cbn; f_equal; unfold total_nodes; cbn; lia).
  - rewrite total_step in F by assumption. cbn in F. lia.
  - cbn [count_loop]. rewrite (total_step (v :: V)) in * by assumption. rewrite IH; [f_equal; lia|apply indexed_present; assumption|cbn [length] in F; lia].
Qed.

(** ** The order in which compress writes *)
Definition ent : Type := tree A * nat * Z * list nat.
Definition ent_w (e : ent) : nat := let '(_, w, _, _) := e in w.
Definition ent_ref (e : ent) : Z := let '(_, _, r, _) := e in r.
Definition ent_path (e : ent) : list nat := let '(_, _, _, p) := e in p.
Definition ent_t (e : ent) : tree A := let '(c, _, _, _) := e in c.

Definition slotE (v : tree A * Z * list nat) (j : nat) : list ent :=
  let '(t, r, p) := v in match kid t j with Some c => [(c, j, r, p ++ [j])] | None => [] end.
Definition levelE (V : list (tree A * Z * list nat)) : list ent := flat_map (fun v => flat_map (slotE v) (seq 0 8)) V.
Fixpoint renumber (k : Z) (E : list ent) : list (tree A * Z * list nat) :=
  match E with [] => [] | e :: E' => (ent_t e, k, ent_path e) :: renumber (k + 1) E' end.
Fixpoint bfs (fuel : nat) (V : list (tree A * Z * list nat)) (k : Z) : list ent :=
  match V with
  | [] => []
  | _ => match fuel with O => [] | S fuel' => levelE V ++ bfs fuel' (renumber k (levelE V)) (k + Z.of_nat (length (levelE V))) end
  end.

Definition strip (V : list (tree A * Z * list nat)) : list (tree A * Z) := map (fun v => (fst (fst v), snd (fst v))) V.

Lemma renumber_app : forall E F k, renumber k (E ++ F) = renumber k E ++ renumber (k + Z.of_nat (length E)) F.
Proof. induction E as [|e E IH]; intros F k; cbn [renumber app length]; [rewrite Z.add_0_r; reflexivity|]. rewrite IH. replace (k + 1 + Z.of_nat (length E))%Z with (k + Z.of_nat (S (length E)))%Z by lia. reflexivity. Qed.

Lemma renumber_nth : forall E k i v, nth_error (renumber k E) i = Some v -> exists e, nth_error E i = Some e /\ v = (ent_t e, (k + Z.of_nat i)%Z, ent_path e).
Proof.
  induction E as [|e E IH]; intros k i v H; [destruct i; discriminate|]. destruct i as [|i]; cbn [renumber nth_error] in H.
  - apply some_inj in H. exists e. split; [reflexivity|]. rewrite <- H. replace (k + Z.of_nat 0)%Z with k by lia. reflexivity.
  - apply IH in H. destruct H as (e' & E' & ->). exists e'. split; [assumption|]. replace (k + Z.of_nat (S i))%Z with (k + 1 + Z.of_nat i)%Z by lia. reflexivity.
Qed.

Lemma renumber_paths : forall E k, map snd (renumber k E) = map ent_path E.
Proof. induction E as [|e E IH]; intros k; cbn; [reflexivity|]. rewrite IH. reflexivity. Qed.

Lemma renumber_trees : forall E k, map (fun v => fst (fst v)) (renumber k E) = map ent_t E.
Proof. induction E as [|e E IH]; intros k; cbn; [reflexivity|]. rewrite IH. reflexivity. Qed.

(** The state after writing entries [E] at [k]. *)
Definition writes (s s' : cstate) (E : list ent) : Prop :=
  exists bp br tp tr, c_branch s = bp ++ br /\ c_tree s = tp ++ tr /\ length bp = Z.to_nat (c_curr s) /\ length tp = Z.to_nat (c_curr s) /\ (0 <= c_curr s)%Z /\
    c_branch s' = bp ++ map (fun e => Z.of_nat (ent_w e)) E ++ skipn (length E) br /\
    c_tree s' = tp ++ map ent_ref E ++ skipn (length E) tr /\
    c_curr s' = (c_curr s + Z.of_nat (length E))%Z /\ c_next s' = c_next s ++ strip (renumber (c_curr s) E).

Definition room (s : cstate (A := A)) (n : nat) : Prop := (0 <= c_curr s)%Z /\ (c_curr s + Z.of_nat n <= Z.of_nat (length (c_branch s)))%Z /\ (c_curr s + Z.of_nat n <= Z.of_nat (length (c_tree s)))%Z.

Lemma writes_nil : forall s, room s 0 -> writes s s [].
Proof.
  intros s (H0 & H1 & H2). exists (firstn (Z.to_nat (c_curr s)) (c_branch s)), (skipn (Z.to_nat (c_curr s)) (c_branch s)), (firstn (Z.to_nat (c_curr s)) (c_tree s)), (skipn (Z.to_nat (c_curr s)) (c_tree s)).
  unfold strip. cbn [map length app skipn renumber]. rewrite !firstn_skipn, !firstn_length, app_nil_r. repeat split; lia.
Qed.

Lemma skipn_add : forall T a b (l : list T), skipn a (skipn b l) = skipn (b + a) l.
Proof. intros T a b l. revert l. induction b as [|b IH]; intros l; [reflexivity|]. destruct l; cbn; [apply skipn_nil|apply IH]. Qed.

Lemma writes_app : forall s s1 s2 E F, writes s s1 E -> writes s1 s2 F -> (Z.of_nat (length E) + c_curr s <= Z.of_nat (length (c_branch s)))%Z ->
  (Z.of_nat (length E) + c_curr s <= Z.of_nat (length (c_tree s)))%Z -> writes s s2 (E ++ F).
Proof.
  intros s s1 s2 E F (bp & br & tp & tr & B & T & Lb & Lt & P & B1 & T1 & K1 & N1) (bp' & br' & tp' & tr' & B' & T' & Lb' & Lt' & P' & B2 & T2 & K2 & N2) H1 H2.
  rewrite B, app_length in H1. rewrite T, app_length in H2. rewrite K1 in *.
  assert (Eb : bp' = bp ++ map (fun e => Z.of_nat (ent_w e)) E /\ br' = skipn (length E) br).
  { rewrite B1, app_assoc in B'.
    assert (L : length (bp ++ map (fun e => Z.of_nat (ent_w e)) E) = length bp') by (rewrite app_length, map_length; lia).
    revert B' L. generalize (bp ++ map (fun e => Z.of_nat (ent_w e)) E) as x. generalize (skipn (length E) br) as y. clear. intros y x. revert bp'. induction x as [|a x IH]; intros [|b bp'] H L; try discriminate; [auto|].
    cbn in H. inversion H; subst. destruct (IH bp' H2 ltac:(cbn in L; lia)). subst. auto. }
  assert (Et : tp' = tp ++ map ent_ref E /\ tr' = skipn (length E) tr).
  { rewrite T1, app_assoc in T'. 
    assert (L : length (tp ++ map ent_ref E) = length tp') by (rewrite app_length, map_length; lia).
    revert T' L. generalize (tp ++ map ent_ref E) as x. generalize (skipn (length E) tr) as y. clear. intros y x. revert tp'. induction x as [|a x IH]; intros [|b bp'] H L; try discriminate; [auto|].
    cbn in H. inversion H; subst. destruct (IH bp' H2 ltac:(cbn in L; lia)). subst. auto. }
  destruct Eb as [-> ->]. destruct Et as [-> ->]. exists bp, br, tp, tr. rewrite !map_app, app_length.
  split; [assumption|]. split; [assumption|]. split; [assumption|]. split; [assumption|]. split; [assumption|].
  rewrite B2, T2, K2, N2, N1, renumber_app. unfold strip. rewrite map_app, !skipn_add, <- !app_assoc. repeat split. lia.
Qed.

Lemma writes_room : forall s s1 E n, writes s s1 E -> room s (length E + n) -> room s1 n.
Proof.
  intros s s1 E n (bp & br & tp & tr & B & T & Lb & Lt & P & B1 & T1 & K1 & N1) (R0 & R1 & R2). rewrite B, app_length in R1. rewrite T, app_length in R2. unfold room. rewrite B1, T1, K1, !app_length, !map_length, !skipn_length. lia.
Qed.

Lemma slot_ok : forall t r p s j, room s (length (slotE (t, r, p) j)) -> exists s', compress_slot t r s j = Ok s' /\ writes s s' (slotE (t, r, p) j).
Proof.
  intros t r p s j HR. unfold compress_slot, slotE in *. destruct (kid t j) as [c|]; [|exists s; split; [reflexivity|]; apply writes_nil; assumption].
  destruct HR as (R0 & R1 & R2). cbn [length] in *. rewrite set_resZ_ok by lia. cbn [bind]. rewrite set_resZ_ok by lia. cbn [bind]. eexists. split; [reflexivity|].
  destruct (nth_error_lt _ (c_branch s) (Z.to_nat (c_curr s)) ltac:(lia)) as [b0 Eb]. destruct (nth_error_lt _ (c_tree s) (Z.to_nat (c_curr s)) ltac:(lia)) as [t0 Et].
  apply nth_error_split in Eb. destruct Eb as (bp & br & Eb & Lb). apply nth_error_split in Et. destruct Et as (tp & tr & Et & Lt).
  exists bp, (b0 :: br), tp, (t0 :: tr). cbn [c_branch c_tree c_curr c_next map length ent_w ent_ref app renumber strip skipn].
  rewrite Eb, Et, <- Lb. rewrite Lb, <- Lt. rewrite Lt, <- Lb.
  assert (U : forall (T : Type) (l : list T) x y m, upd (l ++ x :: m) (length l) y = l ++ y :: m). { intros T l x y m. induction l as [|a l IH]; [reflexivity|]. cbn. rewrite IH. reflexivity. }
  rewrite U. rewrite Lb, <- Lt, U. repeat split; lia.
Qed.

Lemma fold_writes : forall X (f : cstate -> X -> res cstate) (ent_of : X -> list ent) (l : list X) s,
  (forall s x, In x l -> room s (length (ent_of x)) -> exists s', f s x = Ok s' /\ writes s s' (ent_of x)) ->
  room s (length (flat_map ent_of l)) -> exists s', foldM f l s = Ok s' /\ writes s s' (flat_map ent_of l).
Proof.
  intros X f ent_of. induction l as [|x l IH]; intros s H R; cbn [foldM flat_map] in *.
  - exists s. split; [reflexivity|]. apply writes_nil. assumption.
  - rewrite app_length in R. destruct (H s x (or_introl eq_refl)) as (s1 & E1 & W1). { destruct R as (R0 & R1 & R2). unfold room. lia. }
    rewrite E1. cbn [bind]. destruct (IH s1) as (s2 & E2 & W2). { intros; apply H; [right|]; assumption. } { eapply writes_room; eassumption. }
    exists s2. split; [assumption|]. destruct R as (R0 & R1 & R2). eapply writes_app; try eassumption; lia.
Qed.

Lemma level_ok : forall V s, room s (length (levelE V)) -> exists s', compress_level s (strip V) = Ok s' /\ writes s s' (levelE V).
Proof.
  intros V s R. unfold compress_level, strip.
  assert (M : forall l s, foldM (fun s v => foldM (compress_slot (fst v) (snd v)) (seq 0 8) s) (map (fun v : tree A * Z * list nat => (fst (fst v), snd (fst v))) l) s
     = foldM (fun s (v : tree A * Z * list nat) => foldM (compress_slot (fst (fst v)) (snd (fst v))) (seq 0 8) s) l s).
  { induction l as [|v l IH]; intros s'; [reflexivity|]. cbn [map foldM]. destruct (foldM _ (seq 0 8) s'); cbn [bind]; [apply IH|reflexivity]. }
  rewrite M. apply fold_writes; [|exact R]. intros s0 [[t r] p] _ R0. cbn [fst snd]. apply fold_writes; [|exact R0]. intros s1 j _ R1. apply slot_ok. assumption.
Qed.

Lemma compress_loop_ok : forall fuel V s, c_next s = strip V -> room s (length (bfs fuel V (c_curr s))) ->
  (Z.of_nat (length (c_branch s)) = c_curr s + Z.of_nat (length (bfs fuel V (c_curr s))))%Z -> (Z.of_nat (length (c_tree s)) = c_curr s + Z.of_nat (length (bfs fuel V (c_curr s))))%Z ->
  total_nodes (map (fun v => fst (fst v)) V) <= fuel -> (forall v, In v V -> indexed idx (fst (fst v))) ->
  compress_loop fuel (strip V) s = Ok (firstn (Z.to_nat (c_curr s)) (c_branch s) ++ map (fun e => Z.of_nat (ent_w e)) (bfs fuel V (c_curr s)),
                              firstn (Z.to_nat (c_curr s)) (c_tree s) ++ map ent_ref (bfs fuel V (c_curr s))).
Proof.
  induction fuel as [|fuel IH]; intros V s N R Lb Lt F HI.
  - destruct V as [|v V]; [|exfalso; rewrite total_step in F by (intros x Hx; apply in_map_iff in Hx; destruct Hx as (u & <- & Hu); apply HI; assumption); cbn in F; lia].
    cbn in *. rewrite !app_nil_r, !firstn_all2 by lia. reflexivity.
  - destruct V as [|v V]; [cbn in *; rewrite !app_nil_r, !firstn_all2 by lia; reflexivity|].
    assert (HT : forall x, In x (map (fun v => fst (fst v)) (v :: V)) -> indexed idx x) by (intros x Hx; apply in_map_iff in Hx; destruct Hx as (u & <- & Hu); apply HI; assumption).
    cbn [compress_loop strip map]. change ((fst (fst v), snd (fst v)) :: map _ V) with (strip (v :: V)).
    cbn [bfs] in R, Lb, Lt |- *. remember (v :: V) as W eqn:EW.
    set (E := levelE W) in *. set (k := c_curr s) in *. set (rest := bfs fuel (renumber k E) (k + Z.of_nat (length E))) in *.
    rewrite app_length in R, Lb, Lt.
    destruct (level_ok W (mkC (c_branch s) (c_tree s) (c_curr s) [])) as (s' & E1 & W1). { destruct R as (R0 & R1 & R2). unfold room. cbn [c_branch c_tree c_curr]. fold k E. lia. }
    fold k in E1. fold k in W1. rewrite E1. cbn [bind]. fold E in W1. destruct W1 as (bp & br & tp & tr & B & T & Lbp & Ltp & P & B1 & T1 & K1 & N1). cbn [c_branch c_tree c_curr c_next] in B, T, Lbp, Ltp, P, B1, T1, K1, N1.
    assert (Q1 : length br = length E + length rest) by (rewrite B, app_length in Lb; lia).
    assert (Q2 : length tr = length E + length rest) by (rewrite T, app_length in Lt; lia).
    cbn [app] in N1. rewrite N1. rewrite (IH (renumber k E) s' N1).
    + rewrite K1. fold rest. rewrite B1, T1, !map_app, B, T.
      replace (Z.to_nat (k + Z.of_nat (length E))) with (length bp + length E) by lia.
      rewrite !app_assoc. rewrite (firstn_app (length bp + length E)), firstn_all2 by (rewrite app_length, map_length; lia).
      replace (length bp + length E - length (bp ++ map (fun e => Z.of_nat (ent_w e)) E)) with 0 by (rewrite app_length, map_length; lia). cbn [firstn]. rewrite app_nil_r.
      rewrite (firstn_app (length bp + length E) (tp ++ _)), firstn_all2 by (rewrite app_length, map_length; lia).
      replace (length bp + length E - length (tp ++ map ent_ref E)) with 0 by (rewrite app_length, map_length; lia). cbn [firstn]. rewrite app_nil_r.
      rewrite firstn_app, <- Lbp, firstn_all, Nat.sub_diag. cbn [firstn]. rewrite app_nil_r.
      rewrite firstn_app, Lbp, <- Ltp, firstn_all, Nat.sub_diag. cbn [firstn]. rewrite app_nil_r. reflexivity.
    + rewrite K1. fold rest. unfold room. rewrite B1, T1, K1, !app_length, !map_length, !skipn_length. lia.
    + rewrite K1. fold rest. rewrite B1, !app_length, !map_length, !skipn_length. lia.
    + rewrite K1. fold rest. rewrite T1, !app_length, !map_length, !skipn_length. lia.
    + rewrite renumber_trees. rewrite total_step in F by assumption.
      assert (Z0 : map ent_t E = flat_map present (map (fun v => fst (fst v)) W)).
      { subst E. clear. unfold levelE. induction W as [|[[t r] p] W IH]; [reflexivity|]. cbn [flat_map map fst]. rewrite map_app, IH. f_equal. unfold present. generalize (seq 0 8) as l. induction l as [|j l IHl]; [reflexivity|].
        cbn [flat_map]. rewrite map_app, IHl. f_equal. unfold slotE. destruct (kid t j); reflexivity. }
      rewrite Z0. assert (1 <= length (map (fun v0 : tree A * Z * list nat => fst (fst v0)) W)) by (rewrite EW; cbn; lia). lia.
    + intros x Hx. assert (In (fst (fst x)) (map ent_t E)) by (rewrite <- (renumber_trees E k); apply (in_map (fun v => fst (fst v)) _ _ Hx)).
      assert (Z0 : map ent_t E = flat_map present (map (fun v => fst (fst v)) W)).
      { subst E. clear. unfold levelE. induction W as [|[[t r] p] W IH]; [reflexivity|]. cbn [flat_map map fst]. rewrite map_app, IH. f_equal. unfold present. generalize (seq 0 8) as l. induction l as [|j l IHl]; [reflexivity|].
        cbn [flat_map]. rewrite map_app, IHl. f_equal. unfold slotE. destruct (kid t j); reflexivity. }
      rewrite Z0 in H. eapply indexed_present; eassumption.
Qed.

Lemma level_trees : forall W, map ent_t (levelE W) = flat_map present (map (fun v => fst (fst v)) W).
Proof.
  intros W. unfold levelE. induction W as [|[[t r] p] W IH]; [reflexivity|]. cbn [flat_map map fst]. rewrite map_app, IH. f_equal. unfold present. generalize (seq 0 8) as l. induction l as [|j l IHl]; [reflexivity|].
  cbn [flat_map]. rewrite map_app, IHl. f_equal. unfold slotE. destruct (kid t j); reflexivity.
Qed.

Lemma bfs_length : forall fuel V k, (forall v, In v V -> indexed idx (fst (fst v))) -> total_nodes (map (fun v => fst (fst v)) V) <= fuel ->
  length V + length (bfs fuel V k) = total_nodes (map (fun v => fst (fst v)) V).
Proof.
  induction fuel as [|fuel IH]; intros V k HI F; (destruct V as [|v V]; [reflexivity|]);
    assert (HT : forall x, In x (map (fun v => fst (fst v)) (v :: V)) -> indexed idx x) by (intros x Hx; apply in_map_iff in Hx; destruct Hx as (u & <- & Hu); apply HI; assumption);
    rewrite total_step in * by assumption; rewrite map_length in *.
  - cbn in F. lia.
  - cbn [bfs]. remember (v :: V) as W eqn:EW. rewrite app_length.
    assert (Q : length (levelE W) = length (renumber k (levelE W))) by (rewrite <- (map_length snd), renumber_paths, map_length; reflexivity).
    rewrite Q at 1. rewrite (IH (renumber k (levelE W))).
    + rewrite renumber_trees, level_trees. reflexivity.
    + intros x Hx. apply (indexed_present (map (fun v => fst (fst v)) W) HT). rewrite <- level_trees, <- (renumber_trees _ k). apply (in_map (fun v => fst (fst v)) _ _ Hx).
    + rewrite renumber_trees, level_trees. rewrite EW in F |- *. cbn [length] in F. lia.
Qed.

(** ** What the entries say *)
Section Root.
Variable t : tree A.
Hypothesis HI : indexed idx t.

Definition valid (p : list nat) : Prop := exists n, sub t p = Some n.

Definition path_of (es : list ent) (r : Z) : option (list nat) := if (r <? 0)%Z then Some [] else option_map ent_path (nth_error es (Z.to_nat r)).

Definition sound (es : list ent) : Prop := forall k e, nth_error es k = Some e ->
  sub t (ent_path e) = Some (ent_t e) /\ (-1 <= ent_ref e < Z.of_nat k)%Z /\ ent_w e < 8 /\
  exists q, path_of es (ent_ref e) = Some q /\ ent_path e = q ++ [ent_w e].

Lemma path_of_app : forall es fs r q, path_of es r = Some q -> path_of (es ++ fs) r = Some q.
Proof.
  intros es fs r q. unfold path_of. destruct (r <? 0)%Z; [auto|]. destruct (nth_error es (Z.to_nat r)) as [e|] eqn:E; [|discriminate].
  rewrite nth_error_app1 by (eapply nth_error_bound; eassumption). rewrite E. auto.
Qed.

Lemma levelE_in : forall V e, In e (levelE V) -> exists v, In v V /\ kid (fst (fst v)) (ent_w e) = Some (ent_t e) /\ ent_ref e = snd (fst v) /\ ent_path e = snd v ++ [ent_w e] /\ ent_w e < 8.
Proof.
  intros V e H. apply in_flat_map in H. destruct H as ([[c r] p] & Hv & H). apply in_flat_map in H. destruct H as (j & Hj & H). unfold slotE in H. destruct (kid c j) as [d|] eqn:K; [|contradiction].
  destruct H as [<-|[]]. exists (c, r, p). apply in_seq in Hj. cbn. repeat split; try assumption. lia.
Qed.

Lemma in_levelE : forall V v w c, In v V -> w < 8 -> kid (fst (fst v)) w = Some c -> In (snd v ++ [w]) (map ent_path (levelE V)).
Proof.
  intros V [[s r] p] w c Hv Hw K. cbn [fst snd] in *. apply in_map_iff. exists (c, w, r, p ++ [w]). split; [reflexivity|]. apply in_flat_map. exists (s, r, p). split; [assumption|].
  apply in_flat_map. exists w. split; [apply in_seq; lia|]. unfold slotE. rewrite K. left. reflexivity.
Qed.

Lemma nodup_level : forall V, NoDup (map snd V) -> NoDup (map ent_path (levelE V)).
Proof.
  induction V as [|[[c r] p] V IH]; intros N; [constructor|]. inversion N; subst. cbn [levelE flat_map]. rewrite map_app.
  assert (Hl : forall q, In q (map ent_path (flat_map (slotE (c, r, p)) (seq 0 8))) -> exists w, q = p ++ [w]).
  { intros q Hq. apply in_map_iff in Hq. destruct Hq as (e & <- & He). apply in_flat_map in He. destruct He as (j & _ & He). unfold slotE in He. destruct (kid c j); [|contradiction]. destruct He as [<-|[]]. exists j. reflexivity. }
  assert (N1 : NoDup (map ent_path (flat_map (slotE (c, r, p)) (seq 0 8)))).
  { assert (X : forall l, NoDup l -> NoDup (map ent_path (flat_map (slotE (c, r, p)) l)) /\ forall q, In q (map ent_path (flat_map (slotE (c, r, p)) l)) -> exists j, In j l /\ q = p ++ [j]).
    { induction l as [|j l IHl]; intros Nl; [split; [constructor|intros q []]|]. inversion Nl; subst. destruct (IHl H4) as [A1 A2]. cbn [flat_map]. rewrite map_app. unfold slotE at 1 3. destruct (kid c j) as [d|]; cbn [map app].
      - split; [constructor; [|assumption]|].
        + cbn [ent_path]. intros X. apply A2 in X. destruct X as (j' & Hj' & E). apply app_inv_head in E. inversion E; subst. contradiction.
        + intros q [<-|Hq]; [exists j; split; [left|]; reflexivity|]. destruct (A2 q Hq) as (j' & Hj' & E). exists j'. split; [right|]; assumption.
      - split; [assumption|]. intros q Hq. destruct (A2 q Hq) as (j' & Hj' & E). exists j'. split; [right|]; assumption. }
    apply X. apply seq_NoDup. }
  revert N1 Hl. generalize (map ent_path (flat_map (slotE (c, r, p)) (seq 0 8))) as l. intros l. induction l as [|q l IHl]; intros N1 Hl; [apply IH; assumption|].
  inversion N1; subst. cbn [app]. constructor; [|apply IHl; [assumption|intros; apply Hl; right; assumption]]. rewrite in_app_iff. intros [X|X]; [contradiction|].
  destruct (Hl q (or_introl eq_refl)) as (w & ->). apply in_map_iff in X. destruct X as (e & Ee & He). apply levelE_in in He. destruct He as (v & Hv & _ & _ & Ep & _). rewrite Ep in Ee. apply app_inj_tail in Ee. destruct Ee as [Ee _].
  apply H1. rewrite <- Ee. apply in_map. assumption.
Qed.

Lemma valid_app : forall p q, valid (p ++ q) -> valid p.
Proof. intros p q (n & H). rewrite sub_app in H. destruct (sub t p) as [m|] eqn:E; [exists m; assumption|discriminate]. Qed.

Record binv (d : nat) (es : list ent) (V : list (tree A * Z * list nat)) : Prop := {
  bi_sound : sound es;
  bi_V : forall v, In v V -> sub t (snd v) = Some (fst (fst v)) /\ length (snd v) = d /\ (-1 <= snd (fst v) < Z.of_nat (length es))%Z /\ path_of es (snd (fst v)) = Some (snd v);
  bi_Vall : forall p, valid p -> length p = d -> In p (map snd V);
  bi_Vnd : NoDup (map snd V);
  bi_nd : NoDup (map ent_path es);
  bi_len : forall p, In p (map ent_path es) -> 1 <= length p <= d;
  bi_all : forall p, valid p -> 1 <= length p <= d -> In p (map ent_path es) }.

Lemma binv_step : forall d es V, binv d es V -> binv (S d) (es ++ levelE V) (renumber (Z.of_nat (length es)) (levelE V)).
Proof.
  intros d es V [S1 S2 S3 S4 S5 S6 S7]. split.
  - intros k e Hk. destruct (Nat.lt_ge_cases k (length es)) as [L|L].
    + rewrite nth_error_app1 in Hk by assumption. destruct (S1 k e Hk) as (A1 & A2 & A3 & q & A4 & A5). split; [assumption|]. split; [assumption|]. split; [assumption|]. exists q. split; [apply path_of_app; assumption|assumption].
    + rewrite nth_error_app2 in Hk by assumption. apply nth_error_In in Hk. apply levelE_in in Hk. destruct Hk as (v & Hv & K & R & P & W). destruct (S2 v Hv) as (A1 & A2 & A3 & A4).
      split. { rewrite P, sub_app, A1. cbn [sub]. rewrite K. reflexivity. } split; [rewrite R; lia|]. split; [assumption|]. exists (snd v). split; [rewrite R; apply path_of_app; assumption|assumption].
  - intros v Hv. apply In_nth_error in Hv. destruct Hv as [i Hi]. apply renumber_nth in Hi. destruct Hi as (e & He & ->). cbn [fst snd].
    assert (Hn : nth_error (es ++ levelE V) (length es + i) = Some e) by (rewrite nth_error_app2 by lia; replace (length es + i - length es) with i by lia; assumption).
    pose proof (nth_error_In _ _ He) as Hin. apply levelE_in in Hin. destruct Hin as (u & Hu & K & R & P & W). destruct (S2 u Hu) as (A1 & A2 & A3 & A4).
    split; [rewrite P, sub_app, A1; cbn [sub]; rewrite K; reflexivity|]. split; [rewrite P, app_length; cbn; lia|]. split; [rewrite app_length; apply nth_error_bound in He; lia|].
    unfold path_of. replace (Z.of_nat (length es) + Z.of_nat i <? 0)%Z with false by (symmetry; apply Z.ltb_ge; lia).
    replace (Z.to_nat (Z.of_nat (length es) + Z.of_nat i)) with (length es + i) by lia. rewrite Hn. reflexivity.
  - intros p Hv Hl. rewrite renumber_paths. destruct (exists_last (l := p)) as (q & w & ->); [intros ->; discriminate|]. rewrite app_length in Hl. cbn in Hl.
    pose proof (S3 q (valid_app _ _ Hv) ltac:(lia)) as Hq. apply in_map_iff in Hq. destruct Hq as (v & <- & Hq). destruct Hv as (n & Hn). pose proof (indexed_path_lt _ _ _ _ _ HI Hn) as Fl. apply Forall_app in Fl. destruct Fl as [_ Fl]. inversion Fl; subst.
    rewrite sub_app in Hn. destruct (S2 v Hq) as (A1 & _). rewrite A1 in Hn. cbn [sub] in Hn. destruct (kid (fst (fst v)) w) as [c|] eqn:K; [|discriminate]. eapply in_levelE; eassumption.
  - rewrite renumber_paths. apply nodup_level. assumption.
  - rewrite map_app. pose proof (nodup_level V S4) as N2. revert S5 S6. generalize (map ent_path es) as l. intros l. 
    assert (D : forall p, In p (map ent_path (levelE V)) -> length p = S d). { intros p Hp. apply in_map_iff in Hp. destruct Hp as (e & <- & He). apply levelE_in in He. destruct He as (v & Hv & _ & _ & P & _). rewrite P, app_length. cbn. destruct (S2 v Hv) as (_ & A2 & _). lia. }
    induction l as [|q l IHl]; intros N1 B; [assumption|]. inversion N1; subst. cbn [app]. constructor; [|apply IHl; [assumption|intros; apply B; right; assumption]]. rewrite in_app_iff. intros [X|X]; [contradiction|]. apply D in X. pose proof (B q (or_introl eq_refl)). lia.
  - intros p Hp. rewrite map_app, in_app_iff in Hp. destruct Hp as [Hp|Hp]; [apply S6 in Hp; lia|]. apply in_map_iff in Hp. destruct Hp as (e & <- & He). apply levelE_in in He. destruct He as (v & Hv & _ & _ & P & _). rewrite P, app_length. cbn. destruct (S2 v Hv) as (_ & A2 & _). lia.
  - intros p Hv Hl. rewrite map_app, in_app_iff. destruct (Nat.eq_dec (length p) (S d)) as [E|E]; [right|left; apply S7; [assumption|lia]].
    destruct (exists_last (l := p)) as (q & w & ->); [intros ->; discriminate|]. rewrite app_length in E. cbn in E.
    pose proof (S3 q (valid_app _ _ Hv) ltac:(lia)) as Hq. apply in_map_iff in Hq. destruct Hq as (v & <- & Hq). destruct Hv as (n & Hn). pose proof (indexed_path_lt _ _ _ _ _ HI Hn) as Fl. apply Forall_app in Fl. destruct Fl as [_ Fl]. inversion Fl; subst.
    rewrite sub_app in Hn. destruct (S2 v Hq) as (A1 & _). rewrite A1 in Hn. cbn [sub] in Hn. destruct (kid (fst (fst v)) w) as [c|] eqn:K; [|discriminate]. eapply in_levelE; eassumption.
Qed.

(** Entries: sound, each path once, all paths. *)
Definition complete (es : list ent) : Prop := sound es /\ NoDup (map ent_path es) /\ (forall p, In p (map ent_path es) <-> valid p /\ p <> []).

Lemma binv_done : forall d es, binv d es [] -> complete es.
Proof.
  intros d es [S1 S2 S3 S4 S5 S6 S7]. split; [assumption|]. split; [assumption|]. intros p. split.
  - intros Hp. split; [|intros ->; apply S6 in Hp; cbn in Hp; lia]. apply in_map_iff in Hp. destruct Hp as (e & <- & He). apply In_nth_error in He. destruct He as [k Hk]. destruct (S1 k e Hk) as (A1 & _). exists (ent_t e). assumption.
  - intros [Hv Hn]. apply S7; [assumption|]. split; [destruct p; [contradiction|cbn; lia]|]. destruct (Nat.le_gt_cases (length p) d) as [|G]; [assumption|exfalso].
    rewrite <- (firstn_skipn d p) in Hv. apply valid_app in Hv. apply (S3 _ Hv). rewrite firstn_length. lia.
Qed.

Lemma bfs_complete : forall fuel d es V, binv d es V -> (forall p, valid p -> length p < d + fuel) -> complete (es ++ bfs fuel V (Z.of_nat (length es))).
Proof.
  induction fuel as [|fuel IH]; intros d es V B F.
  - destruct V as [|v V]; [cbn [bfs]; rewrite app_nil_r; eapply binv_done; eassumption|]. exfalso. destruct (bi_V _ _ _ B v (or_introl eq_refl)) as (A1 & A2 & _). specialize (F (snd v) (ex_intro _ _ A1)). lia.
  - destruct V as [|v V]; [cbn [bfs]; rewrite app_nil_r; eapply binv_done; eassumption|]. cbn [bfs]. remember (v :: V) as W eqn:EW. rewrite app_assoc.
    pose proof (IH (S d) (es ++ levelE W) _ (binv_step _ _ _ B)) as H. rewrite app_length, Nat2Z.inj_add in H. apply H. intros p Hp. specialize (F p Hp). lia.
Qed.

Lemma binv_start : binv 0 [] [(t, (-1)%Z, [])].
Proof.
  split.
  - intros [|k] e H; discriminate.
  - intros v [<-|[]]. cbn. repeat split; lia.
  - intros [|w p] _ H; [left; reflexivity|discriminate].
  - constructor; [intros []|constructor].
  - constructor.
  - intros p [].
  - intros p _ H. lia.
Qed.

Lemma sub_nodes_len : forall p (s n : tree A), sub s p = Some n -> length p + length (nodes n) <= length (nodes s).
Proof.
  induction p as [|w p IH]; intros s n H; cbn [sub] in H; [inversion H; cbn; lia|]. destruct (kid s w) as [c|] eqn:K; [|discriminate]. apply IH in H.
  apply kid_in in K. destruct s as [a cs]. cbn [kids nodes length] in *. apply in_split in K. destruct K as (l1 & l2 & ->). rewrite flat_map_app, app_length. cbn [flat_map]. rewrite app_length. lia.
Qed.

Lemma nodes_pos : forall s : tree A, 1 <= length (nodes s).
Proof. intros [a cs]. cbn. lia. Qed.

Lemma entries : forall fuel, length (nodes t) <= fuel -> exists es, complete es /\ length (nodes t) = S (length es) /\
  n_descendants fuel t = Ok (Z.of_nat (S (length es))) /\
  (forall br tr, length br = length es -> length tr = length es -> compress fuel t br tr = Ok (map (fun e => Z.of_nat (ent_w e)) es, map ent_ref es)) /\
  (forall e, nth_error es 0 = Some e -> ent_ref e = (-1)%Z /\ forall j, j < ent_w e -> kid t j = None).
Proof.
  intros fuel F. exists (bfs fuel [(t, (-1)%Z, [])] 0).
  assert (HV : forall v, In v [(t, (-1)%Z, @nil nat)] -> indexed idx (fst (fst v))) by (intros v [<-|[]]; assumption).
  assert (TN : total_nodes [t] = length (nodes t)) by (unfold total_nodes; cbn [flat_map]; rewrite app_nil_r; reflexivity).
  pose proof (bfs_length fuel [(t, (-1)%Z, [])] 0 HV) as BL. cbn [map fst length] in BL. rewrite TN in BL. specialize (BL F).
  split. { pose proof (bfs_complete fuel 0 [] _ binv_start) as C. cbn [app length] in C. apply C. intros p (n & Hn). apply sub_nodes_len in Hn. pose proof (nodes_pos n). lia. }
  split; [lia|]. split. { unfold n_descendants. rewrite count_ok; [f_equal; lia|intros v [<-|[]]; assumption|lia]. }
  split.
  - intros br tr Lb Lt. unfold compress. change [(t, (-1)%Z)] with (strip [(t, (-1)%Z, [])]).
    transitivity (compress_loop fuel (strip [(t, (-1)%Z, [])]) (mkC br tr 0 (strip [(t, (-1)%Z, [])]))).
    { destruct fuel; reflexivity. }
    rewrite compress_loop_ok; cbn [c_next c_curr c_branch c_tree Z.to_nat firstn app map fst]; try reflexivity; try lia; try assumption.
    unfold room. cbn [c_curr c_branch c_tree]. lia.
  - intros e He. destruct fuel as [|fuel]; [discriminate|]. cbn [bfs levelE flat_map] in He. rewrite app_nil_r in He.
    assert (X : forall n a l, (forall j, a <= j -> True) -> nth_error (flat_map (slotE (t, (-1)%Z, [])) (seq a n) ++ l) 0 = Some e -> flat_map (slotE (t, (-1)%Z, [])) (seq a n) <> [] -> ent_ref e = (-1)%Z /\ forall j, a <= j < ent_w e -> kid t j = None).
    { induction n as [|n IHn]; intros a l _ H N; [contradiction|]. cbn [seq flat_map] in H, N. unfold slotE in H at 1. unfold slotE in N at 1. destruct (kid t a) as [c|] eqn:K.
      - cbn in H. apply some_inj in H. rewrite <- H. cbn. split; [reflexivity|]. intros j Hj. lia.
      - cbn [app] in H, N. destruct (IHn (S a) l (fun _ _ => I) H N) as [A1 A2]. split; [assumption|]. intros j Hj. destruct (Nat.eq_dec j a) as [->|]; [assumption|]. apply A2. lia. }
    destruct (flat_map (slotE (t, (-1)%Z, [])) (seq 0 8)) as [|e0 l0] eqn:E0.
    + cbn in He. destruct fuel; discriminate.
    + rewrite <- E0 in He. destruct (X 8 0 _ (fun _ _ => I) He ltac:(rewrite E0; discriminate)) as [A1 A2]. split; [assumption|]. intros j Hj. apply A2. lia.
Qed.
End Root.
End Proofs.
