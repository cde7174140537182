(** The order of a single thread is one of the schedules. *)
From Coq Require Import ZArith List Bool Arith Lia Permutation.
From Verif Require Import Base ListFacts IndexModel TreeModel TreeFacts LookupModel GeomModel DagModel DagSpec DagProofs DagExec MethodModel DagSound.
Import ListNotations.
Open Scope nat_scope.

Definition ordered (os : list owner) : Prop := ForallOrdPairs (fun a b => ~ before b a) os.
Lemma ordered_app : forall a b, ordered a -> ordered b -> (forall x y, In x a -> In y b -> ~ before y x) -> ordered (a ++ b).
Proof.
  intros a b Ha Hb H. induction Ha as [|x a F Ha IH]; [exact Hb|]. cbn. constructor.
  - apply Forall_app. split; [exact F|]. apply Forall_forall. intros y I. apply H; [left; reflexivity|assumption].
  - apply IH. intros u v I J. apply H; [right; assumption|assumption].
Qed.

Lemma flat_app : forall a b, flat (a ++ b) = flat a ++ flat b.
Proof. intros. apply flat_map_app. Qed.
Lemma in_flat : forall ts o a, In (o, a) (flat ts) -> exists acts, In (o, acts) ts.
Proof. intros ts o a I. unfold flat in I. apply in_flat_map in I. destruct I as ([o' acts] & I & J). apply in_map_iff in J. destruct J as (x & J & _). injection J as -> _. eauto. Qed.
Lemma actions_app : forall o a b, actions_of o (a ++ b) = actions_of o a ++ actions_of o b.
Proof. intros. apply flat_map_app. Qed.
Lemma actions_same : forall o acts, actions_of o (map (pair o) acts) = acts.
Proof. intros o. induction acts as [|a l IH]; [reflexivity|]. unfold actions_of in *. cbn. destruct (owner_dec o o); [|contradiction]. cbn. f_equal. exact IH. Qed.
Lemma actions_none : forall o l, (forall x, In x l -> fst x <> o) -> actions_of o l = [].
Proof. intros o. induction l as [|x l IH]; intros H; [reflexivity|]. unfold actions_of in *. cbn. destruct (owner_dec (fst x) o); [exfalso; apply (H x); [left; reflexivity|assumption]|]. apply IH. intros; apply H. right. assumption. Qed.
Lemma before_irrefl : forall o, ~ before o o.
Proof. intros [[|] p]; cbn; intros [_ H]; contradiction. Qed.

Theorem flat_schedule : forall ts, NoDup (map fst ts) -> ordered (map fst ts) -> schedule ts (flat ts).
Proof.
  intros ts N O. split; [|split].
  - intros o acts I. apply in_split in I. destruct I as (t1 & t2 & ->). rewrite map_app in N. cbn [map fst] in N. rewrite flat_app. cbn [flat flat_map fst snd]. fold (flat t2). rewrite !actions_app, actions_same.
    apply NoDup_remove in N. destruct N as [_ N]. rewrite in_app_iff in N.
    rewrite !actions_none; [apply app_nil_r| |]; intros [o' a] J E; cbn in E; subst o'; apply in_flat in J; destruct J as (acts' & J); apply N; [right|left]; apply in_map_iff; exists (o, acts'); auto.
  - intros o a I. apply in_flat in I. exact I.
  - revert O. clear N. induction ts as [|[o acts] ts IH]; intros O l1 o1 a1 l2 E o' a' B I; [destruct l1; discriminate E|]. cbn [map fst] in O. inversion O as [|? ? F O']; subst. cbn [flat flat_map fst snd] in E. fold (flat ts) in E.
    assert (C : (exists r, map (pair o) acts = l1 ++ (o1, a1) :: r /\ l2 = r ++ flat ts) \/ exists r, flat ts = r ++ (o1, a1) :: l2).
    { clear - E. revert l1 E. generalize (map (pair o) acts). induction l as [|x l IH]; intros l1 E; [right; exists l1; exact E|]. destruct l1 as [|y l1]; cbn [app] in E.
      - injection E as E1 E2. subst x. left. exists l. auto.
      - injection E as -> E. destruct (IH l1 E) as [(r & -> & ->)|[r R]]; [left; exists r; auto|right; eauto]. }
    destruct C as [(r & M & ->)|(r & R)].
    + assert (M' : In (o1, a1) (map (pair o) acts)) by (rewrite M; apply in_or_app; right; left; reflexivity). apply in_map_iff in M'. destruct M' as (z & M' & _). injection M' as <- _.
      apply in_app_or in I. destruct I as [I|I].
      * assert (M' : In (o', a') (map (pair o) acts)) by (rewrite M; apply in_or_app; right; right; assumption). apply in_map_iff in M'. destruct M' as (z' & M' & _). injection M' as <- _. exact (before_irrefl _ B).
      * apply in_flat in I. destruct I as (acts' & I). rewrite Forall_forall in F. apply (F o'); [|assumption]. apply in_map_iff. exists (o', acts'). auto.
    + exact (IH O' r o1 a1 l2 R o' a' B I).
Qed.

Lemma split_paths : forall (p : path) w v (x y : path), prefix (p ++ [w]) x -> prefix (p ++ [v]) y -> prefix x y -> w = v.
Proof.
  intros p w v x y [a ->] [b ->] [c E]. rewrite <- !app_assoc in E. apply app_inv_head in E. cbn in E. congruence.
Qed.

(** Blocks, one per child, each below its child. *)
Lemma ordered_concat : forall X (sd : side) (kids : list (path * X)) (blocks : list (list task)) (p : path),
  Forall2 (fun k b => ordered (map fst b) /\ exists w, fst k = p ++ [w] /\ forall o, In o (map fst b) -> fst o = sd /\ prefix (p ++ [w]) (snd o)) kids blocks ->
  NoDup (map fst kids) -> ordered (map fst (concat blocks)).
Proof.
  intros X sd kids blocks p H. induction H as [|k b kids blocks (O & w & Ek & Hb) F IH]; intros N; [constructor|]. cbn [concat map] in *. rewrite map_app. inversion N as [|? ? Nk N']; subst. apply ordered_app; [exact O|apply IH; exact N'|].
  intros x y Ix Iy B. destruct (Hb x Ix) as [Sx Px]. rewrite concat_map in Iy. apply in_concat in Iy. destruct Iy as (b' & I1 & I2). apply in_map_iff in I1. destruct I1 as (b0 & <- & I1).
  assert (G : exists k' w', In k' kids /\ fst k' = p ++ [w'] /\ fst y = sd /\ prefix (p ++ [w']) (snd y)).
  { clear - F I1 I2. induction F as [|k' b' kids blocks (_ & w' & Ek' & Hb') F IH]; [destruct I1|]. destruct I1 as [->|I1].
    - destruct (Hb' y I2) as [S1 S2]. exists k', w'. split; [left; reflexivity|]. auto.
    - destruct (IH I1) as (k2 & w2 & A1 & A2). exists k2, w2. split; [right; assumption|exact A2]. }
  destruct G as (k' & w' & Ik & Ek' & Sy & Py). destruct x as [sx px], y as [sy py]. cbn [fst snd] in *. subst sx sy.
  assert (w = w') by (destruct sd; cbn in B; destruct B as [B _]; [exact (split_paths _ _ _ _ _ Px Py B)|symmetry; exact (split_paths _ _ _ _ _ Py Px B)]). subst w'. apply Nk. rewrite Ek, <- Ek'. apply in_map. assumption.
Qed.
Lemma mapM_f2 : forall X Y (f : X -> res Y) l r, mapM f l = Ok r -> Forall2 (fun x y => f x = Ok y) l r.
Proof.
  intros X Y f. induction l as [|x l IH]; intros r H; cbn in H; [injection H as <-; constructor|]. destruct (f x) as [y|] eqn:E; [|discriminate]. cbn in H. destruct (mapM f l) as [r'|]; [|discriminate]. cbn in H. injection H as <-. constructor; auto.
Qed.
Lemma f2_in : forall X Y (P Q : X -> Y -> Prop) l r, Forall2 P l r -> (forall x y, In x l -> P x y -> Q x y) -> Forall2 Q l r.
Proof. intros X Y P Q l r F. induction F as [|x y l r Pxy F IH]; intros H; [constructor|]. constructor; [apply H; [left; reflexivity|assumption]|]. apply IH. intros; apply H; [right; assumption|assumption]. Qed.

Section Order.
Context {A B : Type} (m : method A B) (unif : nat) (same : bool).
Lemma source_ordered : forall fuel n ts, source_apply m unif fuel n = Ok ts -> eight (snd n) -> ordered (map fst ts).
Proof.
  induction fuel as [|fuel IH]; intros [q t] ts H E; [discriminate|]. cbn [source_apply fst snd] in *. destruct (n_children t =? 0).
  - destruct (unif <=? length q); [|discriminate]. cbn in H. injection H as <-. repeat constructor.
  - destruct (mapM _ _) as [l|] eqn:M; [|discriminate]. cbn in H. injection H as <-. apply mapM_f2 in M. rewrite map_app.
    assert (E' : forall k, In k (children (q, t)) -> eight (snd k) /\ exists w, fst k = q ++ [w]).
    { intros [p c] I. apply children_in in I. destruct I as (w & _ & K & ->). cbn [fst snd] in *. split; [|eauto]. intros p' n' X. apply (E (w :: p')). cbn. rewrite K. assumption. }
    assert (F : Forall2 (fun k b => ordered (map fst b) /\ exists w, fst k = q ++ [w] /\ forall o, In o (map fst b) -> fst o = SrcTree /\ prefix (q ++ [w]) (snd o)) (children (q, t)) l).
    { eapply f2_in; [exact M|]. intros k b I Hk. destruct (E' k I) as [Ek (w & Ew)]. split; [exact (IH k b Hk Ek)|]. exists w. split; [assumption|]. intros o J. apply in_map_iff in J. destruct J as ([o' acts] & <- & J). apply (source_apply_in m unif fuel k b Hk Ek) in J. destruct J as (p & c & _ & -> & _). cbn. rewrite <- Ew. split; [reflexivity|]. exists p. reflexivity. }
    apply ordered_app.
    + eapply ordered_concat; [exact F|apply children_nodup].
    + repeat constructor.
    + intros x y Ix [<-|[]] Bf. rewrite concat_map in Ix. apply in_concat in Ix. destruct Ix as (b' & I1 & I2). apply in_map_iff in I1. destruct I1 as (b0 & <- & I1).
      assert (G : exists w, fst x = SrcTree /\ prefix (q ++ [w]) (snd x)). { clear - F I1 I2. induction F as [|k b kids l (_ & w & _ & Hb) F IH]; [destruct I1|]. destruct I1 as [->|I1]; [exists w; apply Hb; assumption|apply IH; assumption]. }
      destruct G as (w & Sx & [r Px]). destruct x as [sx px]. cbn in *. subst sx px. destruct Bf as [[r' Bf] _]. apply (f_equal (@length nat)) in Bf. rewrite !app_length in Bf. cbn in Bf. lia.
Qed.
Lemma target_ordered : forall fuel n pi cons ts, target_apply m unif same fuel n pi cons = Ok ts -> ordered (map fst ts).
Proof.
  induction fuel as [|fuel IH]; intros n pi cons ts H; [discriminate|]. cbn [target_apply] in H. destruct (process m n cons (negb (refines m unif same n cons))) as [[a2 cons']|]; [|discriminate]. cbn [bind] in H.
  destruct (refines m unif same n cons); [|injection H as <-; repeat constructor].
  match type of H with context [mapM ?g ?l] => destruct (mapM g l) as [l'|] eqn:M; [|discriminate] end. cbn in H. injection H as <-. apply mapM_f2 in M.
  assert (F : Forall2 (fun k b => ordered (map fst b) /\ exists w, fst k = fst n ++ [w] /\ forall o, In o (map fst b) -> fst o = TgtTree /\ prefix (fst n ++ [w]) (snd o)) (children n) l').
  { eapply f2_in; [exact M|]. intros [p c] b I Hk. pose proof I as I0. apply children_in in I0. destruct I0 as (w & _ & _ & Ew). split; [exact (IH _ _ _ _ Hk)|]. exists w. split; [assumption|]. intros o J. apply in_map_iff in J. destruct J as ([o' acts] & <- & J). apply (target_apply_in m unif same _ _ _ _ _ Hk) in J. destruct J as (n' & pi' & co & acc & a2' & c' & V & -> & _). apply visited_sub in V. destruct V as (p' & Ep & _). cbn in *. split; [reflexivity|]. rewrite <- Ew, Ep. exists p'. reflexivity. }
  cbn [map fst]. constructor; [|eapply ordered_concat; [exact F|apply children_nodup]].
  apply Forall_forall. intros x Ix Bf. rewrite concat_map in Ix. apply in_concat in Ix. destruct Ix as (b' & I1 & I2). apply in_map_iff in I1. destruct I1 as (b0 & <- & I1).
  assert (G : exists w, fst x = TgtTree /\ prefix (fst n ++ [w]) (snd x)). { clear - F I1 I2. induction F as [|k b kids l (_ & w & _ & Hb) F IH]; [destruct I1|]. destruct I1 as [->|I1]; [exists w; apply Hb; assumption|apply IH; assumption]. }
  destruct G as (w & Sx & [r Px]). destruct x as [sx px]. cbn in *. subst sx px. destruct Bf as [[r' Bf] _]. apply (f_equal (@length nat)) in Bf. rewrite !app_length in Bf. cbn in Bf. lia.
Qed.

Theorem sequential : forall fuel S T ss tt, create_dag m unif same fuel S T = Ok (ss, tt) -> eight S -> schedule (ss ++ tt) (flat (ss ++ tt)).
Proof.
  intros fuel S T ss tt H E. unfold create_dag in H. destruct (source_apply m unif fuel ([], S)) as [ss'|] eqn:Hs; [|discriminate]. cbn in H. destruct (target_apply m unif same fuel ([], T) false [([], S)]) as [tt'|] eqn:Ht; [|discriminate]. cbn in H. injection H as -> ->.
  assert (Os : forall o, In o (map fst ss) -> fst o = SrcTree). { intros o I. apply in_map_iff in I. destruct I as ([o' acts] & <- & I). apply (source_apply_in _ _ _ _ _ Hs E) in I. destruct I as (p & c & _ & -> & _). reflexivity. }
  assert (Ot : forall o, In o (map fst tt) -> fst o = TgtTree). { intros o I. apply in_map_iff in I. destruct I as ([o' acts] & <- & I). apply (target_apply_in _ _ _ _ _ _ _ _ Ht) in I. destruct I as (n' & pi' & co & acc & a2' & c' & V & -> & _). reflexivity. }
  apply flat_schedule; rewrite map_app.
  - apply NoDup_app_intro'; [eapply source_apply_nodup; eassumption|eapply target_apply_nodup; eassumption|]. intros o I J. apply Os in I. apply Ot in J. congruence.
  - apply ordered_app; [eapply source_ordered; eassumption|eapply target_ordered; eassumption|]. intros x y I J Bf. apply Os in I. apply Ot in J. destruct x as [sx px], y as [sy py]. cbn in I, J. subst. exact Bf.
Qed.
End Order.
