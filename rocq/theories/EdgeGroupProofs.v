From Coq Require Import ZArith List Bool Lia Sorted Permutation.
From Verif Require Import Base ListFacts EdgeGroupModel EdgeGroupSpec.
Import ListNotations.
Open Scope Z_scope.

Section G.
Context {A : Type} (loc : A -> Z) (my : Z).

Lemma run_of_spec : forall rank l run rest, run_of loc rank l = (run, rest) ->
  l = run ++ rest /\ (forall e, In e run -> loc e = rank) /\
  (StronglySorted (fun a b => loc a <= loc b) l -> (forall e, In e l -> rank <= loc e) ->
    (forall e, In e rest -> rank < loc e)).
Proof.
  induction l as [|e l IH]; intros run rest H; cbn in H.
  - inversion H; subst. repeat split; intros; contradiction.
  - destruct (Z.eqb_spec (loc e) rank) as [E|E].
    + destruct (run_of loc rank l) as [r s] eqn:R. inversion H; subst run rest.
      destruct (IH r s eq_refl) as (-> & H1 & H2). split; [reflexivity|]. split.
      * intros x [<-|Hx]; auto.
      * intros HS HB x Hx. inversion HS; subst. apply H2; auto. intros; apply HB; right; assumption.
    + inversion H; subst run rest. split; [reflexivity|]. split; [intros; contradiction|].
      intros HS HB x [<-|Hx].
      * specialize (HB e (or_introl eq_refl)). lia.
      * inversion HS; subst. specialize (HB e (or_introl eq_refl)). rewrite Forall_forall in H3. specialize (H3 x Hx). cbn in H3. lia.
Qed.

Lemma SS_app_r : forall (P : A -> A -> Prop) l1 l2, StronglySorted P (l1 ++ l2) -> StronglySorted P l2.
Proof. induction l1; intros l2 H; [assumption|]. inversion H; subst. auto. Qed.

Lemma group_loop_ok : forall fuel l, (length l <= fuel)%nat -> StronglySorted (fun a b => loc a <= loc b) l ->
  exists acts, group_loop fuel loc my l = Ok acts /\
    concat (map act_edges acts) = l /\
    Forall (fun a => act_edges a <> [] /\ (forall e, In e (act_edges a) -> loc e = act_rank my a) /\
              (act_rank my a = my <-> a = Work (act_edges a)) ) acts /\
    StronglySorted (fun a b => act_rank my a < act_rank my b) acts /\
    (forall a, In a acts -> exists e, In e l /\ loc e = act_rank my a).
Proof.
  induction fuel as [|fuel IH]; intros l Hl HS; destruct l as [|e l]; cbn [group_loop].
  - exists []. repeat split; constructor || (intros; contradiction).
  - cbn in Hl. lia.
  - exists []. repeat split; constructor || (intros; contradiction).
  - destruct (run_of loc (loc e) (e :: l)) as [run rest] eqn:R.
    destruct (run_of_spec _ _ _ _ R) as (E & H1 & H2).
    assert (HB : forall x, In x (e :: l) -> loc e <= loc x).
    { intros x [<-|Hx]; [lia|]. inversion HS; subst. rewrite Forall_forall in H4. apply H4. assumption. }
    specialize (H2 HS HB).
    assert (Hrun : exists run', run = e :: run').
    { cbn in R. rewrite Z.eqb_refl in R. destruct (run_of loc (loc e) l). inversion R. eauto. }
    destruct Hrun as [run' Erun].
    assert (Hlen : (length rest <= fuel)%nat).
    { assert (length (e :: l) = length (run ++ rest)) by congruence. rewrite app_length, Erun in H. cbn [length] in *. lia. }
    assert (HSr : StronglySorted (fun a b => loc a <= loc b) rest) by (rewrite E in HS; eapply SS_app_r; eassumption).
    destruct (IH rest Hlen HSr) as (acts & EA & C & F & SS & W). rewrite EA. cbn [bind].
    eexists; split; [reflexivity|].
    set (a0 := if loc e =? my then Work run else Send (loc e) run).
    assert (Ea : act_edges a0 = run) by (unfold a0; destruct (loc e =? my); reflexivity).
    assert (Er : act_rank my a0 = loc e) by (unfold a0; destruct (Z.eqb_spec (loc e) my); cbn; congruence).
    split; [cbn [map concat]; rewrite Ea, C; congruence|]. split; [|split].
    + constructor; [|assumption]. rewrite Ea, Er. split; [rewrite Erun; discriminate|]. split; [assumption|].
      unfold a0. destruct (Z.eqb_spec (loc e) my); split; intros; try congruence.
    + constructor; [assumption|]. apply Forall_forall. intros a Ha. rewrite Er. destruct (W a Ha) as (x & Hx & <-). apply H2. assumption.
    + intros a [<-|Ha].
      * exists e. split; [left; reflexivity|congruence].
      * destruct (W a Ha) as (x & Hx & Ex). exists x. split; [rewrite E; apply in_or_app; right; assumption|assumption].
Qed.

Lemma ranks_nodup : forall acts, StronglySorted (fun a b : action A => act_rank my a < act_rank my b) acts -> NoDup (map (act_rank my) acts).
Proof.
  intros acts H. induction H; cbn; constructor; [|assumption]. intros X. apply in_map_iff in X. destruct X as (b & E & Hb).
  rewrite Forall_forall in H0. specialize (H0 b Hb). lia.
Qed.
End G.
