(** Proofs about RankWise and RankLocal. *)
From Coq Require Import ZArith List Bool Arith Lia.
From Verif Require Import Base ListFacts RankwiseModel RankwiseSpec.
Import ListNotations.
Open Scope Z_scope.

Lemma how_app {A} (p : A -> bool) a b : how_many p (a ++ b) = (how_many p a + how_many p b)%nat.
Proof. unfold how_many. rewrite filter_app, app_length. reflexivity. Qed.
Lemma how_one {A} (p : A -> bool) x : how_many p [x] = if p x then 1%nat else 0%nat.
Proof. unfold how_many. cbn. destruct (p x); reflexivity. Qed.
Lemma how_upd {A} (p : A -> bool) : forall l i x y, nth_error l i = Some x -> (how_many p (upd l i y) + (if p x then 1 else 0) = how_many p l + (if p y then 1 else 0))%nat.
Proof.
  unfold how_many. induction l as [|a l IH]; intros [|i] x y H; cbn in H; try discriminate.
  - injection H as ->. cbn. destruct (p x), (p y); cbn; lia.
  - specialize (IH i x y H). cbn. destruct (p a); cbn; lia.
Qed.
Lemma how_0 {A} (p : A -> bool) l : (forall x, In x l -> p x = false) -> how_many p l = 0%nat.
Proof. unfold how_many. induction l as [|a l IH]; intros H; [reflexivity|]. cbn. rewrite (H a (or_introl eq_refl)). apply IH. intros x I. apply H. right. exact I. Qed.
Lemma how_in {A} (p : A -> bool) l i x : nth_error l i = Some x -> p x = true -> (0 < how_many p l)%nat.
Proof. unfold how_many. revert i. induction l as [|a l IH]; intros [|i] H P; cbn in H; try discriminate; cbn; [injection H as ->; rewrite P; cbn; lia|]. specialize (IH i H P). destruct (p a); cbn; lia. Qed.
Lemma how_two {A} (p : A -> bool) l : forall i j x y, i <> j -> nth_error l i = Some x -> nth_error l j = Some y -> p x = true -> p y = true -> (1 < how_many p l)%nat.
Proof.
  unfold how_many. induction l as [|a l IH]; intros [|i] [|j] x y N X Y P Q; cbn in X, Y; try discriminate; [congruence|..]; cbn.
  - injection X as ->. rewrite P. cbn. pose proof (how_in p l j y Y Q) as H. unfold how_many in H. lia.
  - injection Y as ->. rewrite Q. cbn. pose proof (how_in p l i x X P) as H. unfold how_many in H. lia.
  - assert (N' : i <> j) by congruence. specialize (IH i j x y N' X Y P Q). destruct (p a); cbn; lia.
Qed.
Lemma geqb a b : gaddr_eqb a b = true <-> a = b.
Proof. destruct a as [a1 a2], b as [b1 b2]. unfold gaddr_eqb. cbn. rewrite andb_true_iff, Nat.eqb_eq, Z.eqb_eq. split; [intros [-> ->]; reflexivity|intros E; injection E; auto]. Qed.
Lemma geqb_sym a b : gaddr_eqb a b = gaddr_eqb b a.
Proof. unfold gaddr_eqb. rewrite Nat.eqb_sym, Z.eqb_sym. reflexivity. Qed.

Ltac ws := cbn [blocks pins copies locals wises with_blocks with_pins with_copies with_locals with_wises pin] in *.
Section Proofs.
  Context {T : Type} (zero : T) (num_ranks : Z).
  Notation rstep := (rstep zero num_ranks).
  Notation rsteps := (rsteps zero num_ranks).
  Notation reached := (reached zero num_ranks).

  Definition one_copy (w : world T) (c : nat) : nat := match nth_error (copies w) c with Some (Some _) => 1 | _ => 0 end.
  Definition wf_local (w : world T) (o : rank_local) : Prop :=
    match local_ o with
    | None => global_ o = None /\ remote_ o = false
    | Some (Cell a) => global_ o = Some a /\ remote_ o = false /\ (fst a < length (blocks w))%nat /\ 0 <= snd a < Z.of_nat (Z.to_nat num_ranks)
    | Some (Copy c) => global_ o <> None /\ remote_ o = true
    end.
  Record Inv (w : world T) : Prop := {
    I_pins : forall a, pins w a = Z.of_nat (how_many (on_cell a) (locals w));
    I_copies : forall c, how_many (on_copy c) (locals w) = one_copy w c;
    I_local : forall o, In (Some o) (locals w) -> wf_local w o;
    I_block : forall b l, nth_error (blocks w) b = Some (Some l) -> length l = Z.to_nat num_ranks
  }.
  Lemma inv_empty : Inv empty_world.
  Proof.
    constructor; ws; try contradiction.
    - reflexivity.
    - intros c. unfold one_copy. cbn. destruct c; reflexivity.
    - intros [|b] l H; discriminate.
  Qed.

  Ltac binds H := repeat (cbn [bind] in H; match type of H with bind ?a _ = Ok _ => let E := fresh "E" in destruct a eqn:E; [|cbn [bind] in H; discriminate H] end); cbn [bind] in H.
  Lemma in_upd {A} (l : list A) : forall i x y, In y (upd l i x) -> y = x \/ In y l.
  Proof. induction l as [|a l IH]; intros [|i] x y H; cbn in H; try tauto; [destruct H as [<-|H]; cbn; auto|]. destruct H as [<-|H]; cbn; auto. destruct (IH i x y H); auto. Qed.
  Lemma the_local_inv (w : world T) i o : the_local w i = Ok o <-> nth_error (locals w) i = Some (Some o).
  Proof. unfold the_local, nth_res. destruct (nth_error (locals w) i) as [[x|]|]; cbn; split; intros H; congruence. Qed.
  Lemma block_inv (w : world T) b l : block w b = Ok l <-> nth_error (blocks w) b = Some (Some l).
  Proof. unfold block, nth_res. destruct (nth_error (blocks w) b) as [[x|]|]; cbn; split; intros H; congruence. Qed.
  Lemma load_inv (w : world T) a v : load w a = Ok v <-> exists l, nth_error (blocks w) (fst a) = Some (Some l) /\ 0 <= snd a /\ nth_error l (Z.to_nat (snd a)) = Some v.
  Proof.
    unfold load. split.
    - intros H. destruct (block w (fst a)) as [l|] eqn:E; [|discriminate]. cbn [bind] in H. apply block_inv in E. apply nth_resZ_ok in H. exists l. tauto.
    - intros (l & E & P & N). apply block_inv in E. rewrite E. cbn [bind]. apply nth_resZ_ok. auto.
  Qed.
  Lemma load_live w a : Inv w -> 0 <= snd a < Z.of_nat (Z.to_nat num_ranks) -> live w (fst a) -> exists v, load w a = Ok v.
  Proof.
    intros I R (l & E). pose proof (I_block w I _ _ E) as L. destruct (nth_error l (Z.to_nat (snd a))) as [v|] eqn:N; [|apply nth_error_None in N; lia]. exists v. apply load_inv. exists l. split; [exact E|]. split; [lia|exact N].
  Qed.
  Lemma copy_inv (w : world T) c v : copy w c = Ok v <-> nth_error (copies w) c = Some (Some v).
  Proof. unfold copy, nth_res. destruct (nth_error (copies w) c) as [[x|]|]; cbn; split; intros H; congruence. Qed.

  Lemma on_cell_of o a : on_cell a (Some o) = match local_ o with Some (Cell b) => gaddr_eqb b a | _ => false end.
  Proof. reflexivity. Qed.
  (** Construction *)
  Lemma new_inv w me g room w' o : Inv w -> local_new w me g room = Ok (w', o) -> Inv (with_locals w' (locals w' ++ [Some o])).
  Proof.
    intros [P C L B] H. unfold local_new in H. destruct g as [a|].
    - binds H. destruct (snd a =? me); [|destruct room].
      + injection H as <- <-. constructor; ws.
        * intros x. rewrite how_app, how_one, P. cbn. rewrite geqb_sym. destruct (gaddr_eqb a x); lia.
        * intros c. rewrite how_app, how_one, C. cbn. unfold one_copy. cbn. lia.
        * intros o I. apply in_app_or in I. destruct I as [I|[I|[]]]; [exact (L o I)|]. injection I as <-. cbn. apply load_inv in E. destruct E as (l & E & R & N). pose proof (B _ _ E) as Hl. apply nth_error_bound in E. apply nth_error_bound in N. split; [reflexivity|]. split; [reflexivity|]. split; [exact E|lia].
        * exact B.
      + injection H as <- <-. constructor; ws.
        * intros x. rewrite how_app, how_one, P. cbn. lia.
        * intros c. rewrite how_app, how_one, C. cbn. unfold one_copy. cbn. destruct (Nat.eqb_spec (length (copies w)) c) as [<-|Ne].
          -- rewrite nth_error_app2, Nat.sub_diag by lia. cbn. rewrite (proj2 (nth_error_None (copies w) _)) by lia. reflexivity.
          -- destruct (Nat.lt_ge_cases c (length (copies w))); [rewrite nth_error_app1 by assumption; lia|]. rewrite (proj2 (nth_error_None (copies w) c)) by lia. rewrite (proj2 (nth_error_None (copies w ++ [_]) c)) by (rewrite app_length; cbn; lia). reflexivity.
        * intros o I. apply in_app_or in I. destruct I as [I|[I|[]]]; [exact (L o I)|]. injection I as <-. cbn. split; [discriminate|reflexivity].
        * exact B.
      + injection H as <- <-. constructor; ws.
        * intros x. rewrite how_app, how_one, P. cbn. lia.
        * intros c. rewrite how_app, how_one, C. cbn. unfold one_copy. cbn. lia.
        * intros o I. apply in_app_or in I. destruct I as [I|[I|[]]]; [exact (L o I)|]. injection I as <-. cbn. auto.
        * exact B.
    - injection H as <- <-. constructor; ws.
      + intros x. rewrite how_app, how_one, P. cbn. lia.
      + intros c. rewrite how_app, how_one, C. cbn. unfold one_copy. cbn. lia.
      + intros o I. apply in_app_or in I. destruct I as [I|[I|[]]]; [exact (L o I)|]. injection I as <-. cbn. auto.
      + exact B.
  Qed.
  (** The end of an object: what the destructor needs and does *)
  Lemma end_ok w i o : Inv w -> nth_error (locals w) i = Some (Some o) ->
    (forall a, local_ o = Some (Cell a) -> live w (fst a)) ->
    exists w', local_end w o = Ok w' /\ locals w' = locals w /\ blocks w' = blocks w /\ wises w' = wises w /\ Inv (with_locals w' (upd (locals w') i None)).
  Proof.
    intros I N H. destruct I as [P C L B] eqn:EI. clear EI. pose proof (L o (nth_error_In _ _ N)) as Wf. pose proof (nth_error_bound _ _ _ _ N) as Hi. unfold local_end. unfold wf_local in Wf.
    assert (Rest : forall w'', blocks w'' = blocks w -> forall o', In (Some o') (upd (locals w) i None) -> wf_local w'' o').
    { intros w'' Eb o' J. apply in_upd in J. destruct J as [J|J]; [discriminate|]. pose proof (L o' J) as K. unfold wf_local in *. rewrite Eb. exact K. }
    destruct (local_ o) as [[a|c]|] eqn:Lo.
    - destruct Wf as (G & Rm & Hb & Hr). rewrite G, Rm. destruct (load_live w a I Hr (H a eq_refl)) as (v & E). unfold unpin. rewrite E. cbn [bind].
      assert (Q : 0 < pins w a) by (rewrite P; pose proof (how_in (on_cell a) _ _ _ N) as K; rewrite on_cell_of, Lo in K; specialize (K (proj2 (geqb a a) eq_refl)); lia). destruct (Z.ltb_spec 0 (pins w a)); [|lia].
      eexists. split; [reflexivity|]. do 3 (split; [reflexivity|]). constructor; ws.
      + intros x. pose proof (how_upd (on_cell x) (locals w) i (Some o) None N) as K. rewrite on_cell_of, Lo in K. cbn in K. rewrite P, geqb_sym. destruct (gaddr_eqb a x); lia.
      + intros c. pose proof (how_upd (on_copy c) (locals w) i (Some o) None N) as K. cbn in K. rewrite Lo in K. specialize (C c). unfold one_copy in *. cbn. lia.
      + exact (Rest _ eq_refl).
      + exact B.
    - destruct Wf as (G & Rm). rewrite Rm. unfold free_copy.
      assert (Q : one_copy w c = 1%nat) by (rewrite <- C; pose proof (how_in (on_copy c) _ _ _ N) as K; cbn in K; rewrite Lo, Nat.eqb_refl in K; specialize (K eq_refl); rewrite C in *; unfold one_copy in *; destruct (nth_error (copies w) c) as [[|]|]; lia).
      destruct (nth_error (copies w) c) as [[v|]|] eqn:Ec; unfold one_copy in Q; rewrite Ec in Q; try discriminate. rewrite (proj2 (copy_inv w c v) Ec). cbn [bind]. pose proof (nth_error_bound _ _ _ _ Ec) as Hc. rewrite set_res_ok by exact Hc. cbn [bind].
      eexists. split; [reflexivity|]. do 3 (split; [reflexivity|]). constructor; ws.
      + intros x. pose proof (how_upd (on_cell x) (locals w) i (Some o) None N) as K. cbn in K. rewrite Lo in K. rewrite P. lia.
      + intros d. pose proof (how_upd (on_copy d) (locals w) i (Some o) None N) as K. cbn in K. rewrite Lo in K. pose proof (C d) as Cd. unfold one_copy in Cd |- *. cbn. destruct (Nat.eqb_spec c d) as [Q2|Ne]; [subst d|].
        * rewrite upd_same by exact Hc. rewrite Ec in Cd. lia.
        * rewrite upd_other by exact Ne. lia.
      + exact (Rest _ eq_refl).
      + exact B.
    - eexists. split; [reflexivity|]. do 3 (split; [reflexivity|]). constructor; ws.
      + intros x. pose proof (how_upd (on_cell x) (locals w) i (Some o) None N) as K. cbn in K. rewrite Lo in K. rewrite P. lia.
      + intros d. pose proof (how_upd (on_copy d) (locals w) i (Some o) None N) as K. cbn in K. rewrite Lo in K. specialize (C d). unfold one_copy in C |- *. cbn. lia.
      + exact (Rest _ eq_refl).
      + exact B.
  Qed.
  Lemma end_fail w i o a : Inv w -> nth_error (locals w) i = Some (Some o) -> local_ o = Some (Cell a) -> ~ live w (fst a) -> local_end w o = Fail BadOp.
  Proof.
    intros I N Lo H. pose proof (I_local w I o (nth_error_In _ _ N)) as Wf. unfold wf_local in Wf. rewrite Lo in Wf. destruct Wf as (G & Rm & Hb & Hr). unfold local_end. rewrite Lo, G, Rm. unfold unpin, load, block, nth_res.
    destruct (nth_error (blocks w) (fst a)) as [[l|]|] eqn:E; [exfalso; apply H; exists l; exact E|reflexivity|apply nth_error_None in E; lia].
  Qed.
  Lemma write_inv w i o v w' : Inv w -> nth_error (locals w) i = Some (Some o) -> local_write w o v = Ok w' -> Inv w' /\ locals w' = locals w /\ pins w' = pins w.
  Proof.
    intros [P C L B] N H. unfold local_write in H. destruct (local_ o) as [[a|c]|] eqn:Lo; [| |discriminate].
    - binds H. injection H as <-. apply block_inv in E. unfold set_resZ in E0. destruct (snd a <? 0); [discriminate|]. apply set_res_inv in E0. destruct E0 as [E0 ->]. apply set_res_inv in E1. destruct E1 as [E1 ->]. split; [|auto]. constructor; ws.
      + exact P.
      + exact C.
      + intros o' J. pose proof (L o' J) as K. unfold wf_local in *. cbn. rewrite upd_length. exact K.
      + intros b l' Hb. destruct (Nat.eq_dec (fst a) b) as [<-|Ne]; [|rewrite upd_other in Hb by exact Ne; exact (B b l' Hb)]. rewrite upd_same in Hb by exact E1. injection Hb as <-. rewrite upd_length. exact (B _ _ E).
    - binds H. injection H as <-. apply copy_inv in E. apply set_res_inv in E0. destruct E0 as [E0 ->]. split; [|auto]. constructor; ws; [exact P| |exact L|exact B]. intros d. rewrite C. unfold one_copy. cbn. destruct (Nat.eq_dec c d) as [<-|Ne]; [rewrite upd_same by exact E0; rewrite E; reflexivity|rewrite upd_other by exact Ne; reflexivity].
  Qed.
  Lemma move_inv w i o : Inv w -> nth_error (locals w) i = Some (Some o) -> Inv (with_locals w (upd (locals w) i (Some (mkLocal None None false)) ++ [Some (mkLocal (local_ o) (global_ o) (remote_ o))])).
  Proof.
    intros [P C L B] N. constructor; ws.
    - intros x. pose proof (how_upd (on_cell x) (locals w) i (Some o) (Some (mkLocal None None false)) N) as K. cbn in K. rewrite how_app, how_one, P. cbn. destruct (match local_ o with Some (Cell b) => gaddr_eqb b x | _ => false end); lia.
    - intros c. pose proof (how_upd (on_copy c) (locals w) i (Some o) (Some (mkLocal None None false)) N) as K. cbn in K. specialize (C c). unfold one_copy in *. cbn. rewrite how_app, how_one. cbn. destruct (match local_ o with Some (Copy d) => Nat.eqb d c | _ => false end); lia.
    - intros o' J. apply in_app_or in J. destruct J as [J|[J|[]]].
      + apply in_upd in J. destruct J as [J|J]; [injection J as ->; cbn; auto|exact (L o' J)].
      + injection J as <-. pose proof (L o (nth_error_In _ _ N)) as K. unfold wf_local in *. cbn. exact K.
    - exact B.
  Qed.
  Lemma step_inv w p w' : Inv w -> rstep w p = Ok w' -> Inv w'.
  Proof.
    intros I H. destruct p as [d|k|k|me g room|me k rank room|i|i j|i|i v]; cbn [RankwiseModel.rstep] in H.
    - injection H as <-. destruct I. constructor; assumption.
    - destruct (nth_res (wises w) k) as [d|]; [|discriminate]. cbn [bind] in H. destruct (wise_allocate zero num_ranks w d) as [[w1 d']|] eqn:E0; [|discriminate]. cbn [bind] in H. destruct (set_res (wises w1) k d') as [l|]; [|discriminate]. cbn [bind] in H. injection H as <-. unfold wise_allocate in E0. binds E0. injection E0 as <- <-. destruct I as [P C L B]. constructor; ws; [exact P|exact C| |].
      + intros o J. pose proof (L o J) as K. unfold wf_local in *. cbn. rewrite app_length. cbn. destruct (local_ o) as [[]|]; intuition lia.
      + intros b l' Hb. destruct (Nat.lt_ge_cases b (length (blocks w))); [rewrite nth_error_app1 in Hb by assumption; exact (B b l' Hb)|]. rewrite nth_error_app2 in Hb by assumption. destruct (b - length (blocks w))%nat as [|[|]]; cbn in Hb; try discriminate. injection Hb as <-. apply repeat_length.
    - destruct (nth_res (wises w) k) as [d|]; [|discriminate]. cbn [bind] in H. destruct (wise_destroy w d) as [[w1 d']|] eqn:E0; [|discriminate]. cbn [bind] in H. destruct (set_res (wises w1) k d') as [l|]; [|discriminate]. cbn [bind] in H. injection H as <-. unfold wise_destroy in E0. destruct d as [b|]; [|discriminate]. binds E0. injection E0 as <- <-. match goal with X : set_res (blocks w) b None = Ok _ |- _ => apply set_res_inv in X; destruct X as [E2 ->] end. destruct I as [P C L B]. constructor; ws; [exact P|exact C| |].
      + intros o J. pose proof (L o J) as K. unfold wf_local in *. cbn. rewrite upd_length. exact K.
      + intros b' l' Hb. destruct (Nat.eq_dec b b') as [<-|Ne]; [rewrite upd_same in Hb by exact E2; discriminate|rewrite upd_other in Hb by exact Ne; exact (B b' l' Hb)].
    - unfold add_local in H. destruct (local_new w me g room) as [[w1 o]|] eqn:E; [|discriminate]. cbn [bind] in H. injection H as <-. eapply new_inv; eassumption.
    - destruct (nth_res (wises w) k) as [d|]; [|discriminate]. cbn [bind] in H. unfold add_local, there in H. destruct (address_at d rank) as [g|]; [|discriminate]. cbn [bind] in H. destruct (local_new w me g room) as [[w1 o]|] eqn:E; [|discriminate]. cbn [bind] in H. injection H as <-. eapply new_inv; eassumption.
    - destruct (the_local w i) as [o|] eqn:E; [|discriminate]. cbn [bind local_move] in H. apply the_local_inv in E. binds H. injection H as <-. apply set_res_inv in E0. destruct E0 as [_ ->]. apply move_inv; assumption.
    - discriminate.
    - destruct (the_local w i) as [o|] eqn:E; [|discriminate]. cbn [bind] in H. apply the_local_inv in E. destruct (local_end w o) as [w1|] eqn:E1; [|discriminate]. cbn [bind] in H. binds H. injection H as <-. apply set_res_inv in E0. destruct E0 as [_ ->].
      assert (D : forall a, local_ o = Some (Cell a) -> live w (fst a)).
      { intros a La. destruct (nth_error (blocks w) (fst a)) as [[l'|]|] eqn:Eb; [exists l'; exact Eb|..]; exfalso; (assert (X : ~ live w (fst a)) by (intros (l' & X); congruence)); pose proof (end_fail w i o a I E La X); congruence. }
      destruct (end_ok w i o I E D) as (w2 & E2 & _ & _ & _ & K). rewrite E1 in E2. injection E2 as <-. exact K.
    - destruct (the_local w i) as [o|] eqn:E; [|discriminate]. cbn [bind] in H. apply the_local_inv in E. eapply write_inv; eassumption.
  Qed.
  Lemma steps_app w a b : rsteps w (a ++ b) = (do w1 <- rsteps w a; rsteps w1 b).
  Proof. unfold RankwiseModel.rsteps. revert w. induction a as [|o a IH]; intros w; cbn [app foldM bind]; [reflexivity|]. destruct (rstep w o); cbn [bind]; [apply IH|reflexivity]. Qed.
  Lemma steps_inv l : forall w w', Inv w -> rsteps w l = Ok w' -> Inv w'.
  Proof.
    unfold RankwiseModel.rsteps. induction l as [|o l IH]; intros w w' I H; cbn [foldM] in H; [injection H as <-; exact I|]. destruct (rstep w o) as [w1|] eqn:E; [|discriminate]. cbn [bind] in H. apply (IH w1 w'); [eapply step_inv; eassumption|exact H].
  Qed.
  Lemma reached_inv w : reached w -> Inv w.
  Proof. intros (l & H). eapply steps_inv; [apply inv_empty|exact H]. Qed.
  Lemma reached_more w l w' : reached w -> rsteps w l = Ok w' -> reached w'.
  Proof. intros (l0 & H) K. exists (l0 ++ l). rewrite steps_app, H. exact K. Qed.

  (** A copy stays as it is as long as its object is not used. *)
  Lemma copy_kept w p w' i o c : Inv w -> nth_error (locals w) i = Some (Some o) -> local_ o = Some (Copy c) -> leaves_alone i p -> rstep w p = Ok w' ->
    nth_error (locals w') i = Some (Some o) /\ nth_error (copies w') c = nth_error (copies w) c.
  Proof.
    intros I N Lo A H. pose proof (nth_error_bound _ _ _ _ N) as Hi.
    assert (Live : exists v, nth_error (copies w) c = Some (Some v)).
    { pose proof (I_copies w I c) as K. pose proof (how_in (on_copy c) _ _ _ N) as J. cbn in J. rewrite Lo, Nat.eqb_refl in J. specialize (J eq_refl). unfold one_copy in K. destruct (nth_error (copies w) c) as [[v|]|]; [exists v; reflexivity|lia..]. }
    destruct Live as (v0 & Ev). pose proof (nth_error_bound _ _ _ _ Ev) as Hc.
    assert (Other : forall j x d, j <> i -> nth_error (locals w) j = Some (Some x) -> local_ x = Some (Copy d) -> d <> c).
    { intros j x d Nj Nx Lx ->. pose proof (how_two (on_copy c) _ _ _ _ _ Nj Nx N) as K. cbn in K. rewrite Lx, Lo, Nat.eqb_refl in K. specialize (K eq_refl eq_refl). rewrite (I_copies w I c) in K. unfold one_copy in K. rewrite Ev in K. lia. }
    assert (New : forall me g room w1 x, local_new w me g room = Ok (w1, x) -> locals w1 = locals w /\ nth_error (copies w1) c = nth_error (copies w) c).
    { intros me g room w1 x Hn. unfold local_new in Hn. destruct g as [a|]; [|injection Hn as <- <-; auto]. destruct (load w a); [|discriminate]. cbn [bind] in Hn. destruct (snd a =? me); [injection Hn as <- <-; auto|]. destruct room; injection Hn as <- <-; [|auto]. cbn. split; [reflexivity|apply nth_error_app1, Hc]. }
    destruct p as [d|k|k|me g room|me k rank room|j|j j'|j|j v]; cbn [RankwiseModel.rstep leaves_alone] in H, A.
    - injection H as <-. auto.
    - destruct (nth_res (wises w) k) as [d|]; [|discriminate]. cbn [bind] in H. destruct (wise_allocate zero num_ranks w d) as [[w1 d']|] eqn:E0; [|discriminate]. cbn [bind] in H. destruct (set_res (wises w1) k d') as [l|]; [|discriminate]. cbn [bind] in H. injection H as <-. unfold wise_allocate in E0. binds E0. injection E0 as <- <-. auto.
    - destruct (nth_res (wises w) k) as [d|]; [|discriminate]. cbn [bind] in H. destruct (wise_destroy w d) as [[w1 d']|] eqn:E0; [|discriminate]. cbn [bind] in H. destruct (set_res (wises w1) k d') as [l|]; [|discriminate]. cbn [bind] in H. injection H as <-. unfold wise_destroy in E0. destruct d as [b|]; [|discriminate]. binds E0. injection E0 as <- <-. auto.
    - unfold add_local in H. destruct (local_new w me g room) as [[w1 x]|] eqn:E; [|discriminate]. cbn [bind] in H. injection H as <-. destruct (New _ _ _ _ _ E) as [E1 E2]. cbn. rewrite E1, nth_error_app1 by exact Hi. auto.
    - destruct (nth_res (wises w) k) as [d|]; [|discriminate]. cbn [bind] in H. unfold add_local, there in H. destruct (address_at d rank) as [g|]; [|discriminate]. cbn [bind] in H. destruct (local_new w me g room) as [[w1 x]|] eqn:E; [|discriminate]. cbn [bind] in H. injection H as <-. destruct (New _ _ _ _ _ E) as [E1 E2]. cbn. rewrite E1, nth_error_app1 by exact Hi. auto.
    - destruct (the_local w j) as [x|] eqn:E; [|discriminate]. cbn [bind local_move] in H. binds H. injection H as <-. apply set_res_inv in E0. destruct E0 as [_ ->]. cbn. rewrite nth_error_app1 by (rewrite upd_length; exact Hi). rewrite upd_other by exact A. auto.
    - discriminate.
    - destruct (the_local w j) as [x|] eqn:E; [|discriminate]. cbn [bind] in H. apply the_local_inv in E. destruct (local_end w x) as [w1|] eqn:E1; [|discriminate]. cbn [bind] in H. binds H. injection H as <-. apply set_res_inv in E0. destruct E0 as [_ ->]. cbn. rewrite upd_other by exact A.
      unfold local_end in E1. destruct (local_ x) as [[a|d]|] eqn:Lx; [| |injection E1 as <-; auto].
      + destruct (remote_ x); [discriminate|]. destruct (global_ x) as [a'|]; [|discriminate]. unfold unpin in E1. binds E1. destruct (0 <? pins w a'); [|discriminate]. injection E1 as <-. auto.
      + destruct (remote_ x).
        * unfold free_copy in E1. binds E1. injection E1 as <-. apply set_res_inv in E2. destruct E2 as [_ ->]. cbn. rewrite upd_other by exact (Other j x d A E Lx). auto.
        * destruct (global_ x) as [a'|]; [|discriminate]. unfold unpin in E1. binds E1. destruct (0 <? pins w a'); [|discriminate]. injection E1 as <-. auto.
    - destruct (the_local w j) as [x|] eqn:E; [|discriminate]. cbn [bind] in H. apply the_local_inv in E. unfold local_write in H. destruct (local_ x) as [[a|d]|] eqn:Lx; [| |discriminate].
      + binds H. injection H as <-. auto.
      + binds H. injection H as <-. apply set_res_inv in E1. destruct E1 as [_ ->]. cbn. rewrite upd_other by exact (Other j x d A E Lx). auto.
  Qed.
End Proofs.
