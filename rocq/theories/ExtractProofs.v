From Coq Require Import ZArith List Bool Arith Lia.
From Verif Require Import Base ListFacts IndexModel TreeModel TreeFacts CompressModel CompressSpec CompressProofs.
Import ListNotations.
Open Scope nat_scope.

Lemma freed_first : forall (cs : list (option Z)) w r, nth_error cs w = Some (Some r) -> (forall j, j < w -> nth_error cs j = Some None) -> freed_block cs = Some r.
Proof.
  induction cs as [|o cs IH]; intros w r H L; [destruct w; discriminate|]. destruct w as [|w]; cbn [nth_error] in H.
  - apply some_inj in H. subst. reflexivity.
  - pose proof (L 0 ltac:(lia)) as H0. cbn in H0. apply some_inj in H0. subst o. cbn. apply (IH w r H). intros j Hj. apply (L (S j)). lia.
Qed.

Section Proofs.
Context {A : Type} (idx : A -> index) (t : tree A) (HI : indexed idx t).
Variable es : list (ent (A := A)).
Hypothesis HC : complete t es.
Let n := length es.
Variable this : enode.
Hypothesis Hthis : e_child this = repeat None 8.

Lemma es_parent : forall k e, nth_error es k = Some e -> exists q, path_of es (ent_ref e) = Some q /\ ent_path e = q ++ [ent_w e] /\ (-1 <= ent_ref e < Z.of_nat k)%Z /\ ent_w e < 8.
Proof. intros k e H. destruct HC as (S & _). destruct (S k e H) as (_ & R & W & q & P & E). exists q. auto. Qed.

Lemma es_unique : forall k l e f, nth_error es k = Some e -> nth_error es l = Some f -> ent_path e = ent_path f -> k = l.
Proof.
  intros k l e f Hk Hl E. destruct HC as (_ & N & _). rewrite NoDup_nth_error in N. apply N; [rewrite map_length; eapply nth_error_bound; eassumption|].
  rewrite (map_nth_error ent_path _ _ Hk), (map_nth_error ent_path _ _ Hl), E. reflexivity.
Qed.

Lemma path_of_inj : forall r s p, (-1 <= r)%Z -> (-1 <= s)%Z -> path_of es r = Some p -> path_of es s = Some p -> r = s.
Proof.
  intros r s p Hr Hs. unfold path_of. assert (N : forall k e, nth_error es k = Some e -> ent_path e <> []). { intros k e He. destruct (es_parent k e He) as (q & _ & -> & _). destruct q; discriminate. }
  destruct (Z.ltb_spec r 0), (Z.ltb_spec s 0); intros A1 A2; try lia.
  - inversion A1; subst. destruct (nth_error es (Z.to_nat s)) eqn:E; [|discriminate]. cbn in A2. inversion A2. exfalso. eapply N; eassumption.
  - inversion A2; subst. destruct (nth_error es (Z.to_nat r)) eqn:E; [|discriminate]. cbn in A1. inversion A1. exfalso. eapply N; eassumption.
  - destruct (nth_error es (Z.to_nat r)) as [e|] eqn:E; [|discriminate]. destruct (nth_error es (Z.to_nat s)) as [f|] eqn:F; [|discriminate]. cbn in *. inversion A1; inversion A2; subst.
    pose proof (es_unique _ _ _ _ E F ltac:(congruence)). lia.
Qed.

(** Same parent and slot: same entry. *)
Lemma slot_unique : forall k l e f, nth_error es k = Some e -> nth_error es l = Some f -> ent_ref e = ent_ref f -> ent_w e = ent_w f -> k = l.
Proof.
  intros k l e f Hk Hl R W. destruct (es_parent k e Hk) as (q & Q & E & _). destruct (es_parent l f Hl) as (q' & Q' & E' & _). apply (es_unique k l e f Hk Hl). rewrite E, E', W. rewrite R in Q. congruence.
Qed.

Definition valid_ref (r : Z) : Prop := (-1 <= r < Z.of_nat n)%Z.

(** Memory after [i] entries. *)
Record minv (i : nat) (m : emem) : Prop := {
  mi_len : length (m_block m) = n;
  mi_this : e_idx (m_this m) = e_idx this /\ e_parent (m_this m) = e_parent this;
  mi_done : forall k e, k < i -> nth_error es k = Some e -> exists nd, nth_error (m_block m) k = Some nd /\ e_idx nd = follow (e_idx this) (ent_path e) /\ e_parent nd = Some (ent_ref e);
  mi_len8 : forall r nd, valid_ref r -> node_behind m r = Some nd -> length (e_child nd) = 8;
  mi_link : forall r nd w k, valid_ref r -> node_behind m r = Some nd ->
    (nth_error (e_child nd) w = Some (Some k) <-> exists e, (0 <= k < Z.of_nat i)%Z /\ nth_error es (Z.to_nat k) = Some e /\ ent_ref e = r /\ ent_w e = w) }.

Let branch := map (fun e : ent => Z.of_nat (ent_w e)) es.
Let tr := map (fun e : ent => ent_ref e) es.

Lemma behind_ok : forall m r nd, valid_ref r -> node_behind m r = Some nd <-> e_load m r = Ok nd.
Proof.
  intros m r nd H. unfold node_behind, e_load. destruct (Z.ltb_spec r 0); [split; intros X; inversion X; reflexivity|]. rewrite nth_resZ_ok. split; [intros; split; [lia|assumption]|intros []; assumption].
Qed.

Lemma store_behind : forall m r nd, valid_ref r -> length (m_block m) = n -> exists m', e_store m r nd = Ok m' /\ length (m_block m') = n /\
  forall r', valid_ref r' -> node_behind m' r' = if (r' =? r)%Z then Some nd else node_behind m r'.
Proof.
  intros m r nd H L. unfold e_store. unfold valid_ref in H. destruct (Z.ltb_spec r 0).
  - eexists. split; [reflexivity|]. split; [assumption|]. intros r' Hr'. unfold node_behind. unfold valid_ref in Hr'. destruct (Z.ltb_spec r' 0); destruct (Z.eqb_spec r' r); try lia; reflexivity.
  - rewrite set_resZ_ok by lia. cbn [bind]. eexists. split; [reflexivity|]. cbn [m_block m_this]. split; [rewrite upd_length; assumption|]. intros r' Hr'. unfold node_behind. cbn [m_block m_this]. unfold valid_ref in Hr'.
    destruct (Z.ltb_spec r' 0); destruct (Z.eqb_spec r' r); try lia; try reflexivity.
    + subst. apply upd_same. lia.
    + apply upd_other. lia.
Qed.

Lemma behind_some : forall m r, valid_ref r -> length (m_block m) = n -> exists nd, node_behind m r = Some nd.
Proof. intros m r H L. unfold node_behind, valid_ref in *. destruct (Z.ltb_spec r 0); [eauto|]. apply nth_error_lt. lia. Qed.

Lemma extract_step_ok : forall i m, i < n -> minv i m -> exists m', extract_step branch tr m (Z.of_nat i) = Ok m' /\ minv (S i) m'.
Proof.
  intros i m Hi [M1 M2 M3 M4 M5]. destruct (nth_error_lt _ es i Hi) as [e He]. destruct (es_parent i e He) as (q & Q & E & R & W).
  unfold extract_step.
  assert (X1 : nth_resZ tr (Z.of_nat i) = Ok (ent_ref e)) by (apply nth_resZ_ok; split; [lia|]; rewrite Nat2Z.id; apply (map_nth_error ent_ref); assumption).
  assert (X2 : nth_resZ branch (Z.of_nat i) = Ok (Z.of_nat (ent_w e))) by (apply nth_resZ_ok; split; [lia|]; rewrite Nat2Z.id; apply (map_nth_error (fun e : ent => Z.of_nat (ent_w e))); assumption).
  rewrite X1. cbn [bind]. rewrite X2. cbn [bind]. clear X1 X2.
  replace (if (ent_ref e <? 0)%Z then (-1)%Z else ent_ref e) with (ent_ref e) by (destruct (Z.ltb_spec (ent_ref e) 0); lia).
  assert (Vi : valid_ref (Z.of_nat i)) by (unfold valid_ref; lia). assert (Vr : valid_ref (ent_ref e)) by (unfold valid_ref; fold n; lia).
  destruct (behind_some m _ Vi M1) as [curr Hc]. destruct (behind_some m _ Vr M1) as [par Hp].
  assert (Xc : nth_resZ (m_block m) (Z.of_nat i) = Ok curr). { apply (behind_ok m _ _ Vi) in Hc. unfold e_load in Hc. replace (Z.of_nat i <? 0)%Z with false in Hc by (symmetry; apply Z.ltb_ge; lia). assumption. }
  rewrite Xc. cbn [bind]. rewrite (proj1 (behind_ok m _ _ Vr) Hp). cbn [bind].
  destruct (store_behind m (Z.of_nat i) (mkE (child (Z.of_nat (ent_w e)) (e_idx par)) (Some (ent_ref e)) (e_child curr)) Vi M1) as (m1 & E1 & L1 & B1). rewrite E1. cbn [bind].
  assert (Hp1 : node_behind m1 (ent_ref e) = Some par). { rewrite (B1 _ Vr). replace (ent_ref e =? Z.of_nat i)%Z with false by (symmetry; apply Z.eqb_neq; lia). assumption. }
  rewrite (proj1 (behind_ok m1 _ _ Vr) Hp1). cbn [bind]. rewrite set_resZ_ok by (rewrite (M4 _ _ Vr Hp); lia). cbn [bind]. rewrite Nat2Z.id.
  destruct (store_behind m1 (ent_ref e) (mkE (e_idx par) (e_parent par) (upd (e_child par) (ent_w e) (Some (Z.of_nat i)))) Vr L1) as (m2 & E2 & L2 & B2). rewrite E2. exists m2. split; [reflexivity|].
  assert (Epar : e_idx par = follow (e_idx this) q).
  { unfold path_of in Q. destruct (Z.ltb_spec (ent_ref e) 0) as [N|N].
    - inversion Q; subst. unfold node_behind in Hp. replace (ent_ref e <? 0)%Z with true in Hp by (symmetry; apply Z.ltb_lt; assumption). inversion Hp; subst. apply M2.
    - destruct (nth_error es (Z.to_nat (ent_ref e))) as [f|] eqn:Hf; [|discriminate]. cbn in Q. inversion Q; subst. destruct (M3 (Z.to_nat (ent_ref e)) f ltac:(lia) Hf) as (nd & Hnd & I1 & _).
      unfold node_behind in Hp. replace (ent_ref e <? 0)%Z with false in Hp by (symmetry; apply Z.ltb_ge; assumption). rewrite Hnd in Hp. inversion Hp; subst. assumption. }
  assert (Bi : node_behind m2 (Z.of_nat i) = Some (mkE (child (Z.of_nat (ent_w e)) (e_idx par)) (Some (ent_ref e)) (e_child curr))).
  { rewrite (B2 _ Vi), (B1 _ Vi), Z.eqb_refl. replace (Z.of_nat i =? ent_ref e)%Z with false by (symmetry; apply Z.eqb_neq; lia). reflexivity. }
  assert (Bk : forall k nd, k < n -> node_behind m2 (Z.of_nat k) = Some nd -> nth_error (m_block m2) k = Some nd).
  { intros k nd _ H. unfold node_behind in H. replace (Z.of_nat k <? 0)%Z with false in H by (symmetry; apply Z.ltb_ge; lia). rewrite Nat2Z.id in H. assumption. }
  split.
  - assumption.
  - assert (V0 : valid_ref (-1)) by (unfold valid_ref; lia). pose proof (B2 _ V0) as Z2. pose proof (B1 _ V0) as Z1. replace (-1 =? Z.of_nat i)%Z with false in Z1 by (symmetry; apply Z.eqb_neq; lia).
    unfold node_behind in Z1, Z2. change (-1 <? 0)%Z with true in Z1, Z2. cbv iota in Z1, Z2. apply some_inj in Z1.
    destruct (Z.eqb_spec (-1) (ent_ref e)) as [X|X]; apply some_inj in Z2; rewrite Z2; [|rewrite Z1; assumption].
    rewrite <- X in Hp. unfold node_behind in Hp. cbn in Hp. apply some_inj in Hp. cbn [e_idx e_parent]. rewrite <- Hp. assumption.
  - intros k f Hk Hf. destruct (Nat.eq_dec k i) as [->|Nk].
    + rewrite He in Hf. apply some_inj in Hf. subst f. eexists. split; [apply Bk; [assumption|exact Bi]|]. cbn [e_idx e_parent]. split; [|reflexivity]. rewrite E, Epar. unfold follow. rewrite fold_left_app. reflexivity.
    + destruct (M3 k f ltac:(lia) Hf) as (nd & Hnd & I1 & I2). pose proof (nth_error_bound _ _ _ _ Hf) as Lk. fold n in Lk.
      assert (Vk : valid_ref (Z.of_nat k)) by (unfold valid_ref; lia).
      assert (Hb : node_behind m (Z.of_nat k) = Some nd) by (unfold node_behind; replace (Z.of_nat k <? 0)%Z with false by (symmetry; apply Z.ltb_ge; lia); rewrite Nat2Z.id; assumption).
      pose proof (B2 _ Vk) as Z2. rewrite (B1 _ Vk) in Z2. replace (Z.of_nat k =? Z.of_nat i)%Z with false in Z2 by (symmetry; apply Z.eqb_neq; lia).
      destruct (Z.eqb_spec (Z.of_nat k) (ent_ref e)) as [X|X].
      * rewrite X in Hb. rewrite Hp in Hb. apply some_inj in Hb. subst nd. eexists. split; [apply Bk; eassumption|]. auto.
      * rewrite Hb in Z2. exists nd. split; [apply Bk; assumption|]. auto.
  - intros r nd Vr' H. rewrite (B2 _ Vr'), (B1 _ Vr') in H. destruct (r =? ent_ref e)%Z; [apply some_inj in H; rewrite <- H; cbn [e_child]; rewrite upd_length; apply (M4 _ _ Vr Hp)|].
    destruct (r =? Z.of_nat i)%Z; [apply some_inj in H; rewrite <- H; cbn [e_child]; apply (M4 _ _ Vi Hc)|]. eapply M4; eassumption.
  - intros r nd w k Vr' H. rewrite (B2 _ Vr'), (B1 _ Vr') in H.
    assert (S1 : forall e', nth_error es (Z.to_nat k) = Some e' -> (0 <= k < Z.of_nat (S i))%Z -> k = Z.of_nat i \/ (0 <= k < Z.of_nat i)%Z) by (intros; lia).
    destruct (Z.eqb_spec r (ent_ref e)) as [Er|Er].
    + apply some_inj in H. subst nd r. cbn [e_child]. destruct (Nat.eq_dec w (ent_w e)) as [->|Nw].
      * rewrite upd_same by (rewrite (M4 _ _ Vr Hp); assumption). split.
        -- intros X. inversion X; subst k. exists e. rewrite Nat2Z.id. repeat split; try assumption; lia.
        -- intros (e' & K1 & K2 & K3 & K4). pose proof (slot_unique _ _ _ _ K2 He K3 K4). do 2 f_equal. lia.
      * rewrite upd_other by auto. rewrite (M5 _ _ w k Vr Hp). split; intros (e' & K1 & K2 & K3 & K4); exists e'.
        -- repeat split; try assumption; lia.
        -- destruct (S1 e' K2 K1) as [->|K1']; [|auto]. rewrite Nat2Z.id, He in K2. apply some_inj in K2. subst e'. congruence.
    + assert (Hl : (nth_error (e_child nd) w = Some (Some k) <-> exists e0, (0 <= k < Z.of_nat i)%Z /\ nth_error es (Z.to_nat k) = Some e0 /\ ent_ref e0 = r /\ ent_w e0 = w)).
      { destruct (Z.eqb_spec r (Z.of_nat i)) as [Ei|Ei]; [apply some_inj in H; subst nd r; cbn [e_child]; apply (M5 _ _ w k Vi Hc)|]. apply M5; assumption. }
      rewrite Hl. split; intros (e' & K1 & K2 & K3 & K4); exists e'.
      * repeat split; try assumption; lia.
      * destruct (S1 e' K2 K1) as [->|K1']; [|auto]. rewrite Nat2Z.id, He in K2. apply some_inj in K2. subst e'. congruence.
Qed.

Lemma no_link : forall w k, nth_error (repeat (@None Z) 8) w <> Some (Some k).
Proof. intros w k H. apply nth_error_In in H. apply repeat_spec in H. discriminate. Qed.

Lemma minv_start : minv 0 (mkM this (repeat enode0 n)).
Proof.
  assert (B : forall r nd, node_behind (mkM this (repeat enode0 n)) r = Some nd -> e_child nd = repeat None 8).
  { intros r nd H. unfold node_behind in H. cbn [m_this m_block] in H. destruct (r <? 0)%Z; [apply some_inj in H; subst; assumption|]. apply nth_error_In in H. apply repeat_spec in H. subst. reflexivity. }
  split.
  - apply repeat_length.
  - auto.
  - intros k e H. lia.
  - intros r nd _ H. rewrite (B r nd H). reflexivity.
  - intros r nd w k _ H. rewrite (B r nd H). split; [intros X; exfalso; exact (no_link _ _ X)|]. intros (e & K & _). lia.
Qed.

Lemma extract_ok : exists m, extract this branch tr (Z.of_nat n) = Ok m /\ minv n m.
Proof.
  unfold extract. rewrite Nat2Z.id.
  assert (X : forall c a m, a + c = n -> minv a m -> exists m', foldM (extract_step branch tr) (map (fun k => 0 + Z.of_nat k)%Z (seq a c)) m = Ok m' /\ minv n m').
  { induction c as [|c IH]; intros a m Ha Hm; cbn [seq map foldM].
    - exists m. split; [reflexivity|]. replace n with a by lia. assumption.
    - destruct (extract_step_ok a m ltac:(lia) Hm) as (m' & E & M'). rewrite Z.add_0_l, E. cbn [bind]. apply IH; [lia|assumption]. }
  apply (X n 0); [reflexivity|apply minv_start].
Qed.

(** Following links. *)
Lemma follow_links_app : forall m p q r, follow_links m r (p ++ q) = match follow_links m r p with Some r' => follow_links m r' q | None => None end.
Proof.
  intros m. induction p as [|w p IH]; intros q r; [reflexivity|]. cbn [app follow_links]. destruct (if (r <? 0)%Z then _ else _) as [nd|]; [|reflexivity]. destruct (nth_error (e_child nd) w) as [[r'|]|]; try reflexivity. apply IH.
Qed.

Lemma links_paths : forall m, minv n m -> forall p r, follow_links m (-1) p = Some r <-> valid_ref r /\ path_of es r = Some p.
Proof.
  intros m [M1 M2 M3 M4 M5]. induction p as [|w p IH] using rev_ind; intros r.
  - cbn [follow_links]. split.
    + intros H. apply some_inj in H. subst. split; [unfold valid_ref; lia|reflexivity].
    + intros [V P]. f_equal. symmetry. apply (path_of_inj r (-1) []); [unfold valid_ref in V; lia|lia|assumption|reflexivity].
  - rewrite follow_links_app. split.
    + intros H. destruct (follow_links m (-1) p) as [r1|] eqn:F; [|discriminate]. destruct (proj1 (IH r1) eq_refl) as [V1 P1]. cbn [follow_links] in H.
      change (if (r1 <? 0)%Z then Some (m_this m) else nth_error (m_block m) (Z.to_nat r1)) with (node_behind m r1) in H.
      destruct (node_behind m r1) as [nd|] eqn:B; [|discriminate]. destruct (nth_error (e_child nd) w) as [[r'|]|] eqn:C; try discriminate. apply some_inj in H. subst r'.
      apply (M5 _ _ w r V1 B) in C. destruct C as (e & K1 & K2 & K3 & K4). split; [unfold valid_ref; lia|]. destruct (es_parent _ _ K2) as (q & Q & E & _).
      unfold path_of. replace (r <? 0)%Z with false by (symmetry; apply Z.ltb_ge; lia). rewrite K2. cbn. rewrite E, K4. rewrite K3, P1 in Q. inversion Q; subst. reflexivity.
    + intros [V P]. unfold path_of in P. destruct (Z.ltb_spec r 0); [inversion P; destruct p; discriminate|]. destruct (nth_error es (Z.to_nat r)) as [e|] eqn:K; [|discriminate]. cbn in P. apply some_inj in P.
      destruct (es_parent _ _ K) as (q & Q & E & R & W). rewrite E in P. apply app_inj_tail in P. destruct P as [-> <-].
      assert (V1 : valid_ref (ent_ref e)) by (unfold valid_ref in *; lia).
      rewrite (proj2 (IH (ent_ref e)) (conj V1 Q)). cbn [follow_links].
      change (if (ent_ref e <? 0)%Z then Some (m_this m) else nth_error (m_block m) (Z.to_nat (ent_ref e))) with (node_behind m (ent_ref e)).
      destruct (behind_some m _ V1 M1) as [nd B]. rewrite B.
      rewrite (proj2 (M5 _ _ (ent_w e) r V1 B)); [reflexivity|]. exists e. unfold valid_ref in V. repeat split; try assumption; lia.
Qed.

Lemma valid_path_of : forall p, valid t p <-> exists r, valid_ref r /\ path_of es r = Some p.
Proof.
  intros p. destruct HC as (S & N & All). split.
  - intros Hv. destruct p as [|w p]; [exists (-1)%Z; split; [unfold valid_ref; lia|reflexivity]|].
    assert (H : In (w :: p) (map ent_path es)) by (apply All; split; [assumption|intros X; discriminate X]). apply in_map_iff in H. destruct H as (e & E & He). apply In_nth_error in He. destruct He as [k Hk].
    exists (Z.of_nat k). pose proof (nth_error_bound _ _ _ _ Hk). split; [unfold valid_ref; fold n in H; lia|]. unfold path_of. replace (Z.of_nat k <? 0)%Z with false by (symmetry; apply Z.ltb_ge; lia). rewrite Nat2Z.id, Hk. cbn. rewrite E. reflexivity.
  - intros (r & V & P). unfold path_of in P. destruct (r <? 0)%Z; [inversion P; exists t; reflexivity|]. destruct (nth_error es (Z.to_nat r)) as [e|] eqn:E; [|discriminate]. cbn in P. inversion P; subst.
    destruct (S _ _ E) as (X & _). exists (ent_t e). assumption.
Qed.

End Proofs.
