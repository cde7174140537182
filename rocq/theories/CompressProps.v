(** C19: branches arrive unchanged on the other ranks. *)
From Coq Require Import ZArith List Bool Arith Lia.
From Verif Require Import Base ListFacts IndexModel TreeModel TreeFacts CompressModel CompressSpec CompressProofs ExtractProofs.
Import ListNotations.
Open Scope Z_scope.

(** The message has room for exactly one entry per node below the cell and every
    write is within it.  The receiver rebuilds, below its copy of the cell (same
    index, no children yet): the same paths; the node at each path has the
    original's index and is linked to its parent; no node of the block is shared
    or left over; and the first child of the cell is the start of the block, which
    is what is freed when the tree is deleted. *)
Theorem C19_round_trip : forall A (idx : A -> index) (t : tree A) fuel junk id cell this,
  indexed idx t -> (length (nodes t) <= fuel)%nat ->
  cell id = Ok this -> e_idx this = idx (info t) -> e_child this = repeat None 8 ->
  exists msg m, send_node fuel junk t id = Ok msg /\ recv_node cell msg = Ok (id, m) /\
    length msg = (2 + 2 * (length (nodes t) - 1))%nat /\
    (forall p, (exists n, sub t p = Some n) <-> (exists r, follow_links m (-1) p = Some r)) /\
    (forall p n r, sub t p = Some n -> follow_links m (-1) p = Some r -> exists e, node_behind m r = Some e /\ e_idx e = idx (info n)) /\
    (forall p w r, follow_links m (-1) (p ++ [w]) = Some r -> exists e, node_behind m r = Some e /\ e_parent e = follow_links m (-1) p) /\
    (forall p q r, follow_links m (-1) p = Some r -> follow_links m (-1) q = Some r -> p = q) /\
    Z.of_nat (length (m_block m)) = Z.of_nat (length (nodes t)) - 1 /\
    (forall k, 0 <= k < Z.of_nat (length (m_block m)) -> exists p, follow_links m (-1) p = Some k) /\
    freed_block (e_child (m_this m)) = (if is_leaf t then None else Some 0).
Proof.
  intros A idx t fuel junk id cell this HI F Hc Hi Hn.
  destruct (entries idx t HI fuel F) as (es & HC & LN & ND & CO & HF).
  destruct (extract_ok t es HC this Hn) as (m & EX & M).
  set (msg := [id; Z.of_nat (length es)] ++ map (fun e : ent => Z.of_nat (ent_w e)) es ++ map (fun e : ent => ent_ref e) es).
  exists msg, m.
  assert (Es : send_node fuel junk t id = Ok msg).
  { unfold send_node. rewrite ND. cbn [bind]. replace (Z.of_nat (S (length es)) - 1) with (Z.of_nat (length es)) by lia. rewrite Nat2Z.id.
    destruct (Z.eqb_spec (Z.of_nat (length es)) 0) as [E0|E0].
    - destruct es; [reflexivity|cbn in E0; lia].
    - rewrite CO by apply repeat_length. reflexivity. }
  assert (Er : recv_node cell msg = Ok (id, m)).
  { unfold recv_node, msg. cbn [app nth_resZ]. change (nth_resZ (id :: Z.of_nat (length es) :: map (fun e : ent => Z.of_nat (ent_w e)) es ++ map (fun e : ent => ent_ref e) es) 0) with (Ok id).
    cbn [bind]. change (nth_resZ (id :: Z.of_nat (length es) :: map (fun e : ent => Z.of_nat (ent_w e)) es ++ map (fun e : ent => ent_ref e) es) 1) with (Ok (Z.of_nat (length es))).
    cbn [bind]. rewrite Hc. cbn [bind]. replace (Z.to_nat (2 + Z.of_nat (length es))) with (2 + length es)%nat by lia. cbn [skipn Nat.add].
    rewrite skipn_app, skipn_all2 by (rewrite map_length; lia). rewrite map_length, Nat.sub_diag. cbn [app skipn].
    assert (X : forall n b tr k mm, (k <= n)%nat -> (n <= length b)%nat -> foldM (extract_step b tr) (map (fun j => 0 + Z.of_nat j) (seq k (n - k))) mm = foldM (extract_step (b ++ tr) tr) (map (fun j => 0 + Z.of_nat j) (seq k (n - k))) mm).
    { intros n b tr. assert (Y : forall c k mm, (k + c <= length b)%nat -> foldM (extract_step b tr) (map (fun j => 0 + Z.of_nat j) (seq k c)) mm = foldM (extract_step (b ++ tr) tr) (map (fun j => 0 + Z.of_nat j) (seq k c)) mm).
      { induction c as [|c IH]; intros k mm Hk; [reflexivity|]. cbn [seq map foldM].
        assert (Z1 : extract_step b tr mm (0 + Z.of_nat k) = extract_step (b ++ tr) tr mm (0 + Z.of_nat k)).
        { unfold extract_step. destruct (nth_resZ tr _); [|reflexivity]. cbn [bind].
          assert (Z2 : nth_resZ b (0 + Z.of_nat k) = nth_resZ (b ++ tr) (0 + Z.of_nat k)).
          { destruct (nth_error_lt _ b k ltac:(lia)) as [x Hx].
            replace (nth_resZ b (0 + Z.of_nat k)) with (Ok x) by (symmetry; apply nth_resZ_ok; split; [lia|]; rewrite Z.add_0_l, Nat2Z.id; assumption).
            symmetry. apply nth_resZ_ok. split; [lia|]. rewrite Z.add_0_l, Nat2Z.id, nth_error_app1 by lia. assumption. }
          rewrite Z2. reflexivity. }
        rewrite Z1. destruct (extract_step (b ++ tr) tr mm _); cbn [bind]; [|reflexivity]. apply IH. lia. }
      intros k mm H1 H2. apply Y. lia. }
    unfold extract in EX |- *. rewrite Nat2Z.id in *. unfold zseq in *.
    pose proof (X (length es) (map (fun e : ent => Z.of_nat (ent_w e)) es) (map (fun e : ent => ent_ref e) es) 0%nat (mkM this (repeat enode0 (length es))) ltac:(lia) ltac:(rewrite map_length; lia)) as Y.
    rewrite Nat.sub_0_r in Y. rewrite <- Y, EX. reflexivity. }
  pose proof (links_paths t es HC this m M) as LP. pose proof (valid_path_of t es HC) as VP.
  split; [exact Es|]. split; [exact Er|]. split; [unfold msg; cbn [app length]; rewrite app_length, !map_length; lia|].
  assert (BK : forall r p, valid_ref es r -> path_of es r = Some p -> exists e, node_behind m r = Some e /\ e_idx e = follow (e_idx this) p /\ (0 <= r -> exists f, nth_error es (Z.to_nat r) = Some f /\ e_parent e = Some (ent_ref f))).
  { intros r p V P. destruct (behind_some es m r V (mi_len _ _ _ _ M)) as [e He]. exists e. split; [assumption|]. unfold node_behind in He. unfold path_of in P. unfold valid_ref in V. destruct (Z.ltb_spec r 0).
    - inversion He; inversion P; subst. split; [apply (mi_this _ _ _ _ M)|lia].
    - destruct (nth_error es (Z.to_nat r)) as [f|] eqn:Hf; [|discriminate]. cbn in P. inversion P; subst. destruct (mi_done _ _ _ _ M (Z.to_nat r) f ltac:(lia) Hf) as (nd & Hnd & I1 & I2). rewrite Hnd in He. inversion He; subst. split; [assumption|]. intros _. exists f. auto. }
  split. { intros p. rewrite (VP p : (exists n, sub t p = Some n) <-> _). split; intros (r & H); exists r; apply LP; assumption. }
  split. { intros p n r Sp Fp. apply LP in Fp. destruct Fp as [V P]. destruct (BK r p V P) as (e & B & I & _). exists e. split; [assumption|]. rewrite I, Hi. symmetry. apply (indexed_follow _ idx); assumption. }
  split. { intros p w r Fp. apply LP in Fp. destruct Fp as [V P]. destruct (BK r _ V P) as (e & B & _ & Q).
    assert (Hr : 0 <= r) by (unfold path_of in P; destruct (Z.ltb_spec r 0); [inversion P; destruct p; discriminate|lia]).
    destruct (Q Hr) as (f & Hf & Pf). exists e. split; [assumption|]. rewrite Pf. symmetry. apply LP.
    destruct (es_parent t es HC _ _ Hf) as (q & Hq & Eq & R & _). unfold path_of in P. destruct (Z.ltb_spec r 0); [lia|]. rewrite Hf in P. cbn in P. inversion P as [P']. rewrite Eq in P'. apply app_inj_tail in P'. destruct P' as [-> _].
    split; [|assumption]. unfold valid_ref in *. lia. }
  split. { intros p q r Hp Hq. apply LP in Hp. apply LP in Hq. destruct Hp as [_ Hp]. destruct Hq as [_ Hq]. congruence. }
  split; [rewrite (mi_len _ _ _ _ M); lia|].
  split. { intros k Hk. rewrite (mi_len _ _ _ _ M) in Hk. destruct (nth_error_lt _ es (Z.to_nat k) ltac:(lia)) as [f Hf]. exists (ent_path f). apply LP. split; [unfold valid_ref; lia|]. unfold path_of. destruct (Z.ltb_spec k 0); [lia|]. rewrite Hf. reflexivity. }
  assert (V0 : valid_ref es (-1)) by (unfold valid_ref; lia).
  assert (L8 : length (e_child (m_this m)) = 8%nat) by (apply (mi_len8 _ _ _ _ M (-1) (m_this m) V0); reflexivity).
  pose proof (fun w k => mi_link _ _ _ _ M (-1) (m_this m) w k V0 eq_refl) as LK.
  assert (NK : forall j, (j < 8)%nat -> kid t j = None -> nth_error (e_child (m_this m)) j = Some None).
  { intros j Hj K. destruct (nth_error_lt _ (e_child (m_this m)) j ltac:(lia)) as [o Ho]. destruct o as [k|]; [|assumption]. exfalso. apply LK in Ho. destruct Ho as (e & K1 & K2 & K3 & K4).
    destruct (es_parent t es HC _ _ K2) as (q & Hq & Eq & _). rewrite K3 in Hq. cbn in Hq. inversion Hq; subst q. cbn [app] in Eq. destruct HC as (S & _). destruct (S _ _ K2) as (X & _). rewrite Eq, K4 in X. cbn [sub] in X. rewrite K in X. discriminate. }
  destruct (nth_error es 0) as [e|] eqn:E0.
  - destruct (HF e eq_refl) as [R0 L0]. destruct (es_parent t es HC _ _ E0) as (q & Hq & Eq & _ & W). rewrite R0 in Hq. cbn in Hq. inversion Hq; subst q. cbn [app] in Eq.
    assert (Hleaf : is_leaf t = false).
    { destruct HC as (S & _). destruct (S _ _ E0) as (X & _). rewrite Eq in X. cbn [sub] in X. destruct (kid t (ent_w e)) as [c|] eqn:K; [|discriminate]. apply kid_in in K. unfold is_leaf. apply Nat.eqb_neq. unfold n_children. intros N.
      assert (In (Some c) (filter (fun o => match o with Some _ => true | None => false end) (kids t))) by (apply filter_In; auto). destruct (filter _ (kids t)); [contradiction|discriminate]. }
    rewrite Hleaf. apply freed_first with (w := ent_w e).
    + apply LK. exists e. split; [pose proof (nth_error_bound _ _ _ _ E0); lia|]. auto.
    + intros j Hj. apply NK; [lia|]. apply L0. assumption.
  - assert (En : es = []) by (destruct es; [reflexivity|discriminate]).
    assert (KN : forall j, kid t j = None). { intros j. destruct (kid t j) as [c|] eqn:K; [|reflexivity]. exfalso. destruct HC as (_ & _ & All). rewrite En in All. apply (All [j]). split; [exists c; cbn [sub]; rewrite K; reflexivity|discriminate]. }
    assert (Hleaf : is_leaf t = true).
    { unfold is_leaf. apply Nat.eqb_eq. unfold n_children. destruct (filter _ (kids t)) as [|o l] eqn:Ef; [reflexivity|]. exfalso. assert (In o (o :: l)) as X by (left; reflexivity). rewrite <- Ef in X. apply filter_In in X. destruct X as [X Y]. destruct o as [c|]; [|discriminate]. apply in_kid in X. destruct X as [w X]. rewrite KN in X. discriminate. }
    rewrite Hleaf. assert (AN : forall j, (j < 8)%nat -> nth_error (e_child (m_this m)) j = Some None) by (intros j Hj; apply NK; auto).
    clear -AN L8. destruct (e_child (m_this m)) as [|o0 [|o1 [|o2 [|o3 [|o4 [|o5 [|o6 [|o7 [|o8 l]]]]]]]]]; try discriminate.
    pose proof (AN 0%nat ltac:(lia)) as A0. pose proof (AN 1%nat ltac:(lia)) as A1. pose proof (AN 2%nat ltac:(lia)) as A2. pose proof (AN 3%nat ltac:(lia)) as A3.
    pose proof (AN 4%nat ltac:(lia)) as A4. pose proof (AN 5%nat ltac:(lia)) as A5. pose proof (AN 6%nat ltac:(lia)) as A6. pose proof (AN 7%nat ltac:(lia)) as A7. cbn in A0, A1, A2, A3, A4, A5, A6, A7. apply some_inj in A0, A1, A2, A3, A4, A5, A6, A7. subst. reflexivity.
Qed.
Print Assumptions C19_round_trip.

(** [n_descendants] counts the nodes of the branch. *)
Theorem C19_count : forall A (idx : A -> index) (t : tree A) fuel, indexed idx t -> (length (nodes t) <= fuel)%nat ->
  n_descendants fuel t = Ok (Z.of_nat (length (nodes t))).
Proof. intros A idx t fuel HI F. destruct (entries idx t HI fuel F) as (es & _ & L & N & _). rewrite L. assumption. Qed.
Print Assumptions C19_count.

(** A branch with two generations below the cell. *)
Definition ex_cell : index := mkIndex 1 0 1 1.
Definition ex_lf (i : index) : tree index := T i no_kids.
Definition ex_branch : tree index :=
  T ex_cell [None; None; Some (T (child 2 ex_cell) [None; Some (ex_lf (child 1 (child 2 ex_cell))); None; None; None; None; None; Some (ex_lf (child 7 (child 2 ex_cell)))]);
             None; None; Some (ex_lf (child 5 ex_cell)); None; None].

Lemma ex_lf_indexed : forall i, indexed (fun x => x) (ex_lf i).
Proof.
  intros i p n S. destruct p as [|w p]; cbn [sub] in S; unfold ex_lf in S.
  - inversion S. split; [reflexivity|]. intros w c K. rewrite kid_no_kids in K. discriminate.
  - rewrite kid_no_kids in S. discriminate.
Qed.

Example C19_nonvacuous : indexed (fun x => x) ex_branch /\ send_node 5 99 ex_branch 17 = Ok [17; 4; 2; 5; 1; 7; -1; -1; 0; 0] /\
  (do r <- recv_node (fun _ => Ok (mkE ex_cell None (repeat None 8))) [17; 4; 2; 5; 1; 7; -1; -1; 0; 0]; Ok (map e_idx (m_block (snd r)))) =
  Ok [child 2 ex_cell; child 5 ex_cell; child 1 (child 2 ex_cell); child 7 (child 2 ex_cell)].
Proof.
  split; [|split; reflexivity].
  assert (N : forall t : tree index, length (kids t) = 8%nat -> (forall w c, kid t w = Some c -> info c = child (Z.of_nat w) (info t) /\ indexed (fun x => x) c) -> indexed (fun x => x) t).
  { intros t L H p n S. destruct p as [|w p]; cbn [sub] in S.
    - inversion S; subst. split; [assumption|]. intros w c K. apply H. assumption.
    - destruct (kid t w) as [c|] eqn:K; [|discriminate]. destruct (H _ _ K) as [_ X]. exact (X p n S). }
  apply N; [reflexivity|]. intros w c K. destruct w as [|[|[|[|[|[|[|[|w]]]]]]]]; cbn in K; try discriminate; try (destruct w; discriminate); inversion K; subst; clear K; (split; [reflexivity|]); try apply ex_lf_indexed.
  apply N; [reflexivity|]. intros w c K. destruct w as [|[|[|[|[|[|[|[|w]]]]]]]]; cbn in K; try discriminate; try (destruct w; discriminate); inversion K; subst; clear K; (split; [reflexivity|]); apply ex_lf_indexed.
Qed.
