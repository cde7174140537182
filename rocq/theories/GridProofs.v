From Coq Require Import ZArith List Lia Bool.
From Verif Require Import Base IndexModel IndexSpec IndexProofs GridModel GridSpec.
Import ListNotations.
Local Open Scope Z_scope.
Ltac Zify.zify_post_hook ::= Z.div_mod_to_equations.

(** ** Slot numbers *)

Lemma slot_bounds : forall i L, 0 <= L -> ilevel i = L -> in_grid i ->
  0 <= slot_of i L < 2 ^ L * 2 ^ L * 2 ^ L.
Proof.
  intros i L HL E (Hl & Hx & Hy & Hz). rewrite E in *. unfold slot_of. nia.
Qed.

Lemma pow8 : forall L, 0 <= L -> 8 ^ L = 2 ^ L * 2 ^ L * 2 ^ L.
Proof.
  intros. change 8 with (2 * 2 * 2). rewrite !Z.pow_mul_l. reflexivity.
Qed.

Lemma radix_inj : forall m a b p q, 0 <= a < m -> 0 <= b < m -> a + m * p = b + m * q -> a = b /\ p = q.
Proof.
  intros m a b p q Ha Hb H. assert (p = q); [|subst; lia].
  destruct (Z.lt_trichotomy p q) as [C|[C|C]]; auto; exfalso; nia.
Qed.

Lemma slot_inj : forall i j L, ilevel i = L -> ilevel j = L -> in_grid i -> in_grid j ->
  slot_of i L = slot_of j L -> i = j.
Proof.
  intros i j L Ei Ej (Hl & Hx & Hy & Hz) (Hl' & Hx' & Hy' & Hz') H.
  rewrite Ei in *; rewrite Ej in *. unfold slot_of in H.
  set (m := 2 ^ L) in *.
  destruct (radix_inj m (ix i) (ix j) (iy i + m * iz i) (iy j + m * iz j)) as [A B]; [lia|lia|nia|].
  destruct (radix_inj m (iy i) (iy j) (iz i) (iz j)) as [C D]; [lia|lia|lia|].
  apply index_ext; lia.
Qed.

Lemma slot_surj : forall k L, 0 <= L -> 0 <= k < 8 ^ L ->
  exists i, in_grid i /\ ilevel i = L /\ slot_of i L = k.
Proof.
  intros k L HL Hk. rewrite pow8 in Hk by lia.
  assert (Hm : 0 < 2 ^ L) by (apply Z.pow_pos_nonneg; lia).
  set (m := 2 ^ L) in *.
  exists (mkIndex (k mod m) ((k / m) mod m) (k / m / m) L).
  unfold in_grid, slot_of; cbn [ix iy iz ilevel]. fold m.
  pose proof (Z.mod_pos_bound k m Hm). pose proof (Z.mod_pos_bound (k/m) m Hm).
  assert (0 <= k / m < m * m).
  { split; [apply Z.div_pos; lia | apply Z.div_lt_upper_bound; lia]. }
  assert (0 <= k / m / m < m).
  { split; [apply Z.div_pos; lia | apply Z.div_lt_upper_bound; lia]. }
  repeat split; try lia.
Qed.

Lemma simple_key_slot : forall i L, 0 <= L <= 10 -> ilevel i = L -> in_grid i ->
  simple_key (ix i) (iy i) (iz i) (Z.shiftl 1 L) = slot_of i L /\ slot_of i L < 2 ^ 30.
Proof.
  intros i L HL E Hg. pose proof (slot_bounds i L ltac:(lia) E Hg) as B.
  assert (M : 1 <= 2 ^ L <= 2 ^ 10).
  { split; [|apply Z.pow_le_mono_r; lia]. pose proof (Z.pow_pos_nonneg 2 L). lia. }
  destruct Hg as (Hl & Hx & Hy & Hz). rewrite E in *.
  rewrite Z.shiftl_mul_pow2 by lia. rewrite Z.mul_1_l.
  unfold simple_key, slot_of, u32 in *. set (m := 2 ^ L) in *.
  change (2 ^ 10) with 1024 in M. change (2^32) with 4294967296. change (2^30) with 1073741824.
  assert (P1 : 0 <= iy i * m < 4294967296) by nia.
  assert (P2 : 0 <= iz i * m < 4294967296) by nia.
  assert (Q : m * m <= 1048576) by nia.
  assert (P3 : 0 <= iz i * m * m < 4294967296) by nia.
  assert (P4 : m * m * m <= 1073741824) by nia.
  rewrite (Z.mod_small (ix i)) by lia.
  rewrite (Z.mod_small (iy i)), (Z.mod_small (iz i)), (Z.mod_small m) by lia.
  rewrite (Z.mod_small (iy i * m)), (Z.mod_small (iz i * m)) by lia.
  rewrite (Z.mod_small (iz i * m * m)) by lia.
  split; [|lia]. rewrite Z.mod_small by lia. ring.
Qed.

Lemma to_int_small : forall z, 0 <= z < 2 ^ 31 -> to_int z = z.
Proof.
  intros z H. unfold to_int. change (2 ^ 31) with 2147483648 in *.
  change (2 ^ 32) with 4294967296. rewrite Z.mod_small by lia.
  destruct (z <? 2147483648) eqn:E; lia.
Qed.

Lemma unif_index_correct : forall i L, 0 <= L <= 10 -> in_grid i ->
  (ilevel i < L -> get_unif_grid_index i L = -1) /\
  (L <= ilevel i -> get_unif_grid_index i L = slot_of (parent (ilevel i - L) i) L).
Proof.
  intros i L HL Hg. unfold get_unif_grid_index. split; intros H.
  - destruct (ilevel i - L <? 0) eqn:E; lia.
  - destruct (ilevel i - L <? 0) eqn:E; [lia|].
    assert (Hl : ilevel (parent (ilevel i - L) i) = L)
      by (rewrite level_of_parent; [lia| destruct Hg; lia]).
    assert (Hp : in_grid (parent (ilevel i - L) i)) by (apply parent_in_grid; [lia|assumption]).
    destruct (simple_key_slot _ L HL Hl Hp) as [K1 K2].
    pose proof (slot_bounds _ L ltac:(lia) Hl Hp) as B.
    destruct (ilevel i - L >? 0) eqn:E2.
    + rewrite K1. apply to_int_small. change (2^30) with 1073741824 in *.
      change (2^31) with 2147483648. lia.
    + assert (Z0 : ilevel i - L = 0) by lia. rewrite Z0 in *.
      rewrite parent_0 in * by lia. rewrite K1. apply to_int_small. change (2^30) with 1073741824 in *.
      change (2^31) with 2147483648. lia.
Qed.

(** ** Positions in the preallocated block *)

(** Number of nodes in the levels above [l]. *)
Fixpoint tops (l : nat) : Z := match l with O => 0 | S l' => 8 * tops l' + 1 end.

Fixpoint mort (l : nat) (i : index) : Z :=
  match l with O => 0 | S l' => 8 * mort l' (parent 1 i) + which_child i end.

Lemma tops_step : forall l, tops (S l) = tops l + 8 ^ Z.of_nat l.
Proof.
  induction l as [|l IH]; [reflexivity|].
  replace (Z.of_nat (S l)) with (Z.of_nat l + 1) by lia.
  rewrite Z.pow_add_r by lia. change (8 ^ 1) with 8.
  cbn [tops] in *. lia.
Qed.

Lemma tops_nonneg : forall l, 0 <= tops l.
Proof. induction l; cbn [tops]; lia. Qed.

Lemma tops_mono : forall a b, (a <= b)%nat -> tops a <= tops b.
Proof.
  intros a b H. induction H; [lia|]. cbn [tops]. pose proof (tops_nonneg m). lia.
Qed.

Lemma n_top_nodes_tops : forall L, (1 <= L)%nat -> n_top_nodes L = tops L.
Proof.
  intros L HL. unfold n_top_nodes.
  replace L with (S (L - 1)) at 2 by lia. generalize (L - 1)%nat as k; intros k.
  induction k as [|k IH]; [reflexivity|].
  rewrite seq_S, fold_left_app, IH. cbn [fold_left].
  rewrite (tops_step (S k)). rewrite Nat2Z.inj_add. replace (Z.of_nat 1 + Z.of_nat k) with (Z.of_nat (S k)) by lia. reflexivity.
Qed.

Lemma mort_bounds : forall l i, in_grid i -> ilevel i = Z.of_nat l -> 0 <= mort l i < 8 ^ Z.of_nat l.
Proof.
  induction l as [|l IH]; intros i Hg E; [cbn; lia|].
  assert (H1 : 1 <= ilevel i) by lia.
  destruct (octant_of_parent i Hg H1) as [_ W].
  assert (P : in_grid (parent 1 i)) by (apply parent_in_grid; [lia|assumption]).
  assert (PL : ilevel (parent 1 i) = Z.of_nat l) by (rewrite level_of_parent; lia).
  pose proof (IH _ P PL). cbn [mort].
  replace (Z.of_nat (S l)) with (Z.of_nat l + 1) by lia.
  rewrite Z.pow_add_r by lia. change (8 ^ 1) with 8. lia.
Qed.

Lemma child_of_parent : forall c, in_grid c -> 1 <= ilevel c ->
  child (which_child c) (parent 1 c) = c.
Proof.
  intros c Hg Hl. destruct (octant_of_parent c Hg Hl) as [Ho Hw].
  exact (octant_unique _ _ _ _ (child_octant _ _ Hw) Ho).
Qed.

Lemma child_facts : forall w i, 0 <= w < 8 -> in_grid i ->
  in_grid (child w i) /\ ilevel (child w i) = ilevel i + 1 /\
  parent 1 (child w i) = i /\ which_child (child w i) = w.
Proof.
  intros w i Hw Hg. pose proof (child_octant w i Hw) as Ho.
  assert (Hl : 0 <= ilevel i) by (destruct Hg; lia).
  split; [apply (octant_in_grid w i _ Hw Hl Ho); assumption|].
  split; [apply Ho|]. split.
  - exact (parent_of_octant w i _ Hw Hl Ho).
  - destruct Hg as (_ & ? & ? & ?). eapply which_of_octant; eauto; lia.
Qed.

Lemma mort_inj : forall l i j, in_grid i -> in_grid j ->
  ilevel i = Z.of_nat l -> ilevel j = Z.of_nat l -> mort l i = mort l j -> i = j.
Proof.
  induction l as [|l IH]; intros i j Hi Hj Ei Ej H.
  - destruct Hi as (? & ? & ? & ?), Hj as (? & ? & ? & ?).
    rewrite Ei, Ej in *. change (2 ^ Z.of_nat 0) with 1 in *. apply index_ext; lia.
  - destruct (octant_of_parent i Hi) as [_ Wi]; [lia|].
    destruct (octant_of_parent j Hj) as [_ Wj]; [lia|].
    cbn [mort] in H.
    assert (Hm : mort l (parent 1 i) = mort l (parent 1 j) /\ which_child i = which_child j) by lia.
    destruct Hm as [Hm Hw].
    assert (parent 1 i = parent 1 j).
    { apply IH; auto; try (apply parent_in_grid; [lia|assumption]);
        rewrite level_of_parent; lia. }
    rewrite <- (child_of_parent i Hi), <- (child_of_parent j Hj) by lia. congruence.
Qed.

Lemma mort_surj : forall l m, 0 <= m < 8 ^ Z.of_nat l ->
  exists i, in_grid i /\ ilevel i = Z.of_nat l /\ mort l i = m.
Proof.
  induction l as [|l IH]; intros m Hm.
  - exists (mkIndex 0 0 0 0). cbn in *. repeat split; cbn; lia.
  - replace (Z.of_nat (S l)) with (Z.of_nat l + 1) in Hm by lia.
    rewrite Z.pow_add_r in Hm by lia. change (8 ^ 1) with 8 in Hm.
    destruct (IH (m / 8)) as (i & Hg & El & Em); [lia|].
    destruct (child_facts (m mod 8) i) as (A & B & C & D); [lia|assumption|].
    exists (child (m mod 8) i). split; [assumption|]. split; [lia|].
    cbn [mort]. rewrite C, D, Em. lia.
Qed.

Lemma load_ok : forall b p, 0 <= p < b_size b -> b_load b p = Ok (b_at b p).
Proof.
  intros b p H. unfold b_load. destruct ((0 <=? p) && (p <? b_size b)) eqn:E; [reflexivity|lia].
Qed.

Lemma store_ok : forall b p n, 0 <= p < b_size b ->
  b_store b p n = Ok (mkBlock (b_size b) (fun q => if q =? p then n else b_at b q)).
Proof.
  intros b p n H. unfold b_store. destruct ((0 <=? p) && (p <? b_size b)) eqn:E; [reflexivity|lia].
Qed.

Lemma foldM_inv : forall (A S : Type) (f : S -> A -> res S) (P : Z -> S -> Prop) (l : list A) (k : Z) (s : S),
  P k s ->
  (forall j s a, nth_error l j = Some a -> P (k + Z.of_nat j) s ->
      exists s', f s a = Ok s' /\ P (k + Z.of_nat j + 1) s') ->
  exists s', foldM f l s = Ok s' /\ P (k + Z.of_nat (length l)) s'.
Proof.
  intros A S f P l. induction l as [|a l IH]; intros k s H0 Hs.
  - exists s. cbn. split; [reflexivity|]. replace (k + 0) with k by lia. assumption.
  - destruct (Hs 0%nat s a eq_refl) as (s1 & E1 & P1).
    { replace (k + Z.of_nat 0) with k by lia. assumption. }
    cbn [foldM]. rewrite E1. cbn [bind].
    replace (k + Z.of_nat 0 + 1) with (k + 1) in P1 by lia.
    destruct (IH (k + 1) s1 P1) as (s2 & E2 & P2).
    + intros j s' a' Hn HP. destruct (Hs (Datatypes.S j) s' a' Hn) as (s3 & E3 & P3).
      { replace (k + Z.of_nat (Datatypes.S j)) with (k + 1 + Z.of_nat j) by lia. assumption. }
      exists s3. split; [assumption|]. replace (k + 1 + Z.of_nat j + 1) with (k + Z.of_nat (Datatypes.S j) + 1) by lia. assumption.
    + exists s2. split; [assumption|]. replace (k + Z.of_nat (length (a :: l))) with (k + 1 + Z.of_nat (length l)) by (cbn [length]; lia). assumption.
Qed.

Lemma zseq_nth : forall a n j x, nth_error (zseq a n) j = Some x -> x = a + Z.of_nat j /\ (j < n)%nat.
Proof.
  intros a n j x H. unfold zseq in H.
  assert (Hj : (j < n)%nat).
  { assert (nth_error (map (fun k => a + Z.of_nat k) (seq 0 n)) j <> None) by congruence.
    apply nth_error_Some in H0. rewrite map_length, seq_length in H0. assumption. }
  split; [|assumption].
  rewrite (map_nth_error _ j (seq 0 n) (d := j)) in H.
  - congruence.
  - rewrite nth_error_nth' with (d := 0%nat) by (rewrite seq_length; assumption).
    rewrite seq_nth by assumption. reflexivity.
Qed.

Lemma zseq_length : forall a n, length (zseq a n) = n.
Proof. intros. unfold zseq. rewrite map_length, seq_length. reflexivity. Qed.

Lemma walk_app : forall b path1 path2 p q, walk b p path1 = Ok q ->
  walk b p (path1 ++ path2) = walk b q path2.
Proof.
  intros b path1. induction path1 as [|w ws IH]; intros path2 p q H; cbn [walk app] in *.
  - congruence.
  - destruct (b_load b p) as [n|e]; cbn [bind] in *; [|discriminate].
    destruct (t_child n w); [|discriminate]. apply IH. assumption.
Qed.

Lemma path_to_step : forall i, in_grid i -> 1 <= ilevel i ->
  path_to i = path_to (parent 1 i) ++ [which_child i].
Proof.
  intros i Hg H1. unfold path_to. rewrite level_of_parent by lia.
  replace (Z.to_nat (ilevel i)) with (Z.to_nat (ilevel i - 1) + 1)%nat by lia.
  rewrite seq_app, map_app. f_equal.
  - apply map_ext_in. intros k Hk. apply in_seq in Hk.
    rewrite parent_parent by lia. do 2 f_equal. lia.
  - cbn [seq map]. do 2 f_equal.
    replace (ilevel i - Z.of_nat (1 + Z.to_nat (ilevel i - 1))) with 0 by lia.
    apply parent_0. lia.
Qed.

Section Block.
Variable L : nat.
Hypothesis HL : (1 <= L <= 10)%nat.

Let lev (i : index) : nat := Z.to_nat (ilevel i).

Definition pos (i : index) : Z :=
  if ilevel i <? Z.of_nat L then tops (Z.to_nat (ilevel i)) + mort (Z.to_nat (ilevel i)) i
  else tops L + slot_of i (Z.of_nat L).

Definition total : Z := tops L + 8 ^ Z.of_nat L.

Definition top (i : index) : Prop := in_grid i /\ ilevel i <= Z.of_nat L.

Lemma pos_upper : forall i, top i -> ilevel i < Z.of_nat L ->
  tops (lev i) <= pos i < tops (S (lev i)) /\ pos i < tops L.
Proof.
  intros i [Hg _] H. unfold pos. destruct (ilevel i <? Z.of_nat L) eqn:E; [|lia].
  assert (Hl0 : 0 <= ilevel i) by (destruct Hg; lia).
  pose proof (mort_bounds (lev i) i Hg ltac:(unfold lev; lia)) as B.
  fold (lev i). rewrite tops_step.
  pose proof (tops_mono (S (lev i)) L ltac:(unfold lev; lia)) as M.
  rewrite tops_step in M. lia.
Qed.

Lemma pos_last : forall i, top i -> ilevel i = Z.of_nat L ->
  tops L <= pos i < total.
Proof.
  intros i [Hg _] H. unfold pos, total. destruct (ilevel i <? Z.of_nat L) eqn:E; [lia|].
  rewrite pow8 by lia. pose proof (slot_bounds i (Z.of_nat L) ltac:(lia) H Hg). lia.
Qed.

Lemma pos_range : forall i, top i -> 0 <= pos i < total.
Proof.
  intros i Ht. pose proof (tops_nonneg L). pose proof (Z.pow_pos_nonneg 8 (Z.of_nat L)).
  destruct (Z.lt_trichotomy (ilevel i) (Z.of_nat L)) as [H1|[H1|H1]].
  - pose proof (pos_upper i Ht H1). pose proof (tops_nonneg (lev i)). unfold total. lia.
  - pose proof (pos_last i Ht H1). lia.
  - destruct Ht; lia.
Qed.

Lemma pos_inj : forall i j, top i -> top j -> pos i = pos j -> i = j.
Proof.
  intros i j Hi Hj E.
  destruct (Z_lt_le_dec (ilevel i) (Z.of_nat L)) as [A|A];
  destruct (Z_lt_le_dec (ilevel j) (Z.of_nat L)) as [B|B].
  - pose proof (pos_upper i Hi A) as [Pi _]. pose proof (pos_upper j Hj B) as [Pj _].
    assert (El : lev i = lev j).
    { destruct (Nat.lt_trichotomy (lev i) (lev j)) as [C|[C|C]]; auto; exfalso;
       [pose proof (tops_mono (S (lev i)) (lev j) C)|pose proof (tops_mono (S (lev j)) (lev i) C)]; lia. }
    destruct Hi as [Gi Li], Hj as [Gj Lj].
    assert (0 <= ilevel i) by (destruct Gi; lia). assert (0 <= ilevel j) by (destruct Gj; lia).
    apply (mort_inj (lev i) i j); auto; try (unfold lev in *; lia).
    unfold pos in E. destruct (ilevel i <? Z.of_nat L) eqn:E1; [|lia].
    destruct (ilevel j <? Z.of_nat L) eqn:E2; [|lia]. fold (lev i) in E; fold (lev j) in E.
    rewrite <- El in E. lia.
  - pose proof (pos_upper i Hi A). pose proof (pos_last j Hj ltac:(destruct Hj; lia)). lia.
  - pose proof (pos_upper j Hj B). pose proof (pos_last i Hi ltac:(destruct Hi; lia)). lia.
  - assert (EA : ilevel i = Z.of_nat L) by (destruct Hi; lia).
    assert (EB : ilevel j = Z.of_nat L) by (destruct Hj; lia).
    apply (slot_inj i j (Z.of_nat L)); auto; try (apply Hi); try (apply Hj).
    unfold pos in E. rewrite EA, EB in E. rewrite Z.ltb_irrefl in E. lia.
Qed.

Lemma tops_level : forall nd, 0 <= nd < tops L ->
  exists l, (l < L)%nat /\ tops l <= nd < tops (S l).
Proof.
  intros nd. clear HL lev. induction L as [|k IH]; cbn [tops]; intros H; [lia|].
  destruct (Z_lt_le_dec nd (tops k)) as [A|A].
  - destruct IH as (l & Hl & B); [lia|]. exists l. split; [lia|assumption].
  - exists k. split; [lia|]. cbn [tops]. lia.
Qed.

Lemma pos_surj_upper : forall l nd, (l < L)%nat -> tops l <= nd < tops (S l) ->
  exists i, top i /\ ilevel i = Z.of_nat l /\ pos i = nd.
Proof.
  intros l nd Hl B. rewrite tops_step in B.
  destruct (mort_surj l (nd - tops l)) as (i & Hg & El & Em); [lia|].
  exists i. split; [split; [assumption|lia]|]. split; [assumption|].
  unfold pos. rewrite El. destruct (Z.of_nat l <? Z.of_nat L) eqn:E; [|lia].
  rewrite Nat2Z.id. lia.
Qed.

Lemma pos_surj : forall p, 0 <= p < total -> exists i, top i /\ pos i = p.
Proof.
  intros p Hp. destruct (Z_lt_le_dec p (tops L)) as [A|A].
  - destruct (tops_level p) as (l & Hl & B); [lia|].
    destruct (pos_surj_upper l p Hl B) as (i & Ht & _ & E). eauto.
  - unfold total in Hp. destruct (slot_surj (p - tops L) (Z.of_nat L)) as (i & Hg & El & Es); [lia|lia|].
    exists i. split; [split; [assumption|lia]|].
    unfold pos. rewrite El, Z.ltb_irrefl. lia.
Qed.

Lemma pos_child_upper : forall i w, top i -> 0 <= w < 8 -> ilevel i + 1 < Z.of_nat L ->
  top (child w i) /\ pos (child w i) = pos i * 8 + 1 + w.
Proof.
  intros i w [Hg Hl] Hw H. destruct (child_facts w i Hw Hg) as (A & B & C & D).
  assert (H0 : 0 <= ilevel i) by (destruct Hg; lia).
  split; [split; [assumption|lia]|].
  unfold pos. rewrite B. destruct (ilevel i + 1 <? Z.of_nat L) eqn:E1; [|lia].
  destruct (ilevel i <? Z.of_nat L) eqn:E2; [|lia].
  replace (Z.to_nat (ilevel i + 1)) with (S (Z.to_nat (ilevel i))) by lia.
  cbn [tops mort]. rewrite C, D. lia.
Qed.

Lemma pos_child_last : forall i w, top i -> 0 <= w < 8 -> ilevel i + 1 = Z.of_nat L ->
  top (child w i) /\
  pos (child w i) = tops L + simple_key (ix (child w i)) (iy (child w i)) (iz (child w i)) (Z.shiftl 1 (Z.of_nat L)).
Proof.
  intros i w [Hg Hl] Hw H. destruct (child_facts w i Hw Hg) as (A & B & C & D).
  split; [split; [assumption|lia]|].
  unfold pos. rewrite B, H, Z.ltb_irrefl.
  rewrite (proj1 (simple_key_slot (child w i) (Z.of_nat L) ltac:(lia) ltac:(lia) A)). reflexivity.
Qed.

(** Loop invariant: exactly the first [M] (node, child) pairs, in position
    order, have been linked. *)
Definition linked (M : Z) (i : index) (w : Z) : bool := pos i * 8 + w <? M.

Record Inv (M : Z) (b : block) : Prop := {
  inv_size : b_size b = total;
  inv_root : t_idx (b_at b (pos (mkIndex 0 0 0 0))) = mkIndex 0 0 0 0 /\
             t_parent (b_at b (pos (mkIndex 0 0 0 0))) = None /\
             t_gate (b_at b (pos (mkIndex 0 0 0 0))) = false;
  inv_child : forall i w, top i ->
     t_child (b_at b (pos i)) w =
       if (ilevel i <? Z.of_nat L) && (0 <=? w) && (w <? 8) && linked M i w
       then Some (pos (child w i)) else None;
  inv_done : forall i, top i -> 1 <= ilevel i -> linked M (parent 1 i) (which_child i) = true ->
     t_idx (b_at b (pos i)) = i /\ t_parent (b_at b (pos i)) = Some (pos (parent 1 i)) /\
     t_gate (b_at b (pos i)) = (ilevel i =? Z.of_nat L);
  inv_todo : forall i, top i -> 1 <= ilevel i -> linked M (parent 1 i) (which_child i) = false ->
     t_gate (b_at b (pos i)) = false }.

Lemma top_root : top (mkIndex 0 0 0 0).
Proof. unfold top, in_grid; cbn; lia. Qed.

Lemma pos_root : pos (mkIndex 0 0 0 0) = 0.
Proof. unfold pos; cbn [ilevel]. destruct (0 <? Z.of_nat L) eqn:E; [reflexivity|lia]. Qed.

Lemma level0_root : forall i, top i -> ilevel i = 0 -> i = mkIndex 0 0 0 0.
Proof.
  intros i [(A & B & C & D) _] E. rewrite E in *. change (2^0) with 1 in *.
  apply index_ext; cbn [ix iy iz ilevel]; lia.
Qed.

Lemma top_parent : forall i, top i -> 1 <= ilevel i ->
  top (parent 1 i) /\ ilevel (parent 1 i) = ilevel i - 1.
Proof.
  intros i [Hg Hl] H1. split; [split|].
  - apply parent_in_grid; [lia|assumption].
  - rewrite level_of_parent; lia.
  - rewrite level_of_parent; lia.
Qed.

Lemma pos_parent_lt : forall i, top i -> 1 <= ilevel i ->
  0 <= which_child i < 8 /\ (ilevel i < Z.of_nat L -> pos i = pos (parent 1 i) * 8 + 1 + which_child i).
Proof.
  intros i Ht H1. destruct (octant_of_parent i (proj1 Ht) H1) as [_ W]. split; [assumption|].
  intros H. destruct (top_parent i Ht H1) as [Tp Lp].
  destruct (pos_child_upper (parent 1 i) (which_child i) Tp W) as [_ E]; [lia|].
  rewrite (child_of_parent i (proj1 Ht) H1) in E. assumption.
Qed.

(** The effect of linking one pair. *)
Lemma inv_step : forall M b i w c b',
  top i -> ilevel i < Z.of_nat L -> 0 <= w < 8 -> pos i * 8 + w = M -> c = child w i ->
  Inv M b ->
  b_size b' = b_size b ->
  (forall q, q <> pos i -> q <> pos c -> b_at b' q = b_at b q) ->
  b_at b' (pos i) = set_child (b_at b (pos i)) w (pos c) ->
  b_at b' (pos c) = mkTnode c (t_child (b_at b (pos c))) (Some (pos i)) (ilevel c =? Z.of_nat L) ->
  Inv (M + 1) b'.
Proof.
  intros M b i w c b' Ht Hlt Hw EM Ec HI Hs Hother Hi Hc.
  destruct (child_facts w i Hw (proj1 Ht)) as (Cg & Cl & Cp & Cw).
  assert (Ci0 : 0 <= ilevel i) by (destruct Ht as [[? _] _]; lia).
  rewrite <- Ec in *.
  assert (Tc : top c) by (split; [assumption|lia]).
  assert (NE : pos c <> pos i).
  { intros E. apply pos_inj in E; auto. rewrite E in Cl. lia. }
  assert (LK : forall j v, top j -> 0 <= v < 8 -> linked (M + 1) j v = true ->
             linked M j v = true \/ (j = i /\ v = w)).
  { intros j v Tj Hv. unfold linked. rewrite !Z.ltb_lt. intros H.
    destruct (Z.eq_dec (pos j * 8 + v) M) as [E|E]; [right|left; lia].
    assert (pos j = pos i) by lia. split; [apply pos_inj; assumption|lia]. }
  destruct HI as [I1 I2 I3 I4 I5]. constructor.
  - congruence.
  - assert (pos (mkIndex 0 0 0 0) <> pos c).
    { intros E. apply pos_inj in E; auto using top_root. rewrite <- E in Cl. cbn [ilevel] in Cl. lia. }
    destruct (Z.eq_dec (pos (mkIndex 0 0 0 0)) (pos i)) as [E|E].
    + rewrite E, Hi in *. exact I2.
    + rewrite Hother by assumption. exact I2.
  - intros j v Tj. unfold linked.
    destruct (Z.eq_dec (pos j) (pos i)) as [E|E].
    + apply pos_inj in E; auto. subst j. rewrite Hi. cbn [set_child t_child].
      destruct (v =? w) eqn:Ev.
      * apply Z.eqb_eq in Ev. subst v.
        replace (ilevel i <? Z.of_nat L) with true by lia.
        replace (0 <=? w) with true by lia. replace (w <? 8) with true by lia.
        replace (pos i * 8 + w <? M + 1) with true by lia. cbn. congruence.
      * rewrite I3 by assumption. unfold linked.
        replace (pos i * 8 + v <? M + 1) with (pos i * 8 + v <? M) by lia. reflexivity.
    + assert (EL : (ilevel j <? Z.of_nat L) && (0 <=? v) && (v <? 8) && (pos j * 8 + v <? M + 1) =
                   (ilevel j <? Z.of_nat L) && (0 <=? v) && (v <? 8) && (pos j * 8 + v <? M)) by lia.
      rewrite EL. destruct (Z.eq_dec (pos j) (pos c)) as [E2|E2].
      * apply pos_inj in E2; auto. subst j. rewrite Hc. cbn [t_child]. apply I3. assumption.
      * rewrite Hother by assumption. apply I3. assumption.
  - intros j Tj J1 Jl. destruct (top_parent j Tj J1) as [Tp Lp].
    destruct (octant_of_parent j (proj1 Tj) J1) as [_ W].
    destruct (LK _ _ Tp W Jl) as [K|[K1 K2]].
    + destruct (Z.eq_dec (pos j) (pos c)) as [E|E].
      * exfalso. apply pos_inj in E; auto. subst j. rewrite Cp, Cw in K. unfold linked in K. lia.
      * destruct (I4 j Tj J1 K) as (A & B & C).
        destruct (Z.eq_dec (pos j) (pos i)) as [E2|E2].
        -- rewrite E2, Hi in *. cbn [set_child t_idx t_parent t_gate]. auto.
        -- rewrite Hother by assumption. auto.
    + assert (j = c).
      { rewrite <- (child_of_parent j (proj1 Tj) J1). congruence. }
      subst j. rewrite Hc. cbn [t_idx t_parent t_gate]. rewrite Cp. auto.
  - intros j Tj J1 Jl. destruct (Z.eq_dec (pos j) (pos c)) as [E|E].
    + exfalso. apply pos_inj in E; auto. subst j. rewrite Cp, Cw in Jl. unfold linked in Jl. lia.
    + assert (linked M (parent 1 j) (which_child j) = false) by (unfold linked in *; lia).
      pose proof (I5 j Tj J1 H) as G.
      destruct (Z.eq_dec (pos j) (pos i)) as [E2|E2].
      * rewrite E2, Hi in *. exact G.
      * rewrite Hother by assumption. exact G.
Qed.

Lemma inv_self_idx : forall M b i, Inv M b -> top i -> ilevel i < Z.of_nat L -> pos i * 8 <= M ->
  t_idx (b_at b (pos i)) = i.
Proof.
  intros M b i HI Ht Hlt HM. destruct (Z.eq_dec (ilevel i) 0) as [E|E].
  - rewrite (level0_root i Ht E). apply (inv_root _ _ HI).
  - assert (H1 : 1 <= ilevel i) by (destruct Ht as [[? _] _]; lia).
    destruct (pos_parent_lt i Ht H1) as [W P]. specialize (P Hlt).
    apply (inv_done _ _ HI i Ht H1). unfold linked.
    pose proof (pos_range (parent 1 i) (proj1 (top_parent i Ht H1))). lia.
Qed.

Lemma top_body_step : forall M b i w, top i -> ilevel i + 1 < Z.of_nat L -> 0 <= w < 8 ->
  pos i * 8 + w = M -> Inv M b ->
  exists b', top_child_body (pos i) b w = Ok b' /\ Inv (M + 1) b'.
Proof.
  intros M b i w Ht Hl Hw EM HI.
  assert (Hg0 : 0 <= ilevel i) by (destruct Ht as [[? _] _]; lia).
  destruct (pos_child_upper i w Ht Hw Hl) as [Tc Ec].
  pose proof (pos_range i Ht) as Ri. pose proof (pos_range _ Tc) as Rc.
  pose proof (inv_self_idx M b i HI Ht ltac:(lia) ltac:(lia)) as Si.
  pose proof (inv_size _ _ HI) as Sz.
  unfold top_child_body. rewrite <- Ec.
  rewrite load_ok by lia. cbn [bind].
  rewrite store_ok by lia. cbn [bind b_size b_at].
  rewrite !load_ok by (cbn [b_size]; lia). cbn [bind b_at].
  rewrite store_ok by (cbn [b_size]; lia). cbn [bind b_size b_at].
  eexists; split; [reflexivity|].
  assert (NE : pos (child w i) <> pos i) by lia.
  eapply (inv_step M b i w (child w i)); eauto; try lia.
  - intros q N1 N2. cbn [b_at]. destruct (q =? pos (child w i)) eqn:E1; [lia|].
    destruct (q =? pos i) eqn:E2; [lia|reflexivity].
  - cbn [b_at]. destruct (pos i =? pos (child w i)) eqn:E1; [lia|].
    rewrite Z.eqb_refl. reflexivity.
  - cbn [b_at]. rewrite !Z.eqb_refl.
    destruct (pos (child w i) =? pos i) eqn:E1; [lia|].
    unfold set_parent, set_idx, set_child; cbn [t_idx t_child t_parent t_gate].
    rewrite Si. f_equal.
    rewrite (inv_todo _ _ HI (child w i) Tc);
      destruct (child_facts w i Hw (proj1 Ht)) as (Cg & Cl & Cp & Cw); try lia.
    rewrite Cp, Cw. unfold linked. lia.
Qed.

Lemma last_body_step : forall M b i w, top i -> ilevel i + 1 = Z.of_nat L -> 0 <= w < 8 ->
  pos i * 8 + w = M -> Inv M b ->
  exists b', last_child_body (tops L) L (pos i) b w = Ok b' /\ Inv (M + 1) b'.
Proof.
  intros M b i w Ht Hl Hw EM HI.
  destruct (pos_child_last i w Ht Hw Hl) as [Tc Ec].
  pose proof (pos_range i Ht) as Ri. pose proof (pos_range _ Tc) as Rc.
  pose proof (inv_self_idx M b i HI Ht ltac:(lia) ltac:(lia)) as Si.
  pose proof (inv_size _ _ HI) as Sz.
  destruct (child_facts w i Hw (proj1 Ht)) as (Cg & Cl & Cp & Cw).
  assert (NE : pos (child w i) <> pos i).
  { intros E. apply pos_inj in E; auto. rewrite E in Cl. lia. }
  unfold last_child_body.
  rewrite load_ok by lia. cbn [bind]. rewrite Si. rewrite <- Ec.
  rewrite store_ok by lia. cbn [bind b_size b_at].
  rewrite load_ok by (cbn [b_size]; lia). cbn [bind b_at].
  destruct (pos (child w i) =? pos i) eqn:E1; [lia|].
  assert (G : t_gate (b_at b (pos (child w i))) = false).
  { apply (inv_todo _ _ HI _ Tc); [destruct Ht as [[? _] _]; lia|].
    rewrite Cp, Cw. unfold linked. lia. }
  unfold add_gate, set_parent, set_idx; cbn [t_gate t_idx t_child t_parent]. rewrite G. cbn [bind].
  rewrite store_ok by (cbn [b_size]; lia). cbn [b_size b_at].
  eexists; split; [reflexivity|].
  eapply (inv_step M b i w (child w i)); eauto; try lia.
  - intros q N1 N2. cbn [b_at]. destruct (q =? pos (child w i)) eqn:E3; [lia|].
    destruct (q =? pos i) eqn:E2; [lia|reflexivity].
  - cbn [b_at]. destruct (pos i =? pos (child w i)) eqn:E3; [lia|].
    rewrite Z.eqb_refl. reflexivity.
  - cbn [b_at]. rewrite Z.eqb_refl. f_equal. lia.
Qed.

Lemma level_loop_ok : forall l b, (l < L)%nat -> Inv (tops l * 8) b ->
  exists b', level_loop (tops L) L l (tops l) (tops (S l)) b = Ok b' /\ Inv (tops (S l) * 8) b'.
Proof.
  intros l b Hl HI. unfold level_loop.
  pose proof (tops_step l) as TS.
  assert (P8 : 0 <= 8 ^ Z.of_nat l) by (apply Z.pow_nonneg; lia).
  set (cnt := Z.to_nat (tops (S l) - tops l)).
  destruct (foldM_inv Z block
     (fun b nd => if negb (Nat.eqb l (L - 1)) then foldM (top_child_body nd) (zseq 0 8) b
                  else foldM (last_child_body (tops L) L nd) (zseq 0 8) b)
     (fun k b => Inv (k * 8) b) (zseq (tops l) cnt) (tops l) b HI) as (b' & E & P).
  - intros j s nd Hn Is. apply zseq_nth in Hn. destruct Hn as [-> Hj].
    set (nd := tops l + Z.of_nat j) in *.
    destruct (pos_surj_upper l nd Hl) as (i & Ht & El & Ep); [unfold nd, cnt in *; lia|].
    rewrite <- Ep in *.
    destruct (negb (Nat.eqb l (L - 1))) eqn:EB.
    + apply negb_true_iff, Nat.eqb_neq in EB.
      destruct (foldM_inv Z block (top_child_body (pos i)) (fun k b => Inv k b) (zseq 0 8) (pos i * 8) s Is)
        as (s' & E' & P').
      * intros j' s' w Hn' Is'. apply zseq_nth in Hn'. destruct Hn' as [-> Hj'].
        apply top_body_step; auto; lia.
      * exists s'. split; [assumption|]. rewrite zseq_length in P'.
        replace ((pos i + 1) * 8) with (pos i * 8 + Z.of_nat 8) by lia. assumption.
    + apply negb_false_iff, Nat.eqb_eq in EB.
      destruct (foldM_inv Z block (last_child_body (tops L) L (pos i)) (fun k b => Inv k b) (zseq 0 8) (pos i * 8) s Is)
        as (s' & E' & P').
      * intros j' s' w Hn' Is'. apply zseq_nth in Hn'. destruct Hn' as [-> Hj'].
        apply last_body_step; auto; lia.
      * exists s'. split; [assumption|]. rewrite zseq_length in P'.
        replace ((pos i + 1) * 8) with (pos i * 8 + Z.of_nat 8) by lia. assumption.
  - exists b'. split; [assumption|]. rewrite zseq_length in P.
    replace (tops l + Z.of_nat cnt) with (tops (S l)) in P by (unfold cnt; lia). assumption.
Qed.

Lemma levels_loop_ok : forall n l b, (l + n = L)%nat -> Inv (tops l * 8) b ->
  exists b', levels_loop (tops L) L (seq l n) (tops l) (tops (S l)) b = Ok b' /\ Inv (tops L * 8) b'.
Proof.
  induction n as [|n IH]; intros l b E HI.
  - exists b. split; [reflexivity|]. replace L with l by lia. assumption.
  - cbn [seq levels_loop].
    destruct (level_loop_ok l b) as (b1 & E1 & I1); [lia|assumption|].
    rewrite E1. cbn [bind]. rewrite <- tops_step. rewrite Nat.add_1_r, <- tops_step.
    apply IH; [lia|assumption].
Qed.

Lemma setup_ok : exists b, setup_basics L = Ok (b, tops L) /\ Inv (tops L * 8) b.
Proof.
  unfold setup_basics. rewrite n_top_nodes_tops by lia.
  pose proof (tops_nonneg L) as T0.
  assert (P8 : 0 < 8 ^ Z.of_nat L) by (apply Z.pow_pos_nonneg; lia).
  rewrite load_ok by (cbn [b_size]; lia). cbn [bind].
  rewrite store_ok by (cbn [b_size]; lia). cbn [bind b_size b_at].
  set (b1 := mkBlock _ _).
  destruct (levels_loop_ok L 0 b1) as (b2 & E2 & I2); [lia| |].
  - change (tops 0 * 8) with 0.
    assert (Hno : forall j v, top j -> 0 <= v -> linked 0 j v = false).
    { intros j v Tj Hv. unfold linked. pose proof (pos_range j Tj). lia. }
    assert (Hch : forall q w, t_child (b_at b1 q) w = None).
    { intros q w. unfold b1; cbn [b_at]. destruct (q =? 0); reflexivity. }
    constructor.
    + reflexivity.
    + rewrite pos_root. unfold b1; cbn. auto.
    + intros i w Ti. rewrite Hch. destruct (Z_lt_le_dec w 0) as [A|A].
      * replace (0 <=? w) with false by lia. rewrite !andb_false_r. reflexivity.
      * rewrite Hno by assumption. rewrite andb_false_r. reflexivity.
    + intros i Ti H1 Hlk. exfalso. destruct (top_parent i Ti H1) as [Tp _].
      destruct (pos_parent_lt i Ti H1) as [W _]. rewrite Hno in Hlk; auto; [congruence|lia].
    + intros i Ti H1 _. unfold b1; cbn [b_at]. destruct (pos i =? 0); reflexivity.
  - change (tops 0) with 0 in E2. change (tops 1) with 1 in E2. rewrite E2. cbn [bind].
    exists b2. auto.
Qed.

(** Consequences of the invariant after the last step. *)
Lemma final_linked : forall i w, top i -> ilevel i < Z.of_nat L -> 0 <= w < 8 ->
  linked (tops L * 8) i w = true.
Proof.
  intros i w Ti Hl Hw. unfold linked. pose proof (pos_upper i Ti Hl). lia.
Qed.

Lemma walk_final : forall b, Inv (tops L * 8) b ->
  forall i, top i -> walk b 0 (path_to i) = Ok (pos i).
Proof.
  intros b HI.
  assert (G : forall n i, top i -> ilevel i = Z.of_nat n -> walk b 0 (path_to i) = Ok (pos i)).
  { induction n as [|n IH]; intros i Ti El.
    - rewrite (level0_root i Ti El). rewrite pos_root. reflexivity.
    - assert (H1 : 1 <= ilevel i) by lia.
      destruct (top_parent i Ti H1) as [Tp Lp].
      destruct (octant_of_parent i (proj1 Ti) H1) as [_ W].
      rewrite path_to_step by (auto; apply Ti).
      rewrite (walk_app b _ _ _ (pos (parent 1 i))) by (apply IH; [assumption|lia]).
      cbn [walk]. rewrite load_ok by (rewrite (inv_size _ _ HI); apply pos_range; assumption).
      cbn [bind]. rewrite (inv_child _ _ HI) by assumption.
      assert (Lt : ilevel (parent 1 i) < Z.of_nat L) by (destruct Ti; lia).
      rewrite final_linked by assumption.
      replace (ilevel (parent 1 i) <? Z.of_nat L) with true by lia.
      replace (0 <=? which_child i) with true by lia.
      replace (which_child i <? 8) with true by lia. cbn [andb].
      rewrite (child_of_parent i (proj1 Ti) H1). reflexivity. }
  intros i Ti. apply (G (Z.to_nat (ilevel i))); [assumption|].
  destruct Ti as [[? _] _]. lia.
Qed.

End Block.

Lemma top_tree_complete : forall L : nat, (1 <= L <= 10)%nat ->
  exists b ubase, setup_basics L = Ok (b, ubase) /\
  (* each index has one node, reached by its path, and carrying it *)
  (forall i, in_grid i -> ilevel i <= Z.of_nat L ->
     exists p n, walk b 0 (path_to i) = Ok p /\ b_load b p = Ok n /\ t_idx n = i /\
       (ilevel i = Z.of_nat L -> p = ubase + slot_of i (Z.of_nat L)) /\
       (t_gate n = true <-> ilevel i = Z.of_nat L) /\
       (ilevel i = Z.of_nat L -> forall w, t_child n w = None) /\
       (1 <= ilevel i -> exists q, t_parent n = Some q /\
                                   walk b 0 (path_to (parent 1 i)) = Ok q)) /\
  (* different indices have different nodes *)
  (forall i j p, in_grid i -> in_grid j -> ilevel i <= Z.of_nat L -> ilevel j <= Z.of_nat L ->
     walk b 0 (path_to i) = Ok p -> walk b 0 (path_to j) = Ok p -> i = j) /\
  (* every allocated node is reached *)
  (forall p, 0 <= p < b_size b -> exists i, in_grid i /\ ilevel i <= Z.of_nat L /\
     walk b 0 (path_to i) = Ok p).
Proof.
  intros L HL. destruct (setup_ok L HL) as (b & E & HI).
  exists b, (tops L). split; [exact E|]. split; [|split].
  - intros i Hg Hl. assert (Ti : top L i) by (split; assumption).
    exists (pos L i), (b_at b (pos L i)).
    split; [exact (walk_final L HL b HI i Ti)|].
    split; [apply load_ok; rewrite (inv_size _ _ _ HI); apply pos_range; assumption|].
    assert (DD : 1 <= ilevel i ->
        t_idx (b_at b (pos L i)) = i /\ t_parent (b_at b (pos L i)) = Some (pos L (parent 1 i)) /\
        t_gate (b_at b (pos L i)) = (ilevel i =? Z.of_nat L)).
    { intros H1. apply (inv_done _ _ _ HI i Ti H1).
      destruct (top_parent L HL i Ti H1) as [Tp Lp].
      destruct (octant_of_parent i Hg H1) as [_ W].
      apply final_linked; auto. lia. }
    assert (RR : ilevel i = 0 -> t_idx (b_at b (pos L i)) = i /\ t_gate (b_at b (pos L i)) = false).
    { intros H0. rewrite (level0_root L HL i Ti H0). destruct (inv_root _ _ _ HI) as (A & B & C). auto. }
    assert (Hl0 : 0 <= ilevel i) by (destruct Hg; lia).
    split; [destruct (Z.eq_dec (ilevel i) 0); [apply RR; assumption | apply DD; lia]|].
    split; [intros Hlast; unfold pos; rewrite Hlast, Z.ltb_irrefl; reflexivity|].
    split.
    { destruct (Z.eq_dec (ilevel i) 0) as [Z0|Z0].
      - destruct (RR Z0) as [_ G]. rewrite G. split; [congruence|lia].
      - destruct (DD ltac:(lia)) as (_ & _ & G). rewrite G, Z.eqb_eq. reflexivity. }
    split.
    { intros Hlast w. rewrite (inv_child _ _ _ HI) by assumption.
      rewrite Hlast, Z.ltb_irrefl. reflexivity. }
    intros H1. exists (pos L (parent 1 i)). split; [apply DD; assumption|].
    apply walk_final; auto. apply top_parent; assumption.
  - intros i j p Hi Hj Li Lj Wi Wj.
    rewrite (walk_final L HL b HI i) in Wi by (split; assumption).
    rewrite (walk_final L HL b HI j) in Wj by (split; assumption).
    apply (pos_inj L HL i j); try (split; assumption). congruence.
  - intros p Hp. rewrite (inv_size _ _ _ HI) in Hp.
    destruct (pos_surj L HL p Hp) as (i & [Hg Hl] & <-).
    exists i. split; [exact Hg|]. split; [exact Hl|].
    apply walk_final; auto. split; assumption.
Qed.
