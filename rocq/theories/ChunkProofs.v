From Coq Require Import ZArith List Arith Lia Bool Permutation.
From Verif Require Import Base ListFacts PartitionModel PartitionProofs ChunkModel ChunkSpec.
Import ListNotations.

Lemma positions_cat : forall a b c, a <= b -> b <= c -> seq a (b - a) ++ seq b (c - b) = seq a (c - a).
Proof.
  intros a b c H1 H2. replace (c - a) with ((b - a) + (c - b)) by lia. rewrite seq_app. f_equal. f_equal; lia.
Qed.

Lemma spawn_loop_ok : forall fuel start count delta, 0 < delta -> count <= start + fuel ->
  exists l, spawn_loop fuel start count delta = Ok l /\
    concat (map positions l) = seq start (count - start) /\
    Forall (fun ab => fst ab < snd ab <= count) l.
Proof.
  induction fuel as [|fuel IH]; intros start count delta Hd Hf; cbn [spawn_loop].
  - destruct (Nat.ltb_spec start count); [lia|]. exists []. replace (count - start) with 0 by lia. auto.
  - destruct (Nat.ltb_spec start count) as [C|C].
    + destruct (IH (start + delta) count delta Hd ltac:(lia)) as (l & E & P & F).
      rewrite E. cbn [bind]. eexists; split; [reflexivity|].
      set (fin := if count <? start + delta then count else start + delta).
      assert (Hfin : start < fin <= count /\ (fin = start + delta \/ (fin = count /\ count < start + delta))).
      { unfold fin. destruct (Nat.ltb_spec count (start + delta)); lia. }
      split.
      * cbn [map concat]. unfold positions at 1. cbn [fst snd]. rewrite P.
        destruct Hfin as [Hb [E1|[E1 E2]]].
        -- rewrite <- E1. apply positions_cat; lia.
        -- rewrite E1. replace (count - (start + delta)) with 0 by lia. rewrite app_nil_r. reflexivity.
      * constructor; [cbn; lia|assumption].
    + exists []. replace (count - start) with 0 by lia. auto.
Qed.

Lemma start_chunks_ok : forall count n, 0 < n -> exists l, start_chunks count n = Ok l /\ tiles l count.
Proof.
  intros count n Hn. unfold start_chunks. destruct (Nat.eqb_spec n 0); [lia|].
  destruct (Nat.eq_dec count 0) as [->|C].
  - exists []. cbn. repeat split; constructor.
  - set (d := if count / n =? 0 then count else count / n).
    assert (0 < d) by (unfold d; destruct (Nat.eqb_spec (count / n) 0); lia).
    destruct (spawn_loop_ok count 0 count d H ltac:(lia)) as (l & E & P & F).
    exists l. split; [assumption|]. split; [|assumption]. rewrite P. f_equal. lia.
Qed.

Lemma blocks_tile : forall d k a, 0 < d -> concat (map positions (map (fun i => (a + i * d, a + i * d + d)) (seq 0 k))) = seq a (k * d).
Proof.
  intros d k a Hd. induction k as [|k IH]; [reflexivity|].
  rewrite seq_S, !map_app, concat_app, IH. cbn [map concat]. rewrite app_nil_r. unfold positions. cbn [fst snd]. change (0 + k) with k.
  replace (a + k * d + d - (a + k * d)) with d by lia. replace (S k * d) with (k * d + d) by lia.
  rewrite seq_app. reflexivity.
Qed.

Lemma reset_chunks_ok : forall count n, 0 < n -> exists l extra, reset_chunks count n = Ok (l, extra) /\
  tiles l count /\ length l + extra = n.
Proof.
  intros count n Hn. unfold reset_chunks. destruct (Nat.eqb_spec n 0); [lia|].
  pose proof (Nat.div_mod count n ltac:(lia)) as DM. pose proof (Nat.mod_upper_bound count n ltac:(lia)) as MB.
  set (d := count / n) in *. set (r := count mod n) in *.
  assert (Ebig : map (fun i => (i * (d + 1), i * (d + 1) + d + 1)) (seq 0 r) = map (fun i => (0 + i * (d + 1), 0 + i * (d + 1) + (d + 1))) (seq 0 r)).
  { apply map_ext. intros i. f_equal; lia. }
  rewrite Ebig.
  destruct (Nat.eqb_spec d 0) as [D|D]; cbn [negb].
  - exists (map (fun i => (0 + i * (d + 1), 0 + i * (d + 1) + (d + 1))) (seq 0 r)), (n - r).
    split; [reflexivity|]. split; [|rewrite map_length, seq_length; lia].
    split.
    + rewrite blocks_tile by lia. f_equal. nia.
    + apply Forall_forall. intros x Hx. apply in_map_iff in Hx. destruct Hx as (i & <- & Hi). apply in_seq in Hi. cbn [fst snd]. nia.
  - eexists _, 0. split; [reflexivity|].
    assert (Es : map (fun i => ((d + 1) * r + (i - r) * d, (d + 1) * r + (i - r) * d + d)) (seq r (n - r))
       = map (fun i => ((d + 1) * r + i * d, (d + 1) * r + i * d + d)) (seq 0 (n - r))).
    { apply (list_ext _ _ _); [rewrite !map_length, !seq_length; reflexivity|].
      intros i Hi. rewrite map_length, seq_length in Hi.
      rewrite nth_error_map_seq by assumption. erewrite map_nth_error by (apply nth_error_seq; assumption).
      replace (r + i - r) with i by lia. reflexivity. }
    rewrite Es. split; [|rewrite app_length, !map_length, !seq_length; lia].
    split.
    + rewrite map_app, concat_app. rewrite blocks_tile by lia. rewrite blocks_tile by lia.
      replace ((d + 1) * r) with (0 + r * (d + 1)) by lia. rewrite <- seq_app. f_equal. nia.
    + apply Forall_forall. intros x Hx. apply in_app_or in Hx. destruct Hx as [Hx|Hx];
      apply in_map_iff in Hx; destruct Hx as (i & <- & Hi); apply in_seq in Hi; cbn [fst snd]; nia.
Qed.

(** Local nodes after any legal [std::partition]. *)
Lemma local_count_filter : forall A (loc : A -> Z) rank k nodes,
  (forall a, In a (firstn k nodes) -> loc a = rank) -> (forall a, In a (skipn k nodes) -> loc a <> rank) ->
  firstn (local_count loc rank nodes) nodes = filter (fun a => Z.eqb (loc a) rank) nodes.
Proof.
  intros A loc rank. induction k as [|k IH]; intros nodes Hl Hr.
  - cbn in Hr. assert (F : filter (fun a => Z.eqb (loc a) rank) nodes = []).
    { apply filter_none. intros a Ha. apply Z.eqb_neq. apply Hr. assumption. }
    rewrite F. destruct nodes as [|a nodes]; [reflexivity|]. unfold local_count. cbn.
    destruct (Z.eqb_spec (loc a) rank) as [E|E]; [exfalso; apply (Hr a); [left; reflexivity|assumption]|reflexivity].
  - destruct nodes as [|a nodes]; [reflexivity|]. cbn in Hl, Hr. unfold local_count in *. cbn [partition_point filter].
    rewrite (proj2 (Z.eqb_eq _ _) (Hl a (or_introl eq_refl))). cbn [firstn]. f_equal. apply IH; [|assumption].
    intros b Hb. apply Hl. right. assumption.
Qed.

Lemma map_nth_seq : forall A (l : list A) d, map (fun i => nth i l d) (seq 0 (length l)) = l.
Proof.
  intros A l d. apply list_ext; [rewrite map_length, seq_length; reflexivity|].
  intros i Hi. rewrite map_length, seq_length in Hi. rewrite nth_error_map_seq by assumption.
  symmetry. apply nth_error_nth'. assumption.
Qed.

Lemma nth_firstn_seq : forall A (l : list A) k, k <= length l ->
  map (nth_error l) (seq 0 k) = map Some (firstn k l).
Proof.
  intros A l k Hk. apply list_ext; [rewrite !map_length, seq_length, firstn_length; lia|].
  intros i Hi. rewrite map_length, seq_length in Hi. rewrite nth_error_map_seq by assumption.
  destruct (nth_error_lt _ l i ltac:(lia)) as [a Ha]. rewrite Ha.
  symmetry. apply map_nth_error. rewrite nth_error_firstn_lt by assumption. assumption.
Qed.
