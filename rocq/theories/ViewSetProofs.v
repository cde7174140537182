From Coq Require Import ZArith List Bool Arith Lia.
From Verif Require Import Base ListFacts ArrayRefModel BufferModel BufferSpec BufferProofs ViewSetModel ViewSetSpec.
Import ListNotations.
Open Scope nat_scope.

Lemma le_enc_len : forall n z, length (le_enc n z) = n.
Proof. induction n; intros; cbn [le_enc length]; auto. Qed.

Lemma le_dec_enc : forall n z, le_dec (le_enc n z) = (z mod 256 ^ Z.of_nat n)%Z.
Proof.
  induction n as [|n IH]; intros z.
  - cbn [le_enc le_dec]. change (256 ^ Z.of_nat 0)%Z with 1%Z. rewrite Z.mod_1_r. reflexivity.
  - cbn [le_enc le_dec]. rewrite IH. rewrite Nat2Z.inj_succ, Z.pow_succ_r by lia.
    rewrite Z.rem_mul_r by lia. reflexivity.
Qed.

Lemma s32_id : forall z, (- 2 ^ 31 <= z < 2 ^ 31)%Z -> s32 (z mod 2 ^ 32) = z.
Proof.
  intros z H. unfold s32. rewrite Z.mod_mod by lia.
  destruct (Z_lt_le_dec z 0).
  - assert (E : (z mod 2 ^ 32 = z + 2 ^ 32)%Z) by (symmetry; apply (Z.mod_unique _ _ (-1)); lia).
    rewrite E. destruct (Z.ltb_spec (z + 2 ^ 32) (2 ^ 31)); lia.
  - rewrite Z.mod_small by lia. destruct (Z.ltb_spec z (2 ^ 31)); lia.
Qed.

Lemma dec_int : forall z, (- 2 ^ 31 <= z < 2 ^ 31)%Z -> s32 (le_dec (le_enc 4 z)) = z.
Proof. intros z H. rewrite le_dec_enc. change (256 ^ Z.of_nat 4)%Z with (2 ^ 32)%Z. apply s32_id. assumption. Qed.

Lemma dec_size : forall n, (Z.of_nat n < 2 ^ 64)%Z -> Z.to_nat (le_dec (le_enc 8 (Z.of_nat n))) = n.
Proof. intros n H. rewrite le_dec_enc. change (256 ^ Z.of_nat 8)%Z with (2 ^ 64)%Z. rewrite Z.mod_small by lia. lia. Qed.

Lemma count_small : forall vs, (Z.of_nat (length (vs_views vs)) < 2 ^ 31)%Z -> vs_count vs = Z.of_nat (length (vs_views vs)).
Proof.
  intros vs H. unfold vs_count, s32. rewrite Z.mod_small by lia.
  destruct (Z.ltb_spec (Z.of_nat (length (vs_views vs))) (2 ^ 31)); lia.
Qed.

Lemma loop_all : forall vs, (Z.of_nat (length (vs_views vs)) < 2 ^ 31)%Z -> vs_loop vs = vs_views vs.
Proof. intros vs H. unfold vs_loop. rewrite count_small by assumption. rewrite Nat2Z.id. apply firstn_all. Qed.

(** ** Writing *)
Lemma put_at : forall b pre post d, at_ b pre post -> post <> [] -> length d <= length post ->
  exists b' post', put b d = Ok b' /\ at_ b' (pre ++ d) post' /\ length post = length d + length post'.
Proof.
  intros b pre post d HA N L. destruct (split_len post (length d) L) as (old & post' & -> & Lo).
  destruct (write_at b pre old post' d HA N ltac:(lia)) as (b' & E & HA'). unfold put. rewrite E. cbn. exists b', post'.
  rewrite app_length. repeat split; try apply HA'. lia.
Qed.

Lemma put_full : forall b pre d, at_ b pre [] -> put b d = Fail AssertFail.
Proof. intros b pre d (M & O & R). unfold put, write, complete. rewrite R. reflexivity. Qed.

Definition total_len (ds : list (list Z)) : nat := length (concat ds).
Lemma total_len_cons : forall d ds, total_len (d :: ds) = length d + total_len ds.
Proof. intros. unfold total_len. cbn. apply app_length. Qed.
Lemma total_len_app : forall a b, total_len (a ++ b) = total_len a + total_len b.
Proof. intros. unfold total_len. rewrite concat_app. apply app_length. Qed.

Definition ends_nonempty (ds : list (list Z)) : Prop := ds = [] \/ last ds [] <> [].

Lemma puts_ok : forall ds b pre post, at_ b pre post -> total_len ds <= length post ->
  (total_len ds < length post \/ ends_nonempty ds) ->
  exists b' post', foldM put ds b = Ok b' /\ at_ b' (pre ++ concat ds) post' /\ length post = total_len ds + length post'.
Proof.
  induction ds as [|d ds IH]; intros b pre post HA HL HN; cbn [foldM concat].
  - exists b, post. rewrite app_nil_r. repeat split; apply HA.
  - rewrite total_len_cons in *. assert (N : post <> []).
    { intros ->. cbn in *. destruct HN as [HN|HN]; [lia|]. destruct HN as [HN|HN]; [discriminate|].
      assert (d = []) by (destruct d; [reflexivity|cbn in *; lia]). subst d.
      destruct ds as [|d' ds']; [contradiction HN; reflexivity|]. rewrite app_removelast_last with (l := d' :: ds') (d := []) in HL by discriminate.
      rewrite total_len_app, total_len_cons in HL. change (last ([] :: d' :: ds') []) with (last (d' :: ds') []) in HN.
      destruct (last (d' :: ds') []); [contradiction|cbn in HL; lia]. }
    destruct (put_at b pre post d HA N ltac:(lia)) as (b1 & post1 & E & HA1 & L1). rewrite E. cbn [bind].
    destruct (IH b1 (pre ++ d) post1 HA1 ltac:(lia)) as (b2 & post2 & E2 & HA2 & L2).
    { destruct HN as [HN|HN]; [left; lia|]. destruct ds as [|d' ds']; [right; left; reflexivity|]. right. right.
      destruct HN as [HN|HN]; [discriminate|]. exact HN. }
    exists b2, post2. split; [assumption|]. rewrite app_assoc. split; [assumption|lia].
Qed.

Lemma puts_full : forall ds b pre post, at_ b pre post -> total_len ds = length post -> ds <> [] -> last ds [] = [] ->
  foldM put ds b = Fail AssertFail.
Proof.
  induction ds as [|d ds IH]; intros b pre post HA HL HN HE; [contradiction|]. cbn [foldM]. rewrite total_len_cons in HL.
  destruct post as [|p post].
  - rewrite (put_full b pre d HA). reflexivity.
  - destruct (put_at b pre (p :: post) d HA ltac:(discriminate) ltac:(lia)) as (b1 & post1 & E & HA1 & L1). rewrite E. cbn [bind].
    destruct ds as [|d' ds']; [cbn in HE; subst d; cbn in HL; lia|].
    apply (IH b1 (pre ++ d) post1 HA1); [lia|discriminate|exact HE].
Qed.

(** All byte strings [serialize] writes, in order. *)
Definition metas (vs : list view) : list (list Z) := concat (map (fun v => [le_enc 4 (v_index v); le_enc 8 (Z.of_nat (v_bytes v))]) vs).
Definition head (vs : viewset) : list (list Z) := [le_enc 4 (vs_role vs); le_enc 4 (vs_count vs); vs_x vs; vs_y vs; vs_z vs; vs_scale vs].
Definition pieces (vs : viewset) : list (list Z) := head vs ++ metas (vs_views vs) ++ map v_data (vs_views vs).

Lemma metas_fold : forall vs b, foldM (fun b v => do b <- put b (le_enc 4 (v_index v)); put b (le_enc 8 (Z.of_nat (v_bytes v)))) vs b = foldM put (metas vs) b.
Proof.
  induction vs as [|v vs IH]; intros b; [reflexivity|]. unfold metas. cbn [map concat app foldM].
  destruct (put b (le_enc 4 (v_index v))) as [b1|]; [|reflexivity]. cbn [bind].
  destruct (put b1 (le_enc 8 (Z.of_nat (v_bytes v)))) as [b2|]; [|reflexivity]. cbn [bind]. apply IH.
Qed.

Lemma data_fold : forall vs b, Forall (fun v => length (v_data v) = v_bytes v) vs ->
  foldM (fun b v => do d <- load (v_data v) 0 (v_bytes v); put b d) vs b = foldM put (map v_data vs) b.
Proof.
  induction vs as [|v vs IH]; intros b H; [reflexivity|]. inversion H; subst. cbn [map foldM].
  rewrite load_ok by lia. rewrite <- H2. cbn [skipn bind]. rewrite firstn_all. destruct (put b (v_data v)); [|reflexivity]. cbn [bind]. apply IH. assumption.
Qed.

Lemma serialize_pieces : forall vs b, wf_vs vs -> serialize vs b = foldM put (pieces vs) b.
Proof.
  intros vs b (_ & _ & _ & _ & _ & HC & HF & _). unfold serialize, pieces, head. rewrite loop_all by assumption.
  cbn [app foldM].
  destruct (put b (le_enc 4 (vs_role vs))) as [b1|]; [|reflexivity]. cbn [bind].
  destruct (put b1 (le_enc 4 (vs_count vs))) as [b2|]; [|reflexivity]. cbn [bind].
  destruct (put b2 (vs_x vs)) as [b3|]; [|reflexivity]. cbn [bind].
  destruct (put b3 (vs_y vs)) as [b4|]; [|reflexivity]. cbn [bind].
  destruct (put b4 (vs_z vs)) as [b5|]; [|reflexivity]. cbn [bind].
  destruct (put b5 (vs_scale vs)) as [b6|]; [|reflexivity]. cbn [bind].
  rewrite metas_fold, foldM_app. destruct (foldM put (metas (vs_views vs)) b6); [|reflexivity]. cbn [bind].
  apply data_fold. eapply Forall_impl; [|exact HF]. cbn. tauto.
Qed.

Lemma metas_len : forall vs, total_len (metas vs) = 12 * length vs.
Proof.
  induction vs as [|v vs IH]; [reflexivity|]. unfold metas in *. cbn [map concat app length]. rewrite !total_len_cons, !le_enc_len, IH. lia.
Qed.

Lemma pieces_len : forall vs, wf_vs vs -> total_len (pieces vs) = 40 + 12 * length (vs_views vs) + total_len (map v_data (vs_views vs)).
Proof.
  intros vs (_ & H1 & H2 & H3 & H4 & _). unfold pieces, head. rewrite !total_len_app, metas_len, !total_len_cons, !le_enc_len, H1, H2, H3, H4.
  change (total_len []) with 0. lia.
Qed.

Lemma fold_sum : forall (vs : list view) a, Forall (fun v => length (v_data v) = v_bytes v) vs ->
  fold_left (fun a v => a + Z.of_nat (v_bytes v))%Z vs a = (a + Z.of_nat (total_len (map v_data vs)))%Z.
Proof.
  induction vs as [|v vs IH]; intros a H; cbn [fold_left map]; [change (total_len []) with 0; lia|]. inversion H; subst.
  rewrite IH by assumption. rewrite total_len_cons. lia.
Qed.

Lemma bytes_len : forall vs, wf_vs vs -> vs_bytes vs = Z.of_nat (total_len (pieces vs)).
Proof.
  intros vs W. pose proof W as (_ & _ & _ & _ & _ & HC & HF & HT). rewrite pieces_len by assumption. unfold vs_bytes.
  rewrite fold_sum by (eapply Forall_impl; [|exact HF]; cbn; tauto). unfold total_len in *. unfold u64. rewrite Z.mod_small; lia.
Qed.

(** ** Reading *)
Lemma get_at : forall b pre d post n, at_ b pre (d ++ post) -> length d = n -> 0 < n ->
  exists b', get b n = Ok (b', d) /\ at_ b' (pre ++ d) post.
Proof.
  intros b pre d post n HA L N. destruct (read_at b pre d post HA) as (b' & E & HA').
  { destruct d; [cbn in L; lia|discriminate]. }
  subst n. unfold get. rewrite E. cbn. eauto.
Qed.

Definition meta_body : buf * list (Z * nat) -> nat -> res (buf * list (Z * nat)) :=
  fun s _ => let '(b, vs) := s in
    do r <- get b 4; let '(b, idx) := r in
    do r <- get b 8; let '(b, bts) := r in
    Ok (b, vs ++ [(s32 (le_dec idx), Z.to_nat (le_dec bts))]).

Lemma read_metas : forall vs b pre post acc k,
  Forall (fun v => (- 2 ^ 31 <= v_index v < 2 ^ 31)%Z /\ (Z.of_nat (v_bytes v) < 2 ^ 64)%Z) vs ->
  at_ b pre (concat (metas vs) ++ post) ->
  exists b', foldM meta_body (seq k (length vs)) (b, acc) = Ok (b', acc ++ map (fun v => (v_index v, v_bytes v)) vs) /\
    at_ b' (pre ++ concat (metas vs)) post.
Proof.
  induction vs as [|v vs IH]; intros b pre post acc k HF HA; cbn [length seq foldM map].
  - exists b. rewrite !app_nil_r. split; [reflexivity|]. exact HA.
  - inversion HF as [|? ? [Hi Hb] HF']; subst. unfold metas in HA. cbn [map concat app] in HA. fold (metas vs) in HA.
    rewrite <- !app_assoc in HA.
    destruct (get_at _ _ _ _ 4 HA (le_enc_len _ _) ltac:(lia)) as (b1 & E1 & HA1).
    destruct (get_at _ _ _ _ 8 HA1 (le_enc_len _ _) ltac:(lia)) as (b2 & E2 & HA2).
    assert (Em : meta_body (b, acc) k = Ok (b2, acc ++ [(v_index v, v_bytes v)])).
    { unfold meta_body. rewrite E1. cbn [bind]. rewrite E2. cbn [bind]. rewrite dec_int, dec_size by assumption. reflexivity. }
    rewrite Em. cbn [bind]. destruct (IH b2 _ post (acc ++ [(v_index v, v_bytes v)]) (S k) HF' HA2) as (b3 & E3 & HA3).
    exists b3. rewrite E3, <- app_assoc. split; [reflexivity|].
    unfold metas. cbn [map concat app]. fold (metas vs). rewrite <- !app_assoc in HA3. exact HA3.
Qed.

Definition data_body : buf * list pview -> Z * nat -> res (buf * list pview) :=
  fun s m => let '(b, vs) := s in
    let '(b', e) := advance b (snd m) in
    do _ <- assert_ e;
    Ok (b', vs ++ [{| p_index := fst m; p_bytes := snd m; p_data := b_off b |}]).

Lemma read_data : forall vs b pre post acc,
  Forall (fun v => length (v_data v) = v_bytes v) vs ->
  (post <> [] \/ ends_nonempty (map v_data vs)) ->
  at_ b pre (concat (map v_data vs) ++ post) ->
  exists b' ps, foldM data_body (map (fun v => (v_index v, v_bytes v)) vs) (b, acc) = Ok (b', acc ++ ps) /\
    at_ b' (pre ++ concat (map v_data vs)) post /\
    Forall2 (fun v p => p_index p = v_index v /\ p_bytes p = v_bytes v /\
             p_data p + p_bytes p <= length (b_mem b) /\ firstn (p_bytes p) (skipn (p_data p) (b_mem b)) = v_data v) vs ps.
Proof.
  induction vs as [|v vs IH]; intros b pre post acc HF HN HA; cbn [map foldM concat] in *.
  - exists b, []. rewrite !app_nil_r. repeat split; try apply HA. constructor.
  - inversion HF as [|? ? Hl HF']; subst. rewrite <- app_assoc in HA.
    assert (N : v_data v ++ concat (map v_data vs) ++ post <> []).
    { intros X. apply app_eq_nil in X. destruct X as [X1 X2]. apply app_eq_nil in X2. destruct X2 as [X2 X3].
      destruct HN as [HN|[HN|HN]]; [contradiction|discriminate|]. rewrite X1 in HN.
      destruct vs as [|v' vs']; [contradiction HN; reflexivity|]. cbn [map] in *. change (last ([] :: v_data v' :: map v_data vs') []) with (last (v_data v' :: map v_data vs') []) in HN.
      rewrite app_removelast_last with (l := v_data v' :: map v_data vs') (d := []) in X2 by discriminate.
      rewrite concat_app in X2. apply app_eq_nil in X2. destruct X2 as [_ X2]. cbn in X2. rewrite app_nil_r in X2. contradiction. }
    destruct (advance_at b pre (v_data v) _ HA N) as (b1 & E1 & HA1).
    assert (Em : data_body (b, acc) (v_index v, v_bytes v) = Ok (b1, acc ++ [{| p_index := v_index v; p_bytes := v_bytes v; p_data := b_off b |}])).
    { unfold data_body. cbn [snd fst]. rewrite <- Hl. rewrite E1. reflexivity. }
    rewrite Em. cbn [bind].
    assert (Emem : b_mem b1 = b_mem b) by (unfold advance in E1; destruct (complete b); inversion E1; reflexivity).
    destruct (IH b1 (pre ++ v_data v) post (acc ++ [{| p_index := v_index v; p_bytes := v_bytes v; p_data := b_off b |}]) HF') as (b2 & ps & E2 & HA2 & F2); [|exact HA1|].
    { destruct HN as [HN|[HN|HN]]; [left; assumption|discriminate|]. destruct vs; [right; left; reflexivity|right; right; exact HN]. }
    exists b2, ({| p_index := v_index v; p_bytes := v_bytes v; p_data := b_off b |} :: ps).
    rewrite E2, <- app_assoc. split; [reflexivity|]. split; [rewrite app_assoc; exact HA2|]. constructor; [|rewrite Emem in F2; exact F2].
    cbn [p_index p_bytes p_data]. destruct HA as (M & O & R). repeat split.
    + rewrite M, O, !app_length. lia.
    + pose proof (load_pre pre (v_data v) (concat (map v_data vs) ++ post)) as LP. rewrite load_ok in LP by (rewrite !app_length; lia).
      inversion LP as [LP']. rewrite M, O, <- Hl. congruence.
Qed.

Lemma interpret_ok : forall vs b pre post, wf_vs vs -> at_ b pre (concat (pieces vs) ++ post) ->
  (post <> [] \/ ends_nonempty (map v_data (vs_views vs))) ->
  exists b' ps, interpret_vs b = Ok (b', ps) /\ at_ b' (pre ++ concat (pieces vs)) post /\ same_contents (b_mem b) vs ps.
Proof.
  intros vs b pre post W HA HN. pose proof W as (HR & Hx & Hy & Hz & Hs & HC & HF & HT).
  unfold pieces, head in HA. cbn [app concat] in HA. rewrite <- !app_assoc in HA. pose proof (proj1 HA) as M.
  destruct (get_at _ _ _ _ 4 HA (le_enc_len _ _) ltac:(lia)) as (b1 & E1 & HA1).
  destruct (get_at _ _ _ _ 4 HA1 (le_enc_len _ _) ltac:(lia)) as (b2 & E2 & HA2).
  destruct (get_at _ _ _ _ 8 HA2 Hx ltac:(lia)) as (b3 & E3 & HA3).
  destruct (get_at _ _ _ _ 8 HA3 Hy ltac:(lia)) as (b4 & E4 & HA4).
  destruct (get_at _ _ _ _ 8 HA4 Hz ltac:(lia)) as (b5 & E5 & HA5).
  destruct (get_at _ _ _ _ 8 HA5 Hs ltac:(lia)) as (b6 & E6 & HA6).
  unfold interpret_vs. rewrite E1. cbn [bind]. rewrite E2. cbn [bind]. rewrite E3. cbn [bind]. rewrite E4. cbn [bind].
  rewrite E5. cbn [bind]. rewrite E6. cbn [bind]. rewrite dec_int by (rewrite count_small by assumption; lia).
  rewrite count_small by assumption. rewrite Nat2Z.id. rewrite concat_app, <- (app_assoc (concat (metas (vs_views vs)))) in HA6.
  assert (HV : Forall (fun v => (- 2 ^ 31 <= v_index v < 2 ^ 31)%Z /\ (Z.of_nat (v_bytes v) < 2 ^ 64)%Z) (vs_views vs)).
  { assert (X : forall l : list view, Forall (fun v => (- 2 ^ 31 <= v_index v < 2 ^ 31)%Z /\ length (v_data v) = v_bytes v) l ->
       (Z.of_nat (length (concat (map v_data l))) < 2 ^ 64)%Z ->
       Forall (fun v => (- 2 ^ 31 <= v_index v < 2 ^ 31)%Z /\ (Z.of_nat (v_bytes v) < 2 ^ 64)%Z) l).
    { induction l as [|v l IH]; intros F T; constructor; inversion F; subst; cbn [map concat] in T; rewrite app_length in T; [split; [tauto|lia]|apply IH; [assumption|lia]]. }
    apply X; [assumption|lia]. }
  destruct (read_metas (vs_views vs) b6 _ _ [] 0 HV HA6) as (b7 & E7 & HA7).
  match goal with |- context [foldM ?f (seq 0 _) _] => change f with meta_body end. rewrite E7. cbn [bind app].
  assert (HD : Forall (fun v => length (v_data v) = v_bytes v) (vs_views vs)) by (eapply Forall_impl; [|exact HF]; cbn; tauto).
  destruct (read_data (vs_views vs) b7 _ post [] HD HN HA7) as (b8 & ps & E8 & HA8 & F8).
  match goal with |- context [foldM ?f (map _ _) _] => change f with data_body end. rewrite E8. cbn [bind app].
  eexists _, _. split; [reflexivity|]. split.
  - unfold pieces, head. cbn [app concat]. rewrite concat_app. rewrite <- ?app_assoc in HA8. rewrite <- ?app_assoc. exact HA8.
  - assert (Em : b_mem b7 = b_mem b). { destruct HA7 as (M7 & _). rewrite M, M7, concat_app, <- !app_assoc. reflexivity. }
    rewrite Em in F8. unfold same_contents; cbn [ps_role ps_x ps_y ps_z ps_scale ps_views]. repeat split; try assumption.
    rewrite le_dec_enc. apply Z.mod_small. change (256 ^ Z.of_nat 4)%Z with (2 ^ 32)%Z. assumption.
Qed.
