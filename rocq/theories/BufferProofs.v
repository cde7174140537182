From Coq Require Import ZArith List Bool Arith Lia.
From Verif Require Import Base ListFacts BufferModel BufferSpec.
Import ListNotations.

Lemma load_ok : forall mem off n, off + n <= length mem -> load mem off n = Ok (firstn n (skipn off mem)).
Proof. intros. unfold load. destruct (Nat.leb_spec (off + n) (length mem)); [reflexivity|lia]. Qed.
Lemma store_ok : forall mem off d, off + length d <= length mem ->
  store mem off d = Ok (firstn off mem ++ d ++ skipn (off + length d) mem).
Proof. intros. unfold store. destruct (Nat.leb_spec (off + length d) (length mem)); [reflexivity|lia]. Qed.
Lemma load_pre : forall (pre d post : list Z), load (pre ++ d ++ post) (length pre) (length d) = Ok d.
Proof.
  intros. rewrite load_ok by (rewrite !app_length; lia). f_equal.
  rewrite skipn_app, Nat.sub_diag, skipn_all. cbn [skipn app]. rewrite firstn_app, Nat.sub_diag, firstn_all. cbn. apply app_nil_r.
Qed.

Definition changed_only (m m' : list Z) (lo hi : nat) : Prop :=
  length m' = length m /\ forall i, i < lo \/ hi <= i -> nth_error m' i = nth_error m i.

Lemma changed_refl : forall m lo hi, changed_only m m lo hi.
Proof. split; auto. Qed.

Lemma store_changed : forall m off d m', store m off d = Ok m' -> changed_only m m' off (off + length d).
Proof.
  intros m off d m' H. unfold store in H. destruct (Nat.leb_spec (off + length d) (length m)) as [L|L]; [|discriminate]. inversion H; subst.
  split; [rewrite !app_length, firstn_length, skipn_length; lia|].
  intros i Hi. destruct (Nat.lt_ge_cases i off) as [C|C].
  - rewrite nth_error_app1 by (rewrite firstn_length; lia). apply nth_error_firstn_lt. assumption.
  - assert (off + length d <= i) by lia. rewrite nth_error_app2 by (rewrite firstn_length; lia). rewrite firstn_length.
    rewrite nth_error_app2 by lia. rewrite nth_error_skipn. f_equal. lia.
Qed.

(** One step of any operation. *)
Definition step_ok (b b' : buf) : Prop :=
  wf b' /\ b_off b <= b_off b' /\ changed_only (b_mem b) (b_mem b') (b_off b) (b_off b').

Lemma step_refl : forall b, wf b -> step_ok b b.
Proof. intros b H. split; [assumption|]. split; [lia|apply changed_refl]. Qed.

Lemma moved_same : forall b n, wf b -> n <= b_rem b -> step_ok b (moved b (b_mem b) n).
Proof. intros b n H Hn. unfold step_ok, wf, moved in *. cbn. repeat split; try lia. Qed.

Lemma moved_store : forall b d, wf b -> length d <= b_rem b -> exists m', store (b_mem b) (b_off b) d = Ok m' /\
  step_ok b (moved b m' (length d)).
Proof.
  intros b d H Hd. unfold wf in H. rewrite store_ok by lia. eexists; split; [reflexivity|].
  set (m' := firstn (b_off b) (b_mem b) ++ d ++ skipn (b_off b + length d) (b_mem b)).
  assert (C : changed_only (b_mem b) m' (b_off b) (b_off b + length d)) by (apply (store_changed _ _ d); apply store_ok; lia).
  unfold step_ok, wf, moved; cbn [b_mem b_off b_rem]. destruct C as [L C]. repeat split; try lia; assumption.
Qed.

Lemma min_if : forall n r, (if n <=? r then n else r) <= r /\ (if n <=? r then n else r) <= n.
Proof. intros n r. destruct (Nat.leb_spec n r); lia. Qed.

Lemma read_wf : forall b n, wf b -> exists b' out e, read b n = Ok (b', out, e) /\ step_ok b b' /\ b_mem b' = b_mem b /\
   length out <= n /\ (e = true -> length out = n) /\ (n <= b_rem b -> b_rem b <> 0 -> e = true).
Proof.
  intros b n H. unfold read, complete. destruct (Nat.eqb_spec (b_rem b) 0).
  - exists b, [], false. repeat split; try discriminate; auto using step_refl; try lia; cbn; lia.
  - destruct (min_if n (b_rem b)) as [M1 M2]. set (k := if n <=? b_rem b then n else b_rem b) in *. unfold wf in H.
    rewrite load_ok by lia. cbn [bind]. eexists _, _, _. split; [reflexivity|].
    split; [apply moved_same; assumption|]. split; [reflexivity|]. rewrite firstn_length, skipn_length.
    split; [lia|]. split; intros.
    + apply Nat.eqb_eq in H0. lia.
    + apply Nat.eqb_eq. unfold k. destruct (Nat.leb_spec n (b_rem b)); lia.
Qed.

Lemma advance_step : forall b n, wf b -> step_ok b (fst (advance b n)).
Proof.
  intros b n H. unfold advance, complete. destruct (Nat.eqb_spec (b_rem b) 0); [apply step_refl; assumption|].
  cbn [fst]. apply moved_same; [assumption|]. apply min_if.
Qed.

Lemma run_op_ok : forall b o, wf b -> inputs_wf o -> exists b', run_op b o = Ok b' /\ step_ok b b'.
Proof.
  intros b [n|n|n|d|d|i] H HI; cbn [run_op].
  - eexists; split; [reflexivity|]. apply advance_step; assumption.
  - destruct (read_wf b n H) as (b' & out & e & -> & S & _). cbn. eauto.
  - unfold interpret. pose proof (advance_step b n H). destruct (advance b n) as [b' e]. cbn in *. eauto.
  - unfold write, complete. destruct (Nat.eqb_spec (b_rem b) 0); [cbn; eauto using step_refl|].
    destruct (min_if (length d) (b_rem b)) as [M1 M2]. set (k := if length d <=? b_rem b then length d else b_rem b) in *.
    rewrite load_ok by lia. cbn [bind skipn]. 
    assert (Ek : length (firstn k d) = k) by (rewrite firstn_length; lia).
    destruct (moved_store b (firstn k d) H ltac:(lia)) as (m' & -> & S). cbn. rewrite Ek in S. eauto.
  - unfold write_array. destruct (Nat.ltb_spec (b_rem b) (length d)); [cbn; eauto using step_refl|].
    destruct (moved_store b d H ltac:(lia)) as (m' & -> & S). cbn. eauto.
  - cbn in HI. unfold write_buf, complete. destruct (Nat.eqb_spec (b_rem b) 0) as [C0|C0]; [cbn; eauto using step_refl|].
    destruct (min_if (b_rem i) (b_rem b)) as [M1 M2]. set (k := if b_rem i <=? b_rem b then b_rem i else b_rem b) in *.
    destruct (Nat.eqb_spec k 0) as [K|K].
    + cbn. eexists; split; [reflexivity|]. apply moved_same; [assumption|lia].
    + destruct (read_wf i k HI) as (i' & out & e & -> & _ & _ & _ & L & E). cbn [bind].
      assert (e = true) by (apply E; lia). subst e. specialize (L eq_refl).
      destruct (moved_store b out H ltac:(lia)) as (m' & -> & S). cbn. rewrite L in S. eauto.
Qed.

Lemma step_trans : forall a b c, step_ok a b -> step_ok b c -> step_ok a c.
Proof.
  intros a b c (W1 & O1 & L1 & C1) (W2 & O2 & L2 & C2). split; [assumption|]. split; [lia|]. split; [congruence|].
  intros i Hi. rewrite C2, C1; [reflexivity|lia|lia].
Qed.

Lemma run_ops_ok : forall os b, wf b -> Forall inputs_wf os -> exists b', foldM run_op os b = Ok b' /\ step_ok b b'.
Proof.
  induction os as [|o os IH]; intros b H HI; cbn [foldM]; [eauto using step_refl|]. inversion HI; subst.
  destruct (run_op_ok b o H H2) as (b1 & -> & S1). cbn [bind]. destruct (IH b1 (proj1 S1) H3) as (b2 & -> & S2).
  eauto using step_trans.
Qed.

(** Cursor between [pre] and [post]. *)
Definition at_ (b : buf) (pre post : list Z) : Prop :=
  b_mem b = pre ++ post /\ b_off b = length pre /\ b_rem b = length post.

Lemma at_mk : forall mem, at_ (mk_buf mem) [] mem.
Proof. repeat split. Qed.

Lemma read_at : forall b pre d post, at_ b pre (d ++ post) -> d ++ post <> [] ->
  exists b', read b (length d) = Ok (b', d, true) /\ at_ b' (pre ++ d) post.
Proof.
  intros b pre d post (M & O & R) N. unfold read, complete. rewrite R. 
  destruct (Nat.eqb_spec (length (d ++ post)) 0) as [E|E]; [destruct (d ++ post); [contradiction|discriminate]|].
  rewrite app_length in *. destruct (Nat.leb_spec (length d) (length d + length post)); [|lia].
  rewrite M, O, load_pre. cbn [bind]. rewrite Nat.eqb_refl. eexists; split; [reflexivity|].
  unfold at_, moved; cbn. rewrite app_length, app_assoc. repeat split; try lia; assumption.
Qed.

Lemma advance_at : forall b pre d post, at_ b pre (d ++ post) -> d ++ post <> [] ->
  exists b', advance b (length d) = (b', true) /\ at_ b' (pre ++ d) post.
Proof.
  intros b pre d post (M & O & R) N. unfold advance, complete. rewrite R. 
  destruct (Nat.eqb_spec (length (d ++ post)) 0) as [E|E]; [destruct (d ++ post); [contradiction|discriminate]|].
  rewrite app_length in *. destruct (Nat.leb_spec (length d) (length d + length post)); [|lia].
  rewrite Nat.eqb_refl. eexists; split; [reflexivity|].
  unfold at_, moved; cbn. rewrite app_length, M. repeat split; try lia; apply app_assoc.
Qed.

Lemma store_at : forall b pre old post d, at_ b pre (old ++ post) -> length d = length old ->
  exists m', store (b_mem b) (b_off b) d = Ok m' /\ at_ (moved b m' (length d)) (pre ++ d) post.
Proof.
  intros b pre old post d (M & O & R) L. rewrite app_length in R.
  rewrite store_ok by (rewrite M, O, !app_length; lia). eexists; split; [reflexivity|].
  unfold at_, moved; cbn [b_mem b_off b_rem]. rewrite app_length. split; [|lia].
  rewrite M, O, firstn_app, Nat.sub_diag, firstn_all. cbn [firstn]. rewrite app_nil_r, <- app_assoc. f_equal. f_equal.
  rewrite skipn_app, skipn_all2 by lia. cbn [app]. rewrite skipn_app, skipn_all2 by lia. cbn [app].
  replace (length pre + length d - length pre - length old) with 0 by lia. reflexivity.
Qed.

Lemma split_len : forall (l : list Z) n, n <= length l -> exists a b, l = a ++ b /\ length a = n.
Proof. intros l n H. exists (firstn n l), (skipn n l). split; [symmetry; apply firstn_skipn|rewrite firstn_length; lia]. Qed.

Lemma write_at : forall b pre old post d, at_ b pre (old ++ post) -> old ++ post <> [] -> length d = length old ->
  exists b', write b d = Ok (b', true) /\ at_ b' (pre ++ d) post.
Proof.
  intros b pre old post d HA N L. pose proof HA as (M & O & R). unfold write, complete.
  rewrite R. destruct (Nat.eqb_spec (length (old ++ post)) 0) as [E|E]; [destruct (old ++ post); [contradiction|discriminate]|].
  rewrite app_length. destruct (Nat.leb_spec (length d) (length old + length post)); [|lia].
  rewrite load_ok by lia. cbn [bind skipn]. rewrite firstn_all.
  destruct (store_at b pre old post d HA L) as (m' & -> & A). cbn [bind]. rewrite Nat.eqb_refl. eauto.
Qed.

(** A successful write moves the cursor over its payload. *)
Lemma do_write_true : forall b w pre post b', at_ b pre post -> inputs_wf (match w with WBuf i => OWriteBuf i | _ => OAdvance 0 end) ->
  do_write b w = Ok (b', true) -> exists post', at_ b' (pre ++ payload w) post' /\ length post = length (payload w) + length post'.
Proof.
  intros b w pre post b' HA HI HW. pose proof HA as (M & O & R). destruct w as [d|d|i]; cbn [do_write payload] in *.
  - unfold write, complete in HW. destruct (Nat.eqb_spec (b_rem b) 0); [discriminate|].
    destruct (Nat.leb_spec (length d) (b_rem b)) as [C|C].
    2:{ rewrite load_ok in HW by lia. cbn [bind] in HW. destruct (store _ _ _); [|discriminate]. cbn in HW. inversion HW.
        exfalso. match goal with H : (_ =? _) = true |- _ => apply Nat.eqb_eq in H; lia end. }
    destruct (split_len post (length d) ltac:(lia)) as (old & post' & -> & Lo).
    rewrite load_ok in HW by lia. cbn [bind skipn] in HW. rewrite firstn_all in HW.
    destruct (store_at b pre old post' d HA ltac:(lia)) as (m' & E & A). rewrite E in HW. cbn in HW. inversion HW; subst.
    exists post'. split; [assumption|]. rewrite app_length. lia.
  - unfold write_array in HW. destruct (Nat.ltb_spec (b_rem b) (length d)); [discriminate|].
    destruct (split_len post (length d) ltac:(lia)) as (old & post' & -> & Lo).
    destruct (store_at b pre old post' d HA ltac:(lia)) as (m' & E & A). rewrite E in HW. cbn in HW. inversion HW; subst.
    exists post'. split; [assumption|]. rewrite app_length. lia.
  - cbn in HI. unfold wf in HI. assert (Hp : length (skipn (b_off i) (b_mem i)) = b_rem i) by (rewrite skipn_length; lia).
    unfold write_buf, complete in HW. destruct (Nat.eqb_spec (b_rem b) 0); [discriminate|].
    destruct (Nat.leb_spec (b_rem i) (b_rem b)) as [C|C].
    + destruct (Nat.eqb_spec (b_rem i) 0) as [Z0|Z0].
      * cbn in HW. inversion HW; subst. assert (P0 : skipn (b_off i) (b_mem i) = []) by (destruct (skipn (b_off i) (b_mem i)); [reflexivity|cbn in Hp; lia]).
        rewrite P0, app_nil_r. exists post. split; [|reflexivity]. unfold at_, moved; cbn. repeat split; try assumption; lia.
      * unfold read, complete in HW. destruct (Nat.eqb_spec (b_rem i) 0); [lia|]. rewrite Nat.leb_refl in HW.
        rewrite load_ok in HW by lia. cbn [bind] in HW. rewrite firstn_all2 in HW by lia.
        destruct (split_len post (b_rem i) ltac:(lia)) as (old & post' & -> & Lo).
        destruct (store_at b pre old post' (skipn (b_off i) (b_mem i)) HA ltac:(lia)) as (m' & E & A). rewrite E in HW. cbn [bind] in HW.
        rewrite Nat.eqb_refl in HW. cbn in HW. inversion HW; subst. rewrite Hp in A. exists post'. split; [assumption|]. rewrite app_length. lia.
    + destruct (Nat.eqb_spec (b_rem b) 0); [lia|].
      destruct (read i (b_rem b)) as [[[i' dd] e]|]; [|discriminate]. cbn [bind] in HW.
      destruct (store _ _ _); [|discriminate]. cbn [bind] in HW. destruct e; [|discriminate]. cbn in HW. inversion HW.
      exfalso. match goal with H : (_ =? _) = true |- _ => apply Nat.eqb_eq in H; lia end.
Qed.

Lemma write_all_at : forall ws b pre post b', at_ b pre post ->
  Forall (fun w => match w with WBuf i => wf i | _ => True end) ws ->
  write_all b ws = Ok (Some b') -> exists post', at_ b' (pre ++ concat (map payload ws)) post'.
Proof.
  induction ws as [|w ws IH]; intros b pre post b' HA HI HW; cbn [write_all map concat] in *.
  - inversion HW; subst. rewrite app_nil_r. eauto.
  - destruct (do_write b w) as [[b1 e]|] eqn:E; [|discriminate]. cbn [bind fst snd] in HW. destruct e; [|discriminate]. inversion HI; subst.
    destruct (do_write_true b w pre post b1 HA) as (post' & HA' & _); [destruct w; cbn in *; auto|assumption|].
    rewrite app_assoc. eapply IH; eassumption.
Qed.

Lemma read_all_at : forall ds b pre post, at_ b pre (concat ds ++ post) ->
  exists rs, read_all b (map (@length Z) ds) = Ok rs /\ map fst rs = ds /\
    Forall (fun r => fst r <> [] -> snd r = true) rs /\ (post <> [] -> Forall (fun r => snd r = true) rs).
Proof.
  induction ds as [|d ds IH]; intros b pre post HA; cbn [read_all map concat] in *.
  - exists []. repeat split; constructor.
  - rewrite <- app_assoc in HA. destruct (list_eq_dec Z.eq_dec (d ++ concat ds ++ post) []) as [E|E].
    + apply app_eq_nil in E. destruct E as [-> E]. pose proof HA as (M & O & R). rewrite E in R.
      assert (Er : read b (length (@nil Z)) = Ok (b, [], false)) by (unfold read, complete; rewrite R; reflexivity).
      rewrite Er. cbn [bind fst snd]. destruct (IH b pre post HA) as (rs & -> & F & G1 & G2). cbn [bind].
      eexists; split; [reflexivity|]. split; [cbn [map fst]; congruence|]. split; [constructor; [cbn; congruence|assumption]|].
      intros N. exfalso. apply app_eq_nil in E. destruct E as [_ E]. contradiction.
    + destruct (read_at b pre d (concat ds ++ post) HA E) as (b' & -> & HA'). cbn [bind fst snd].
      destruct (IH b' (pre ++ d) post HA') as (rs & -> & F & G1 & G2). cbn [bind].
      eexists; split; [reflexivity|]. split; [cbn [map fst]; congruence|]. split; [constructor; auto|]. intros N. constructor; auto.
Qed.

Definition min_of (n r : nat) : nat := if n <=? r then n else r.
Lemma min_of_min : forall n r, min_of n r = Nat.min n r.
Proof. intros n r. unfold min_of. destruct (Nat.leb_spec n r); lia. Qed.
Lemma min_eqb : forall n r, (Nat.min n r =? n) = (n <=? r).
Proof. intros n r. destruct (Nat.leb_spec n r); [apply Nat.eqb_eq; lia|apply Nat.eqb_neq; lia]. Qed.
Lemma firstn_skipn_0 : forall (l : list Z) n, firstn n l ++ skipn (n + 0) l = l.
Proof. intros. rewrite Nat.add_0_r. apply firstn_skipn. Qed.
