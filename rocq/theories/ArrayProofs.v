From Coq Require Import ZArith List Bool Arith Lia Permutation.
From Verif Require Import Base ListFacts ArrayRefModel ReduceModel ReduceSpec ReduceProofs BufferModel BufferProofs ViewSetModel ViewSetProofs ArrayModel ArraySpec.
Import ListNotations.
Open Scope nat_scope.

Lemma contribs_fill : forall t vs, contribs (fill t vs) = map (fun r => nth r vs []) (oleaves t).
Proof. induction t as [r| |a IHa b IHb]; intros vs; cbn; [reflexivity..|]. rewrite map_app, IHa, IHb. reflexivity. Qed.

Lemma map_nth_seq : forall B (l : list B) d, map (fun r => nth r l d) (seq 0 (length l)) = l.
Proof.
  intros B l d. apply nth_error_ext. intros k. destruct (Nat.lt_ge_cases k (length l)) as [H|H].
  - rewrite nth_error_map, nth_error_seq by assumption. cbn. symmetry. apply nth_error_nth'. assumption.
  - rewrite !(proj2 (nth_error_None _ _)); [reflexivity|lia|rewrite map_length, seq_length; lia].
Qed.

Lemma fill_perm : forall t vs, all_ranks (length vs) t -> Permutation (contribs (fill t vs)) vs.
Proof.
  intros t vs H. rewrite contribs_fill. eapply Permutation_trans; [apply Permutation_map; exact H|]. rewrite (map_nth_seq _ vs []). apply Permutation_refl.
Qed.

(** A reduction of return codes. *)
Lemma reduce_codes : forall t codes, codes <> [] -> all_ranks (length codes) t -> (forall c, In c codes -> c = 0%Z \/ c = 3%Z \/ c = 6%Z) ->
  exists c, reduce int_max_op (int_max_ident 1) (fill t (map (fun x => [x]) codes)) = Ok [c] /\ c = fold_right Z.max int_min codes.
Proof.
  intros t codes Hne Ht Hc. assert (P : Permutation (contribs (fill t (map (fun x => [x]) codes))) (map (fun x => [x]) codes)) by (apply fill_perm; rewrite map_length; assumption).
  assert (Hv : forall v, In v (contribs (fill t (map (fun x => [x]) codes))) -> exists x, v = [x] /\ In x codes).
  { intros v Hv. apply (Permutation_in _ P) in Hv. apply in_map_iff in Hv. destruct Hv as (x & <- & Hx). exists x. auto. }
  destruct (reduce_int_max 1 (fill t (map (fun x => [x]) codes))) as (r & E & L & N).
  - intros v H. destruct (Hv v H) as (x & -> & _). reflexivity.
  - intros v i H Hi. destruct (Hv v H) as (x & -> & Hx). replace i with 0 by lia. cbn [nth]. destruct (Hc x Hx) as [->|[->| ->]]; vm_compute; congruence.
  - destruct r as [|c [|? ?]]; try discriminate. exists c. split; [assumption|]. specialize (N 0 ltac:(lia)). cbn [nth] in N. rewrite N, (col_max_perm _ _ _ _ P). unfold col_max, column. rewrite map_map. cbn [nth]. rewrite map_id. reflexivity.
Qed.

Lemma max_codes : forall codes c, codes <> [] -> (0 <= c)%Z -> (forall x, In x codes -> x = 0%Z \/ x = c) ->
  fold_right Z.max int_min codes = if forallb (fun x => (x =? 0)%Z) codes then 0%Z else c.
Proof.
  induction codes as [|x codes IH]; intros c Hne Hc Hx; [congruence|]. cbn [fold_right forallb]. destruct codes as [|y codes].
  - cbn. destruct (Hx x (or_introl eq_refl)) as [->| ->]; [reflexivity|]. destruct (Z.eqb_spec c 0); cbn; unfold int_min; lia.
  - rewrite (IH c) by (try congruence; try assumption; intros z Hz; apply Hx; right; assumption).
    destruct (Hx x (or_introl eq_refl)) as [->| ->].
    + cbn [Z.eqb andb]. destruct (forallb _ (y :: codes)); lia.
    + destruct (Z.eqb_spec c 0) as [->|]; cbn [andb]; destruct (forallb _ (y :: codes)); lia.
Qed.

Lemma mapM_forall2 : forall B C (f : B -> res C) (P : B -> C -> Prop) l, (forall x, In x l -> exists y, f x = Ok y /\ P x y) -> exists ys, mapM f l = Ok ys /\ Forall2 P l ys.
Proof.
  intros B C f P. induction l as [|x l IH]; intros H; [exists []; split; [reflexivity|constructor]|]. destruct (H x (or_introl eq_refl)) as (y & E & Py). destruct IH as (ys & Es & Ps); [intros z Hz; apply H; right; assumption|].
  exists (y :: ys). cbn. rewrite E. cbn. rewrite Es. split; [reflexivity|constructor; assumption].
Qed.

Lemma forall2_len : forall B C (P : B -> C -> Prop) l l', Forall2 P l l' -> length l = length l'.
Proof. induction 1; cbn; congruence. Qed.

(** ** allocate *)
Section Allocate.
Variable A : Type.
Variable dflt : A.
Implicit Types (args : list (arg A)).

Lemma col_sum_contribs : forall n args k, k + length args = n -> 1 <= n ->
  col_sum (n - 1) (map (fun ra => contrib n (fst ra) (a_count (snd ra))) (combine (seq k (length args)) args)) = Z.of_nat (wanted args).
Proof.
  intros n. unfold wanted, col_sum, column. induction args as [|a args IH]; intros k Hk Hn; [reflexivity|]. cbn [length seq combine map fold_right fst snd].
  cbn [length] in Hk. rewrite IH by lia.
  assert (E : nth (n - 1) (contrib n k (a_count a)) 0%Z = Z.of_nat (a_count a)).
  { unfold contrib. set (f := fun i : nat => if k <=? i then Z.of_nat (a_count a) else 0%Z). rewrite (nth_indep _ 0%Z (f 0)) by (rewrite map_length, seq_length; lia). rewrite map_nth, seq_nth by lia. unfold f. destruct (Nat.leb_spec k (0 + (n - 1))); [reflexivity|lia]. }
  rewrite E. unfold list_sum. cbn [fold_right]. rewrite Nat2Z.inj_add. reflexivity.
Qed.

Definition needs (a : arg A) : bool := match a_seg a with Some _ => false | None => negb (a_count a =? 0) end.
Definition fails (a : arg A) : bool := needs a && negb (a_mem a).
Definition result_of (total : Z) (a : arg A) (m : meta A) : Prop :=
  m_local m = a_count a /\ m_total m = total /\
  m_data m = match a_seg a with Some s => Some s | None => if a_count a =? 0 then None else if a_mem a then Some (repeat dflt (a_count a)) else None end.

Lemma allocate_ok : forall args t1 t2, args <> [] -> all_ranks (length args) t1 -> all_ranks (length args) t2 ->
  (forall a, In a args -> (Z.of_nat (a_count a) < 2 ^ 64)%Z) ->
  exists ms, allocate A dflt None true args t1 t2 =
      Ok (map (fun _ => if existsb fails args then kAllocationError else kSuccess) args, Some ms) /\
    Forall2 (result_of (Z.of_nat (wanted args) mod 2 ^ 64)) args ms.
Proof.
  intros args t1 t2 Hne H1 H2 Hc. unfold allocate. cbn [negb]. set (n := length args) in *.
  assert (Hn : 1 <= n) by (unfold n; destruct args; [congruence|cbn; lia]).
  set (cs := map _ (combine (seq 0 n) args)).
  assert (Lcs : length cs = n) by (unfold cs; rewrite map_length, combine_length, seq_length; unfold n; lia).
  assert (P1 : Permutation (contribs (fill t1 cs)) cs) by (apply fill_perm; rewrite Lcs; assumption).
  assert (Hcs : forall v, In v cs -> exists r a, v = contrib n r (a_count a) /\ In a args).
  { intros v Hv. unfold cs in Hv. apply in_map_iff in Hv. destruct Hv as ([r a] & <- & Hi). exists r, a. split; [reflexivity|]. eapply in_combine_r; eassumption. }
  destruct (reduce_size_sum n (fill t1 cs)) as (sums & Es & Ls & Ns).
  - intros v Hv. apply (Permutation_in _ P1) in Hv. destruct (Hcs v Hv) as (r & a & -> & _). unfold contrib. rewrite map_length, seq_length. reflexivity.
  - intros v i Hv. apply (Permutation_in _ P1) in Hv. destruct (Hcs v Hv) as (r & a & -> & Ha). pose proof (Hc a Ha) as B. unfold contrib.
    destruct (nth_in_or_default i (map (fun i => if r <=? i then Z.of_nat (a_count a) else 0%Z) (seq 0 n)) 0%Z) as [Hi| ->]; [|lia].
    apply in_map_iff in Hi. destruct Hi as (x & <- & _). destruct (r <=? x); lia.
  - rewrite Es. cbn [bind].
    assert (Tn : nth_res sums (n - 1) = Ok (Z.of_nat (wanted args) mod 2 ^ 64)%Z).
    { destruct (nth_error_lt _ sums (n - 1) ltac:(lia)) as (x & Ex). unfold nth_res. rewrite Ex. f_equal. rewrite <- (nth_error_nth _ _ 0%Z Ex). rewrite Ns by lia. rewrite (col_sum_perm _ _ _ P1). unfold cs. pose proof (col_sum_contribs n args 0 eq_refl Hn) as X. rewrite <- X. reflexivity. }
    set (total := (Z.of_nat (wanted args) mod 2 ^ 64)%Z) in *.
    destruct (mapM_forall2 _ _ (local_work A dflt n sums) (fun a mc => result_of total a (fst mc) /\ snd mc = if fails a then kAllocationError else kSuccess) args) as (ms & Em & Fm).
    { intros a Ha. unfold local_work. rewrite Tn. cbn [bind]. unfold result_of, fails, needs. destruct (a_seg a) as [s|] eqn:Eseg; [eexists; split; [reflexivity|cbn [fst snd m_local m_total m_data]; auto]|].
      destruct (Nat.eqb_spec (a_count a) 0) as [E0|E0]; [eexists; split; [reflexivity|cbn [fst snd m_local m_total m_data]; auto]|]. destruct (a_mem a); eexists; (split; [reflexivity|]); cbn; auto. }
    rewrite Em. cbn [bind].
    assert (Ec : map (fun m : meta A * Z => [snd m]) ms = map (fun x => [x]) (map (fun a => if fails a then kAllocationError else kSuccess) args)).
    { rewrite map_map. clearbody total; clear -Fm. induction Fm as [|a mc args ms [_ Hx] F IH]; cbn [map]; [reflexivity|]. rewrite Hx, IH. reflexivity. }
    rewrite Ec. destruct (reduce_codes t2 (map (fun a => if fails a then kAllocationError else kSuccess) args)) as (c & Er & Ev).
    { destruct args; [congruence|discriminate]. }
    { rewrite map_length. assumption. }
    { intros x Hx. apply in_map_iff in Hx. destruct Hx as (a & <- & _). destruct (fails a); [right; left|left]; reflexivity. }
    rewrite Er. cbn [bind nth_res nth_error]. exists (map fst ms). split.
    + f_equal. f_equal. apply map_ext. intros _. rewrite Ev. rewrite (max_codes _ kAllocationError).
      * assert (X : forallb (fun x => (x =? 0)%Z) (map (fun a => if fails a then kAllocationError else kSuccess) args) = negb (existsb fails args)).
        { clear. induction args as [|a args IH]; [reflexivity|]. cbn [map forallb existsb]. rewrite IH. destruct (fails a); reflexivity. }
        rewrite X. destruct (existsb fails args); reflexivity.
      * destruct args; [congruence|discriminate].
      * unfold kAllocationError. lia.
      * intros x Hx. apply in_map_iff in Hx. destruct Hx as (a & <- & _). destruct (fails a); [right|left]; reflexivity.
    + clearbody total; clear -Fm. induction Fm as [|a mc args ms [Hx _] F IH]; cbn [map]; constructor; assumption.
Qed.
End Allocate.

(** ** get and put *)
Section GetPut.
Variable A : Type.

Lemma read_range_ok : forall (d : list A) first last, first <= last -> last <= length d -> read_range A d first last = Ok (firstn (last - first) (skipn first d)).
Proof. intros. unfold read_range. replace (first <=? last) with true by (symmetry; apply Nat.leb_le; lia). replace (last <=? length d) with true by (symmetry; apply Nat.leb_le; lia). reflexivity. Qed.

Lemma write_range_ok : forall (d v : list A) off, off + length v <= length d -> write_range A d off v = Ok (firstn off d ++ v ++ skipn (off + length v) d).
Proof. intros. unfold write_range. replace (off + length v <=? length d) with true by (symmetry; apply Nat.leb_le; lia). reflexivity. Qed.

Lemma write_replaced : forall (d v : list A) off, off + length v <= length d -> replaced d (firstn off d ++ v ++ skipn (off + length v) d) v off.
Proof.
  intros d v off H. split.
  - rewrite !app_length, firstn_length, skipn_length. lia.
  - intros i. assert (Lf : length (firstn off d) = off) by (rewrite firstn_length; lia).
    destruct (Nat.leb_spec off i) as [Hi|Hi]; cbn [andb].
    + rewrite nth_error_app2 by lia. rewrite Lf. destruct (Nat.ltb_spec i (off + length v)) as [Hj|Hj].
      * apply nth_error_app1. lia.
      * rewrite nth_error_app2 by lia. rewrite nth_error_skipn. f_equal. lia.
    + rewrite nth_error_app1 by lia. apply nth_error_firstn_lt. lia.
Qed.

Definition valid_range (m : meta A) (first last : nat) : bool := (first <=? last) && (last <=? m_local m).

Lemma range_check : forall (m : meta A) first last, (m_local m <? last) || (last <? first) = negb (valid_range m first last).
Proof. intros m first last. unfold valid_range. destruct (Nat.ltb_spec (m_local m) last), (Nat.ltb_spec last first), (Nat.leb_spec first last), (Nat.leb_spec last (m_local m)); cbn; lia || reflexivity. Qed.

Lemma get_local_ok : forall m d first last out, segment_is m d -> (valid_range m first last = true -> last - first <= length out) ->
  get_local A m first last out = Ok (if valid_range m first last then (kSuccess, firstn (last - first) (skipn first d) ++ skipn (last - first) out) else (kDomainError, out)).
Proof.
  intros m d first last out [Ln Hd] Ho. unfold get_local. rewrite range_check. destruct (valid_range m first last) eqn:V; cbn [negb]; [|reflexivity]. specialize (Ho eq_refl).
  unfold valid_range in V. apply andb_true_iff in V. rewrite !Nat.leb_le in V. destruct (Nat.eqb_spec (m_local m) 0) as [E|E].
  - assert (first = 0 /\ last = 0) as [-> ->] by lia. reflexivity.
  - destruct Hd as [->|[-> ->]]; [|cbn in Ln; lia]. rewrite read_range_ok by lia. cbn [bind].
    assert (L : length (firstn (last - first) (skipn first d)) = last - first) by (rewrite firstn_length, skipn_length; lia).
    rewrite write_range_ok by (rewrite L; lia). cbn [bind]. rewrite L. reflexivity.
Qed.

(** Exactly what [put] does. *)
Lemma put_local_eval : forall m d first last inp, segment_is m d -> valid_range m first last = true ->
  put_local A m first last inp =
    if length d =? 0 then Ok (kSuccess, m)
    else if last <=? length inp then
      if first + last <=? length d then Ok (kSuccess, {| m_local := m_local m; m_total := m_total m; m_data := Some (firstn first d ++ firstn last inp ++ skipn (first + last) d) |})
      else Fail Oob
    else Fail Oob.
Proof.
  intros m d first last inp [Ln Hd] V. unfold put_local. rewrite range_check, V. cbn [negb]. rewrite Ln. unfold valid_range in V. apply andb_true_iff in V. rewrite !Nat.leb_le in V.
  destruct (Nat.eqb_spec (length d) 0) as [E|E]; [reflexivity|]. destruct Hd as [->|[-> ->]]; [|cbn in E; lia].
  unfold read_range. cbn [Nat.leb andb]. destruct (Nat.leb_spec last (length inp)) as [H|H]; [|reflexivity]. cbn [bind]. rewrite Nat.sub_0_r. cbn [skipn].
  assert (L : length (firstn last inp) = last) by (rewrite firstn_length; lia).
  unfold write_range. rewrite L. destruct (Nat.leb_spec (first + last) (length d)) as [G|G]; reflexivity.
Qed.
End GetPut.

(** ** The collective part of get and put *)
Lemma collective_ok : forall B C (f : B -> res (Z * C)) (g : B -> Z * C) ranks t, ranks <> [] -> all_ranks (length ranks) t ->
  (forall b, In b ranks -> f b = Ok (g b) /\ (fst (g b) = kSuccess \/ fst (g b) = kDomainError)) ->
  collective f ranks t = Ok (map (fun _ => if forallb (fun b => (fst (g b) =? 0)%Z) ranks then kSuccess else kDomainError) ranks, map (fun b => snd (g b)) ranks).
Proof.
  intros B C f g ranks t Hne Ht Hf. unfold collective.
  assert (Em : mapM f ranks = Ok (map g ranks)).
  { clear Hne Ht. induction ranks as [|b ranks IH]; [reflexivity|]. cbn. destruct (Hf b (or_introl eq_refl)) as [E _]. rewrite E. cbn. rewrite IH by (intros x Hx; apply Hf; right; assumption). reflexivity. }
  rewrite Em. cbn [bind]. rewrite map_map. replace (map (fun x => [fst (g x)]) ranks) with (map (fun x => [x]) (map (fun b => fst (g b)) ranks)) by apply map_map.
  destruct (reduce_codes t (map (fun b => fst (g b)) ranks)) as (c & Er & Ev).
  - destruct ranks; [congruence|discriminate].
  - rewrite map_length. assumption.
  - intros x Hx. apply in_map_iff in Hx. destruct Hx as (b & <- & Hb). destruct (Hf b Hb) as [_ [->| ->]]; [left|right; right]; reflexivity.
  - rewrite Er. cbn [bind nth_res nth_error]. rewrite map_map. rewrite (max_codes _ kDomainError) in Ev.
    + f_equal. f_equal. apply map_ext. intros _. rewrite Ev. replace (forallb (fun x => (x =? 0)%Z) (map (fun b => fst (g b)) ranks)) with (forallb (fun b => (fst (g b) =? 0)%Z) ranks); [reflexivity|].
      clear. induction ranks as [|b r IH]; cbn; [reflexivity|]. rewrite IH. reflexivity.
    + destruct ranks; [congruence|discriminate].
    + unfold kDomainError. lia.
    + intros x Hx. apply in_map_iff in Hx. destruct Hx as (b & <- & Hb). destruct (Hf b Hb) as [_ [->| ->]]; [left|right]; reflexivity.
Qed.

(** ** collect *)
Section Collect.
Variable A : Type.
Variable mgr : manager A.
Hypothesis HM : serializer_contract mgr.

Lemma size_sum_acc : forall recs a, fold_left (fun a r => a + s_size mgr r) recs a = a + length (concat (map (s_ser mgr) recs)).
Proof.
  induction recs as [|r recs IH]; intros a; cbn [fold_left map concat]; [cbn; lia|]. rewrite IH, app_length. destruct (HM r) as (E & _). lia.
Qed.

Lemma ser_loop : forall recs pre post, length post = length (concat (map (s_ser mgr) recs)) ->
  foldM (fun '(msg, at_) rec => do msg' <- store msg at_ (s_ser mgr rec); Ok (msg', at_ + length (s_ser mgr rec))) recs (pre ++ post, length pre) =
  Ok (pre ++ concat (map (s_ser mgr) recs), length pre + length (concat (map (s_ser mgr) recs))).
Proof.
  induction recs as [|r recs IH]; intros pre post Hp; cbn [foldM map concat].
  - cbn in Hp. destruct post; [|discriminate]. rewrite app_nil_r. cbn. rewrite Nat.add_0_r. reflexivity.
  - cbn [map concat] in Hp. rewrite app_length in Hp. rewrite store_ok by (rewrite app_length; lia). cbn [bind].
    rewrite firstn_app, firstn_all, Nat.sub_diag. cbn [firstn]. rewrite app_nil_r. rewrite skipn_app, skipn_all2 by lia. replace (length pre + length (s_ser mgr r) - length pre) with (length (s_ser mgr r)) by lia. cbn [app].
    rewrite app_assoc. replace (length pre + length (s_ser mgr r)) with (length (pre ++ s_ser mgr r)) by apply app_length.
    rewrite IH by (rewrite skipn_length; lia). rewrite !app_length, <- app_assoc, Nat.add_assoc. reflexivity.
Qed.

Lemma local_records_ok : forall m d, segment_is m d -> local_records A m = Ok d.
Proof.
  intros m d [L Hd]. unfold local_records. rewrite L. destruct Hd as [->|[-> ->]]; [|reflexivity]. destruct (Nat.eqb_spec (length d) 0) as [E|E]; [destruct d; [reflexivity|discriminate]|].
  rewrite read_range_ok by lia. rewrite Nat.sub_0_r. cbn [skipn]. rewrite firstn_all. reflexivity.
Qed.

Lemma request_ok : forall m d data loc, segment_is m d -> request_msg A mgr m data loc = Ok (le_enc 8 data ++ le_enc 8 (Z.of_nat loc) ++ concat (map (s_ser mgr) d)).
Proof.
  intros m d data loc Hm. unfold request_msg. rewrite (local_records_ok m d Hm). cbn [bind]. rewrite size_sum_acc, Nat.add_0_l.
  set (n := length (concat (map (s_ser mgr) d))). rewrite store_ok by (rewrite le_enc_len, repeat_length; lia). cbn [bind]. rewrite le_enc_len.
  change (firstn 0 (repeat 0%Z (8 + 8 + n))) with (@nil Z). change (skipn (0 + 8) (repeat 0%Z (8 + 8 + n))) with (repeat 0%Z (8 + n)). cbn [app].
  rewrite store_ok by (rewrite app_length, !le_enc_len, repeat_length; lia). cbn [bind]. rewrite le_enc_len.
  rewrite firstn_app, le_enc_len. replace (8 - 8) with 0 by lia. rewrite firstn_O. rewrite (firstn_all2 (le_enc 8 data)) by (rewrite le_enc_len; lia).
  rewrite skipn_app, le_enc_len, (skipn_all2 (le_enc 8 data)) by (rewrite le_enc_len; lia). replace (8 + 8 - 8) with 8 by lia. change (skipn 8 (repeat 0%Z (8 + n))) with (repeat 0%Z n). cbn [app]. rewrite app_nil_r.
  rewrite app_assoc. replace 16 with (length (le_enc 8 data ++ le_enc 8 (Z.of_nat loc))) by (rewrite app_length, !le_enc_len; reflexivity).
  rewrite ser_loop by (rewrite repeat_length; reflexivity). cbn [bind fst]. rewrite <- app_assoc. reflexivity.
Qed.

Lemma recv_ok : forall d fuel, length d <= fuel -> recv_loop A mgr fuel (concat (map (s_ser mgr) d)) = Ok d.
Proof.
  induction d as [|r d IH]; intros fuel Hf; [destruct fuel; reflexivity|]. cbn [length] in Hf. destruct fuel as [|fuel]; [lia|]. cbn [map concat]. destruct (HM r) as (E & P & D).
  assert (exists z l, s_ser mgr r ++ concat (map (s_ser mgr) d) = z :: l) as (z & l & El) by (destruct (s_ser mgr r); [cbn in E; lia|eexists; eexists; reflexivity]).
  cbn [recv_loop]. rewrite El. rewrite <- El. rewrite D. rewrite app_length, E. replace (s_size mgr r <=? s_size mgr r + length (concat (map (s_ser mgr) d))) with true by (symmetry; apply Nat.leb_le; lia).
  rewrite skipn_app, <- E, skipn_all, Nat.sub_diag. cbn [skipn app]. rewrite IH by lia. reflexivity.
Qed.

Lemma ser_len : forall d, length d <= length (concat (map (s_ser mgr) d)).
Proof. induction d as [|r d IH]; cbn; [lia|]. rewrite app_length. destruct (HM r) as (E & P & _). lia. Qed.

Lemma field2 : forall (a b c : list Z), length a = 8 -> length b = 8 -> firstn 8 (skipn 8 (a ++ b ++ c)) = b /\ skipn 16 (a ++ b ++ c) = c.
Proof.
  intros a b c La Lb. replace 16 with (length (a ++ b)) by (rewrite app_length; lia). split.
  - rewrite <- La at 2. rewrite skipn_app, skipn_all, Nat.sub_diag, skipn_O. cbn [app]. rewrite <- Lb. rewrite firstn_app, firstn_all, Nat.sub_diag, firstn_O. apply app_nil_r.
  - rewrite app_assoc, skipn_app, skipn_all, Nat.sub_diag, skipn_O. reflexivity.
Qed.

Lemma receive_ok : forall d data loc, (Z.of_nat loc < 2 ^ 64)%Z -> receive_writes A mgr (le_enc 8 data ++ le_enc 8 (Z.of_nat loc) ++ concat (map (s_ser mgr) d)) = Ok (combine (seq loc (length d)) d).
Proof.
  intros d data loc Hl. unfold receive_writes. rewrite load_ok by (rewrite !app_length, !le_enc_len; lia). cbn [bind].
  destruct (field2 (le_enc 8 data) (le_enc 8 (Z.of_nat loc)) (concat (map (s_ser mgr) d))) as [-> ->]; [apply le_enc_len..|].
  rewrite recv_ok by (rewrite !app_length; pose proof (ser_len d); lia). cbn [bind]. rewrite le_dec_enc. change (256 ^ Z.of_nat 8)%Z with (2 ^ 64)%Z. rewrite Z.mod_small by lia. rewrite Nat2Z.id. reflexivity.
Qed.

Lemma collect_writes_ok : forall ms ds data at_, Forall2 segment_is ms ds -> (Z.of_nat (at_ + length (concat ds)) < 2 ^ 64)%Z ->
  exists ws, mapM (fun mo => do msg <- request_msg A mgr (fst mo) data (snd mo); receive_writes A mgr msg) (combine ms (offsets at_ (map m_local ms))) = Ok ws /\
    concat ws = combine (seq at_ (length (concat ds))) (concat ds).
Proof.
  intros ms ds data at_ F. revert at_. induction F as [|m d ms ds H F IH]; intros at_ Hl; cbn [map offsets combine mapM]; [exists []; auto|].
  cbn [concat] in *. rewrite app_length in *. cbn [fst snd]. rewrite (request_ok m d data at_ H). cbn [bind]. rewrite receive_ok by lia. cbn [bind].
  assert (E : m_local m = length d) by apply H. rewrite E. destruct (IH (at_ + length d)) as (ws & Ew & Cw); [lia|]. rewrite Ew. cbn [bind]. eexists. split; [reflexivity|]. cbn [concat]. rewrite Cw.
  rewrite seq_app. clear. generalize (length (concat ds)) as k. intros k. generalize (concat ds) as e. intros e. revert at_. induction d as [|x d IH]; intros at_; cbn [length seq combine app].
  - rewrite Nat.add_0_r. reflexivity.
  - replace (at_ + S (length d)) with (S at_ + length d) by lia. rewrite IH. reflexivity.
Qed.

(** Writes to every position, once each, in any order. *)
Lemma set_positions : forall (ws : list (nat * A)) (out final : list A), length out = length final -> NoDup (map fst ws) ->
  (forall p v, In (p, v) ws -> nth_error final p = Some v) ->
  (forall p, p < length final -> ~ In p (map fst ws) -> nth_error out p = nth_error final p) -> run_writes A out ws = Ok final.
Proof.
  induction ws as [|[p v] ws IH]; intros out final Hl Nd Hv Ho; cbn [run_writes foldM].
  - f_equal. apply nth_error_ext. intros i. destruct (Nat.lt_ge_cases i (length final)); [apply Ho; [assumption|intros []]|]. rewrite !(proj2 (nth_error_None _ _)) by lia. reflexivity.
  - cbn [map fst] in Nd. apply NoDup_cons_iff in Nd. destruct Nd as [Np Nd]. pose proof (Hv p v (or_introl eq_refl)) as Ep. apply nth_error_bound in Ep as Bp.
    cbn [fst snd]. rewrite set_res_ok by lia. cbn [bind]. apply IH; try assumption.
    + rewrite upd_length. assumption.
    + intros q u H. apply Hv. right. assumption.
    + intros q Hq Nq. destruct (Nat.eq_dec q p) as [->|N]; [rewrite upd_same by lia; congruence|]. rewrite upd_other by congruence. apply Ho; [assumption|]. cbn [map fst]. intros [X|X]; [congruence|contradiction].
Qed.

Lemma run_any_order : forall (final out : list A) sched, length out = length final -> Permutation sched (combine (seq 0 (length final)) final) -> run_writes A out sched = Ok final.
Proof.
  intros final out sched Hl P.
  assert (Hin : forall p v, In (p, v) (combine (seq 0 (length final)) final) -> nth_error final p = Some v).
  { assert (G : forall (l : list A) k p v, In (p, v) (combine (seq k (length l)) l) -> k <= p /\ nth_error l (p - k) = Some v).
    { induction l as [|x l IH]; intros k p v; cbn; [contradiction|]. intros [E|H]; [injection E as -> ->; rewrite Nat.sub_diag; auto|]. apply IH in H. destruct H as [B C]. split; [lia|]. replace (p - k) with (S (p - S k)) by lia. assumption. }
    intros p v H. apply G in H. rewrite Nat.sub_0_r in H. apply H. }
  assert (Hf : map fst (combine (seq 0 (length final)) final) = seq 0 (length final)).
  { generalize 0. clear. induction final as [|x l IH]; intros k; cbn; [reflexivity|]. rewrite IH. reflexivity. }
  apply set_positions; try assumption.
  - eapply Permutation_NoDup; [symmetry; apply Permutation_map; exact P|]. rewrite Hf. apply seq_NoDup.
  - intros p v H. apply Hin. eapply Permutation_in; eassumption.
  - intros p Hp Np. exfalso. apply Np. eapply Permutation_in; [symmetry; apply Permutation_map; exact P|]. rewrite Hf. apply in_seq. lia.
Qed.
End Collect.
