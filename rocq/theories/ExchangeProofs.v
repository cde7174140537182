From Coq Require Import ZArith List Bool Arith Lia.
From Verif Require Import Base ListFacts BufferModel ViewSetModel ViewSetProofs ArrayModel MessageModel MessageSpec MessageProofs ExchangeModel ExchangeSpec.
Import ListNotations.
Open Scope nat_scope.

(** ** Loops *)
Lemma foldM_cells : forall T (f : T -> nat -> res T) (p : nat -> bool) l s,
  foldM (fun s x => if p x then f s x else Ok s) l s = foldM f (filter p l) s.
Proof.
  intros T f p. induction l as [|x l IH]; intros s; [reflexivity|]. cbn [foldM filter]. destruct (p x); cbn [foldM].
  - destruct (f s x); [cbn [bind]; apply IH|reflexivity].
  - cbn [bind]. apply IH.
Qed.
Lemma for_cells_eq : forall dim3 rank_map T r (f : T -> nat -> res T) s, for_cells dim3 rank_map r f s = foldM f (cells_of dim3 rank_map r) s.
Proof. intros. apply foldM_cells. Qed.

Lemma foldM_eq : forall E T (f g : T -> E -> res T) l s, (forall s x, In x l -> f s x = g s x) -> foldM f l s = foldM g l s.
Proof.
  intros E T f g. induction l as [|x l IH]; intros s H; [reflexivity|]. cbn [foldM]. rewrite H by (left; reflexivity). destruct (g s x); [|reflexivity]. cbn [bind].
  apply IH. intros; apply H; right; assumption.
Qed.
Lemma for_recs_eq : forall X T (recs : list X) n off (f : T -> X -> res T) s, off + n <= length recs ->
  for_recs recs off n f s = foldM f (firstn n (skipn off recs)) s.
Proof.
  unfold for_recs. intros X T recs. induction n as [|n IH]; intros off f s H; [reflexivity|]. cbn [seq foldM].
  destruct (nth_error_lt _ recs off ltac:(lia)) as [x Hx]. rewrite (proj2 (nth_res_ok _ recs (off + 0) x)) by (rewrite Nat.add_0_r; assumption). cbn [bind].
  assert (E : skipn off recs = x :: skipn (Datatypes.S off) recs). { clear -Hx. revert recs Hx. induction off as [|o IH]; intros [|y l] H; try discriminate; cbn in *. - injection H as ->. reflexivity. - apply IH. assumption. }
  rewrite E. cbn [firstn foldM]. destruct (f s x) as [s'|]; [|reflexivity]. cbn [bind]. rewrite <- IH by lia. rewrite <- seq_shift.
  generalize (seq 0 n). clear. intros l. revert s'. induction l as [|k l IH]; intros s; [reflexivity|]. cbn [map foldM]. replace (off + Datatypes.S k) with (Datatypes.S off + k) by lia.
  destruct (do x <- nth_res recs (Datatypes.S off + k); f s x); [|reflexivity]. cbn [bind]. apply IH.
Qed.
Lemma foldM_flat : forall E F T (f : T -> F -> res T) (g : E -> list F) l s, foldM (fun s i => foldM f (g i) s) l s = foldM f (flat_map g l) s.
Proof.
  intros E F T f g. induction l as [|x l IH]; intros s; [reflexivity|]. cbn [foldM flat_map]. rewrite foldM_app. destruct (foldM f (g x) s); [cbn [bind]; apply IH|reflexivity].
Qed.
Lemma foldM_map : forall E F T (f : T -> F -> res T) (g : E -> F) l s, foldM (fun s i => f s (g i)) l s = foldM f (map g l) s.
Proof. intros E F T f g. induction l as [|x l IH]; intros s; [reflexivity|]. cbn [foldM map]. destruct (f s (g x)); [cbn [bind]; apply IH|reflexivity]. Qed.
Lemma foldM_sum : forall E (g : E -> nat) l s, foldM (fun s x => Ok (s + g x)) l s = Ok (s + list_sum (map g l)).
Proof. intros E g. induction l as [|x l IH]; intros s; cbn [foldM map list_sum fold_right]; [f_equal; lia|]. cbn [bind]. rewrite IH. f_equal. fold (list_sum (map g l)). lia. Qed.

Lemma batch_len : forall X count offset (recs : list X) i, offset i + count i <= length recs -> length (cell_batch count offset recs i) = count i.
Proof. intros. unfold cell_batch. rewrite firstn_length, skipn_length. lia. Qed.
Lemma batches_len : forall X count offset (recs : list X) l, (forall i, In i l -> offset i + count i <= length recs) ->
  length (flat_map (cell_batch count offset recs) l) = list_sum (map count l).
Proof.
  intros X count offset recs. induction l as [|i l IH]; intros H; [reflexivity|]. cbn [flat_map map list_sum fold_right]. rewrite app_length, batch_len by (apply H; left; reflexivity).
  rewrite IH by (intros; apply H; right; assumption). reflexivity.
Qed.
Lemma batches_ok : forall X (P : X -> Prop) count offset recs l, Forall P recs -> Forall P (flat_map (cell_batch count offset recs) l).
Proof.
  intros X P count offset recs l F. rewrite Forall_forall in *. intros x I. apply in_flat_map in I. destruct I as (i & _ & I). apply F.
  unfold cell_batch in I. rewrite <- (firstn_skipn (offset i) recs). apply in_or_app. right. rewrite <- (firstn_skipn (count i) (skipn (offset i) recs)). apply in_or_app. left. assumption.
Qed.

Lemma list_sum_cons : forall x l, list_sum (x :: l) = x + list_sum l. Proof. reflexivity. Qed.
Lemma sizes_sum : forall X (z : serializer X) xs, Forall (codec_ok z) xs -> list_sum (map (z_size z) xs) = length (body z xs).
Proof. intros X z. unfold body. induction xs as [|x xs IH]; intros F; [reflexivity|]. inversion F as [|? ? [L _] Fx]; subst. cbn [map concat]. rewrite list_sum_cons, app_length, IH, L by assumption. reflexivity. Qed.

Lemma count_le : forall (count : nat -> nat) l i, In i l -> count i <= list_sum (map count l).
Proof. intros count l. induction l as [|j l IH]; intros i []; cbn [map]; rewrite list_sum_cons; [subst; lia|]. specialize (IH i H). lia. Qed.

Lemma sum0 : forall (count : nat -> nat) l, list_sum (map count l) = 0 -> forall i, In i l -> count i = 0.
Proof. intros count l H i I. pose proof (count_le count l i I). lia. Qed.
Lemma flat_nil : forall E F (f : E -> list F) l, (forall x, In x l -> f x = []) -> flat_map f l = [].
Proof. intros E F f. induction l as [|x l IH]; intros H; [reflexivity|]. cbn. rewrite H by (left; reflexivity). apply IH. intros; apply H; right; assumption. Qed.
Lemma flat_map_map : forall E F G (f : F -> list G) (g : E -> F) l, flat_map f (map g l) = flat_map (fun x => f (g x)) l.
Proof. intros E F G f g. induction l as [|x l IH]; [reflexivity|]. cbn. rewrite IH. reflexivity. Qed.
Lemma flat_map_eq : forall E F (f g : E -> list F) l, (forall x, In x l -> f x = g x) -> flat_map f l = flat_map g l.
Proof. intros E F f g. induction l as [|x l IH]; intros H; [reflexivity|]. cbn. rewrite H by (left; reflexivity). rewrite IH by (intros; apply H; right; assumption). reflexivity. Qed.

Section S.
Context {A B : Type} (dim3 : nat) (rank_map : nat -> nat) (same : bool) (zs : serializer A) (zt : serializer B).
Variables (rank : nat) (cs ct os ot : nat -> nat) (sources : list A) (targets : list B).
Let cells := cells_of dim3 rank_map rank.
Let ns := list_sum (map cs cells).
Let nt := if same then 0 else list_sum (map ct cells).
Let ks := if ns =? 0 then [] else cells.
Let kt := if nt =? 0 then [] else cells.
Let xs := flat_map (cell_batch cs os sources) ks.
Let ys := flat_map (cell_batch ct ot targets) kt.
Hypothesis Hs : sendable zs cs os sources cells.
Hypothesis Ht : same = false -> sendable zt ct ot targets cells.
Hypothesis Hr : (Z.of_nat (length cells) < 2 ^ 31)%Z.

Lemma totals_ok : send_totals dim3 rank_map same rank cs ct = Ok (length cells, ns, nt).
Proof.
  unfold send_totals. rewrite for_cells_eq. fold cells.
  assert (E : forall l a b c, foldM (fun t i => let '(range, ns, nt) := t in Ok (range + 1, ns + cs i, nt + ct i)) l (a, b, c) =
                              Ok (a + length l, b + list_sum (map cs l), c + list_sum (map ct l))).
  { induction l as [|i l IH]; intros a b c; cbn [foldM length map].
    - cbn. f_equal. f_equal; [f_equal|]; lia.
    - cbn [bind]. rewrite IH. rewrite !list_sum_cons. f_equal. f_equal; [f_equal|]; lia. }
  rewrite E. reflexivity.
Qed.

Lemma nt_cases : (same = true /\ nt = 0) \/ (same = false /\ nt = list_sum (map ct cells)).
Proof. unfold nt. destruct same; auto. Qed.
Lemma kt_in : forall i, In i kt -> ot i + ct i <= length targets.
Proof.
  intros i I. unfold kt in I. destruct (Nat.eqb_spec nt 0) as [E|E]; [contradiction|]. destruct nt_cases as [[_ Q]|[Q _]]; [contradiction|]. destruct (Ht Q) as [Hb _]. apply Hb. assumption.
Qed.
Lemma nt_small : (Z.of_nat nt < 2 ^ 31)%Z.
Proof. destruct nt_cases as [[_ Q]|[Q E]]; [rewrite Q; cbn; lia|]. rewrite E. apply Ht. assumption. Qed.
Lemma xs_len : length xs = ns.
Proof.
  unfold xs, ks. destruct (Nat.eqb_spec ns 0) as [E|E]; [rewrite E; reflexivity|]. apply batches_len. apply Hs.
Qed.
Lemma ys_len : length ys = nt.
Proof.
  unfold ys, kt. destruct (Nat.eqb_spec nt 0) as [E|E]; [rewrite E; reflexivity|].
  unfold nt in *. destruct same; [contradiction|]. apply batches_len. apply Ht. reflexivity.
Qed.
Lemma xs_ok : Forall (codec_ok zs) xs. Proof. apply batches_ok. apply Hs. Qed.
Lemma ys_ok : Forall (codec_ok zt) ys.
Proof. unfold ys, kt, nt. destruct same; [cbn; constructor|]. apply batches_ok. apply Ht. reflexivity. Qed.

Lemma src_bytes : forall l b bs, (forall i, In i l -> os i + cs i <= length sources) -> l <> [] ->
  exists b' bs', foldM (fun r i => let '(bytes, bs) := r in
        do bs <- for_recs sources (os i) (cs i) (fun bs x => Ok (bs + z_size zs x)) bs;
        Ok (bytes + bs, bs)) l (b, bs) = Ok (b', bs') /\ bs' = bs + list_sum (map (z_size zs) (flat_map (cell_batch cs os sources) l)) /\ b + bs' <= b'.
Proof.
  intros l. induction l as [|i l IH]; intros b bs H N; [contradiction|]. cbn [foldM]. rewrite for_recs_eq by (apply H; left; reflexivity). rewrite foldM_sum. cbn [bind].
  fold (cell_batch cs os sources i). cbn [flat_map]. rewrite map_app, list_sum_app. set (k := list_sum (map (z_size zs) (cell_batch cs os sources i))).
  destruct l as [|j l].
  - cbn [foldM flat_map map list_sum fold_right]. eexists _, _. split; [reflexivity|]. split; lia.
  - destruct (IH (b + (bs + k)) (bs + k)) as (b' & bs' & E & Q & L); [intros; apply H; right; assumption|discriminate|]. rewrite E. exists b', bs'. split; [reflexivity|]. split; lia.
Qed.

Lemma trg_bytes : forall l b, (forall i, In i l -> ot i + ct i <= length targets) ->
  foldM (fun bytes i => for_recs targets (ot i) (ct i) (fun b x => Ok (b + z_size zt x)) bytes) l b = Ok (b + list_sum (map (z_size zt) (flat_map (cell_batch ct ot targets) l))).
Proof.
  induction l as [|i l IH]; intros b H; [cbn; f_equal; lia|]. cbn [foldM]. rewrite for_recs_eq by (apply H; left; reflexivity). rewrite foldM_sum. cbn [bind]. fold (cell_batch ct ot targets i).
  rewrite IH by (intros; apply H; right; assumption). cbn [flat_map]. rewrite map_app, list_sum_app. f_equal. lia.
Qed.

Lemma bytes_ok : exists bytes, send_bytes A B dim3 rank_map zs zt rank (length cells) ns nt cs ct os ot sources targets = Ok bytes /\
  36 + 4 * length ks + 4 * length kt + length (body zs xs) + length (body zt ys) <= bytes.
Proof.
  unfold send_bytes. rewrite !for_cells_eq. fold cells.
  rewrite <- (sizes_sum _ zs xs xs_ok), <- (sizes_sum _ zt ys ys_ok).
  assert (Q : exists b, (if ns =? 0 then Ok (8 * 3 + 4 * 3) else do r <- foldM (fun r i => let '(bytes, bs) := r in
        do bs <- for_recs sources (os i) (cs i) (fun bs x => Ok (bs + z_size zs x)) bs; Ok (bytes + bs, bs)) cells (8 * 3 + 4 * 3 + 4 * length cells, 0); Ok (fst r)) = Ok b /\
     36 + 4 * length ks + list_sum (map (z_size zs) xs) <= b).
  { unfold xs, ks. destruct (Nat.eqb_spec ns 0) as [E|E].
    - eexists. split; [reflexivity|]. cbn. lia.
    - destruct (src_bytes cells (8 * 3 + 4 * 3 + 4 * length cells) 0) as (b' & bs' & E1 & E2 & L).
      + apply Hs.
      + intros C. apply E. unfold ns. rewrite C. reflexivity.
      + rewrite E1. cbn [bind fst]. exists b'. split; [reflexivity|]. lia. }
  destruct Q as (b & -> & L). cbn [bind]. unfold ys, kt. destruct (Nat.eqb_spec nt 0) as [E|E].
  - exists b. split; [reflexivity|]. cbn. lia.
  - rewrite for_cells_eq. fold cells. rewrite trg_bytes.
    + eexists. split; [reflexivity|]. lia.
    + unfold nt in *. destruct same; [contradiction|]. apply Ht. reflexivity.
Qed.

(** ** The message *)
Lemma header_stores : forall m a b c d e f, length a = 8 -> length b = 8 -> length c = 8 -> length d = 4 -> length e = 4 -> length f = 4 -> 36 <= length m ->
  (do m <- store m 0 a; do m <- store m 8 b; do m <- store m 16 c; do m <- store m 24 d; do m <- store m 28 e; store m 32 f) =
  Ok ((a ++ b ++ c ++ d ++ e ++ f) ++ skipn 36 m).
Proof.
  intros m a b c d e f La Lb Lc Ld Le Lf H.
  destruct (cut m 8 ltac:(lia)) as (m1 & r1 & -> & L1). rewrite app_length in H.
  destruct (cut r1 8 ltac:(lia)) as (m2 & r2 & -> & L2). rewrite app_length in H.
  destruct (cut r2 8 ltac:(lia)) as (m3 & r3 & -> & L3). rewrite app_length in H.
  destruct (cut r3 4 ltac:(lia)) as (m4 & r4 & -> & L4). rewrite app_length in H.
  destruct (cut r4 4 ltac:(lia)) as (m5 & r5 & -> & L5). rewrite app_length in H.
  destruct (cut r5 4 ltac:(lia)) as (m6 & r6 & -> & L6).
  rewrite store_front by lia. cbn [bind]. rewrite store_off by lia. cbn [bind].
  rewrite (app_assoc a). rewrite store_off by (rewrite ?app_length; lia). cbn [bind].
  rewrite (app_assoc (a ++ b)). rewrite store_off by (rewrite ?app_length; lia). cbn [bind].
  rewrite (app_assoc ((a ++ b) ++ c)). rewrite store_off by (rewrite ?app_length; lia). cbn [bind].
  rewrite (app_assoc (((a ++ b) ++ c) ++ d)). rewrite store_off by (rewrite ?app_length; lia). f_equal.
  rewrite <- !app_assoc. do 6 f_equal. rewrite !app_assoc. rewrite skipn_app. rewrite skipn_all2 by (rewrite !app_length; lia). rewrite !app_length, L1, L2, L3, L4, L5, L6. reflexivity.
Qed.

Definition head_of (rw sm tm : Z) : list Z :=
  le_enc 8 rw ++ le_enc 8 sm ++ le_enc 8 tm ++ le_enc 4 (Z.of_nat (length cells)) ++ le_enc 4 (Z.of_nat ns) ++ le_enc 4 (Z.of_nat nt).
Definition counts (count : nat -> nat) (l : list nat) : list Z := concat (map (fun i => le_enc 4 (Z.of_nat (count i))) l).
Lemma counts_len : forall count l, length (counts count l) = 4 * length l.
Proof. intros. unfold counts. apply (concat_len _ 4). intros. apply le_enc_len. Qed.

Lemma if_nil : forall T (f : T -> nat -> res T) (b : bool) l s, (if b then Ok s else foldM f l s) = foldM f (if b then [] else l) s.
Proof. intros. destruct b; reflexivity. Qed.

Lemma send_ok : forall junk rw sm tm, exists post,
  send_points A B dim3 rank_map same zs zt junk rw sm tm rank cs ct os ot sources targets =
  Ok (head_of rw sm tm ++ counts cs ks ++ counts ct kt ++ body zs xs ++ body zt ys ++ post).
Proof.
  intros junk rw sm tm. unfold send_points. rewrite totals_ok. cbn [bind]. destruct bytes_ok as (bytes & -> & L). cbn [bind].
  set (m := fill junk bytes). assert (Lm : length m = bytes) by apply fill_len.
  pose proof (header_stores m (le_enc 8 rw) (le_enc 8 sm) (le_enc 8 tm) (le_enc 4 (Z.of_nat (length cells))) (le_enc 4 (Z.of_nat ns)) (le_enc 4 (Z.of_nat nt))
    (le_enc_len _ _) (le_enc_len _ _) (le_enc_len _ _) (le_enc_len _ _) (le_enc_len _ _) (le_enc_len _ _) ltac:(lia)) as H. fold (head_of rw sm tm) in H.
  destruct (store m 0 (le_enc 8 rw)) as [m1|]; [|discriminate H]. cbn [bind] in *.
  destruct (store m1 8 (le_enc 8 sm)) as [m2|]; [|discriminate H]. cbn [bind] in *.
  destruct (store m2 16 (le_enc 8 tm)) as [m3|]; [|discriminate H]. cbn [bind] in *.
  destruct (store m3 24 _) as [m4|]; [|discriminate H]. cbn [bind] in *.
  destruct (store m4 28 _) as [m5|]; [|discriminate H]. cbn [bind] in *.
  rewrite H. cbn [bind]. clear H m1 m2 m3 m4 m5.
  assert (Lh : length (head_of rw sm tm) = 36) by (unfold head_of; rewrite !app_length, !le_enc_len; reflexivity).
  set (h := head_of rw sm tm) in *. replace (h ++ skipn 36 m, 36) with (h ++ skipn 36 m, length h) by (rewrite Lh; reflexivity).
  rewrite !for_cells_eq. fold cells.
  rewrite if_nil. fold ks. rewrite foldM_map.
  pose proof (counts_len cs ks) as LC. pose proof (counts_len ct kt) as LT. unfold counts in LC, LT.
  assert (Lrest : length (skipn 36 m) = bytes - 36) by (rewrite skipn_length, Lm; reflexivity).
  destruct (puts (map (fun i => le_enc 4 (Z.of_nat (cs i))) ks) h (skipn 36 m) ltac:(lia)) as (p1 & -> & L1 & _). cbn [bind]. fold (counts cs ks).
  rewrite for_cells_eq. fold cells. rewrite if_nil. fold kt. rewrite foldM_map. rewrite (app_assoc h).
  destruct (puts (map (fun i => le_enc 4 (Z.of_nat (ct i))) kt) (h ++ counts cs ks) p1 ltac:(lia)) as (p2 & -> & L2 & _). cbn [bind fst]. fold (counts ct kt).
  rewrite for_cells_eq. fold cells.
  rewrite if_nil. fold ks.
  rewrite (foldM_eq _ _ _ (fun s i => foldM (ser_at zs) (cell_batch cs os sources i) s) ks).
  2:{ intros s i I. apply for_recs_eq. apply Hs. unfold ks in I. destruct (ns =? 0); [contradiction|assumption]. }
  rewrite foldM_flat. fold xs. rewrite ser_puts. rewrite (app_assoc (h ++ counts cs ks)).
  assert (Lk : length ks = if ns =? 0 then 0 else length cells) by (unfold ks; destruct (ns =? 0); reflexivity).
  assert (Lkt : length kt = if nt =? 0 then 0 else length cells) by (unfold kt; destruct (nt =? 0); reflexivity).
  rewrite <- Lk, <- Lkt.
  replace (24 + 4 * (3 + length ks + length kt)) with (length ((h ++ counts cs ks) ++ counts ct kt)) by (rewrite !app_length, !counts_len; lia).
  pose proof (eq_refl (length (body zs xs))) as Lb. unfold body in Lb at 1.
  destruct (puts (map (z_write zs) xs) ((h ++ counts cs ks) ++ counts ct kt) p2 ltac:(unfold body in *; lia)) as (p3 & -> & L3 & _). cbn [bind]. fold (body zs xs).
  rewrite for_cells_eq. fold cells. rewrite if_nil. fold kt.
  rewrite (foldM_eq _ _ _ (fun s i => foldM (ser_at zt) (cell_batch ct ot targets i) s) kt).
  2:{ intros s i I. apply for_recs_eq. apply kt_in. assumption. }
  rewrite foldM_flat. fold ys. rewrite ser_puts. rewrite (app_assoc ((h ++ counts cs ks) ++ counts ct kt)).
  destruct (puts (map (z_write zt) ys) (((h ++ counts cs ks) ++ counts ct kt) ++ body zs xs) p3 ltac:(unfold body in *; lia)) as (p4 & -> & L4 & _). cbn [bind fst]. fold (body zt ys).
  exists p4. f_equal. rewrite <- !app_assoc. reflexivity.
Qed.

(** ** Receiving *)
Lemma get_count_at : forall pre n post off, off = length pre -> (Z.of_nat n < 2 ^ 31)%Z -> get_count (pre ++ le_enc 4 (Z.of_nat n) ++ post) off = Ok n.
Proof.
  intros pre n post off E H. unfold get_count. rewrite get_i32_at by (try assumption; unfold int_ok; lia). cbn [bind].
  replace (Z.of_nat n <? 0)%Z with false by (symmetry; apply Z.ltb_ge; lia). rewrite Nat2Z.id. reflexivity.
Qed.
Lemma get_counts_at : forall count l k i pre post at_, at_ = length pre -> nth_error l k = Some i -> (Z.of_nat (count i) < 2 ^ 31)%Z ->
  get_count (pre ++ counts count l ++ post) (at_ + 4 * k) = Ok (count i).
Proof.
  intros count. unfold counts. induction l as [|j l IH]; intros k i pre post at_ E H Hc; [destruct k; discriminate|]. destruct k as [|k]; cbn [nth_error] in H.
  - injection H as ->. cbn [map concat]. rewrite <- app_assoc. apply get_count_at; [lia|assumption].
  - cbn [map concat]. rewrite <- app_assoc. rewrite app_assoc. replace (at_ + 4 * Datatypes.S k) with (length (pre ++ le_enc 4 (Z.of_nat (count j))) + 4 * k) by (rewrite app_length, le_enc_len; lia).
    apply IH; [reflexivity|assumption|assumption].
Qed.

Definition ev {X} (count offset : nat -> nat) (recs : list X) (mk : nat -> list X -> event A B) (i : nat) : event A B :=
  if count i =? 0 then Signal 1 else mk i (cell_batch count offset recs i).

Lemma merge_ok : forall X (mk : nat -> list X -> event A B) count offset recs msg at_ log,
  (forall i, In i cells -> offset i + count i <= length recs) ->
  (forall k i, nth_error cells k = Some i -> get_count msg (at_ + 4 * k) = Ok (count i)) ->
  merge_cells A B dim3 rank_map rank (length cells) msg at_ (flat_map (cell_batch count offset recs) cells) mk log = Ok (log ++ map (ev count offset recs mk) cells).
Proof.
  intros X mk count offset recs msg at_ log Hb Hg. unfold merge_cells. rewrite for_cells_eq. fold cells.
  assert (G : forall l2 l1 log, cells = l1 ++ l2 ->
    foldM (fun st i => let '(o, box, log) := st in
      do n <- get_count msg (at_ + 4 * box);
      if n =? 0 then Ok (o, box + 1, log ++ [Signal 1])
      else do batch <- read_range X (flat_map (cell_batch count offset recs) cells) o (o + n); Ok (o + n, box + 1, log ++ [mk i batch])) l2
      (length (flat_map (cell_batch count offset recs) l1), length l1, log) = Ok (length (flat_map (cell_batch count offset recs) cells), length cells, log ++ map (ev count offset recs mk) l2)).
  { induction l2 as [|i l2 IH]; intros l1 lg E.
    - rewrite app_nil_r in E. subst l1. cbn [foldM map]. rewrite app_nil_r. reflexivity.
    - cbn [foldM]. rewrite (Hg (length l1) i) by (rewrite E, nth_error_app2, Nat.sub_diag by lia; reflexivity). cbn [bind].
      assert (Hi : offset i + count i <= length recs) by (apply Hb; rewrite E; apply in_or_app; right; left; reflexivity).
      assert (E' : cells = (l1 ++ [i]) ++ l2) by (rewrite <- app_assoc; assumption).
      assert (Lf : length (flat_map (cell_batch count offset recs) (l1 ++ [i])) = length (flat_map (cell_batch count offset recs) l1) + count i).
      { rewrite flat_map_app, app_length. cbn [flat_map]. rewrite app_nil_r, batch_len by assumption. reflexivity. }
      assert (Ll : length (l1 ++ [i]) = length l1 + 1) by (rewrite app_length; reflexivity).
      cbn [map]. unfold ev at 1. destruct (Nat.eqb_spec (count i) 0) as [Z0|Z0].
      + cbn [bind]. replace (length (flat_map (cell_batch count offset recs) l1)) with (length (flat_map (cell_batch count offset recs) (l1 ++ [i]))) by lia.
        rewrite <- Ll. rewrite (IH (l1 ++ [i]) (lg ++ [Signal 1]) E'). rewrite <- app_assoc. reflexivity.
      + assert (R : read_range X (flat_map (cell_batch count offset recs) cells) (length (flat_map (cell_batch count offset recs) l1)) (length (flat_map (cell_batch count offset recs) l1) + count i) = Ok (cell_batch count offset recs i)).
        { rewrite E. rewrite flat_map_app. cbn [flat_map]. unfold read_range. rewrite !app_length, batch_len by assumption.
          replace (_ && _) with true by (symmetry; apply andb_true_intro; split; apply Nat.leb_le; lia). f_equal.
          rewrite skipn_app, skipn_all, Nat.sub_diag. cbn [skipn app]. replace (length (flat_map (cell_batch count offset recs) l1) + count i - length (flat_map (cell_batch count offset recs) l1)) with (length (cell_batch count offset recs i)) by (rewrite batch_len by assumption; lia).
          rewrite firstn_app, firstn_all, Nat.sub_diag, firstn_O, app_nil_r. reflexivity. }
        rewrite R. cbn [bind]. rewrite <- Lf, <- Ll. rewrite (IH (l1 ++ [i]) (lg ++ [mk i (cell_batch count offset recs i)]) E'). rewrite <- app_assoc. reflexivity. }
  pose proof (G cells [] log eq_refl) as Q. change (length (flat_map (cell_batch count offset recs) [])) with 0 in Q. change (length (@nil nat)) with 0 in Q. rewrite Q. cbn [bind]. rewrite Nat.eqb_refl. reflexivity.
Qed.

Lemma same_ok : forall msg at_ log, (forall k i, nth_error cells k = Some i -> get_count msg (at_ + 4 * k) = Ok (cs i)) ->
  merge_same A B dim3 rank_map rank (length cells) msg at_ log = Ok (log ++ map (fun i => if cs i =? 0 then Signal 1 else MergeSame i (cs i)) cells).
Proof.
  intros msg at_ log Hg. unfold merge_same. rewrite for_cells_eq. fold cells.
  assert (G : forall l2 l1 (log : list (event A B)), cells = l1 ++ l2 ->
    foldM (fun st i => let '(box, log) := st in
      do n <- get_count msg (at_ + 4 * box); Ok (box + 1, log ++ [if n =? 0 then Signal 1 else MergeSame i n])) l2 (length l1, log)
    = Ok (length cells, log ++ map (fun i => if cs i =? 0 then Signal 1 else MergeSame i (cs i)) l2)).
  { induction l2 as [|i l2 IH]; intros l1 lg E.
    - rewrite app_nil_r in E. subst l1. cbn [foldM map]. rewrite app_nil_r. reflexivity.
    - cbn [foldM]. rewrite (Hg (length l1) i) by (rewrite E, nth_error_app2, Nat.sub_diag by lia; reflexivity). cbn [bind].
      replace (length l1 + 1) with (length (l1 ++ [i])) by (rewrite app_length; reflexivity). rewrite IH by (rewrite <- app_assoc; assumption). cbn [map]. rewrite <- app_assoc. reflexivity. }
  pose proof (G cells [] log eq_refl) as Q. change (length (@nil nat)) with 0 in Q. rewrite Q. cbn [bind fst snd]. rewrite Nat.eqb_refl. reflexivity.
Qed.

Definition src_log : list (event A B) := if ns =? 0 then signal_range A B (length cells) [] else map (ev cs os sources MergeS) cells.
Definition trg_log : list (event A B) :=
  if negb (nt =? 0) then map (ev ct ot targets MergeT) cells
  else if same && negb (ns =? 0) then map (fun i => if cs i =? 0 then Signal 1 else MergeSame i (cs i)) cells
  else signal_range A B (length cells) [].

Lemma signal_app : forall n (log : list (event A B)), signal_range A B n log = log ++ signal_range A B n [].
Proof. intros. unfold signal_range. destruct (n =? 0); [rewrite app_nil_r; reflexivity|reflexivity]. Qed.

Lemma recv_ok : forall rw sm tm post,
  recv_points A B dim3 rank_map same zs zt rank (head_of rw sm tm ++ counts cs ks ++ counts ct kt ++ body zs xs ++ body zt ys ++ post) = Ok (src_log ++ trg_log).
Proof.
  intros rw sm tm post. set (msg := head_of rw sm tm ++ counts cs ks ++ counts ct kt ++ body zs xs ++ body zt ys ++ post).
  assert (Lh : length (head_of rw sm tm) = 36) by (unfold head_of; rewrite !app_length, !le_enc_len; reflexivity).
  assert (Hns : (Z.of_nat ns < 2 ^ 31)%Z) by (apply Hs).
  pose proof nt_small as Hnt.
  unfold recv_points.
  assert (G1 : get_count msg 24 = Ok (length cells)).
  { unfold msg, head_of. rewrite <- !app_assoc. rewrite (app_assoc (le_enc 8 rw)), (app_assoc (le_enc 8 rw ++ _)). apply get_count_at; [rewrite !app_length, !le_enc_len; reflexivity|assumption]. }
  assert (G2 : get_count msg 28 = Ok ns).
  { unfold msg, head_of. rewrite <- !app_assoc. rewrite (app_assoc (le_enc 8 rw)), (app_assoc (le_enc 8 rw ++ _)), (app_assoc ((le_enc 8 rw ++ _) ++ _)). apply get_count_at; [rewrite !app_length, !le_enc_len; reflexivity|assumption]. }
  assert (G3 : get_count msg 32 = Ok nt).
  { unfold msg, head_of. rewrite <- !app_assoc. rewrite (app_assoc (le_enc 8 rw)), (app_assoc (le_enc 8 rw ++ _)), (app_assoc ((le_enc 8 rw ++ _) ++ _)), (app_assoc (((le_enc 8 rw ++ _) ++ _) ++ _)). apply get_count_at; [rewrite !app_length, !le_enc_len; reflexivity|assumption]. }
  rewrite G1, G2, G3. cbn [bind].
  assert (Lk : length ks = if ns =? 0 then 0 else length cells) by (unfold ks; destruct (ns =? 0); reflexivity).
  assert (Lkt : length kt = if nt =? 0 then 0 else length cells) by (unfold kt; destruct (nt =? 0); reflexivity).
  rewrite <- Lk, <- Lkt.
  set (pre := head_of rw sm tm ++ counts cs ks ++ counts ct kt).
  assert (Lp : length pre = 12 + 24 + 4 * length ks + 4 * length kt) by (unfold pre; rewrite !app_length, !counts_len, Lh; lia).
  rewrite <- Lp.
  assert (E1 : msg = pre ++ body zs xs ++ (body zt ys ++ post)) by (unfold msg, pre; rewrite <- !app_assoc; reflexivity).
  pose proof (deser_all zs xs pre (body zt ys ++ post) [] 0 xs_ok) as D1. rewrite <- E1, xs_len in D1. cbn [app] in D1. rewrite D1. cbn [bind fst snd].
  assert (E2 : msg = (pre ++ body zs xs) ++ body zt ys ++ post) by (rewrite E1, <- app_assoc; reflexivity).
  pose proof (deser_all zt ys (pre ++ body zs xs) post [] 0 ys_ok) as D2. rewrite <- E2, ys_len in D2. cbn [app] in D2.
  assert (D2' : exists o, (if nt =? 0 then Ok ([], length (pre ++ body zs xs)) else foldM (fun s (_ : nat) => deser_at zt msg s) (seq 0 nt) ([], length (pre ++ body zs xs))) = Ok (ys, o)).
  { destruct (Nat.eq_dec nt 0) as [Z0|Z0]; [rewrite (proj2 (Nat.eqb_eq nt 0) Z0)|rewrite (proj2 (Nat.eqb_neq nt 0) Z0), D2; eexists; reflexivity]. exists (length (pre ++ body zs xs)). assert (Y : ys = []) by (apply length_zero_iff_nil; rewrite ys_len; assumption). rewrite Y. reflexivity. }
  destruct D2' as (o & ->). cbn [bind fst].
  assert (Gs : ns <> 0 -> forall k i, nth_error cells k = Some i -> get_count msg (36 + 4 * k) = Ok (cs i)).
  { intros Z0 k i Hk. unfold msg. apply get_counts_at; [lia| |].
    - unfold ks. replace (ns =? 0) with false by (symmetry; apply Nat.eqb_neq; assumption). assumption.
    - pose proof (count_le cs cells i (nth_error_In _ _ Hk)). fold ns in H. lia. }
  assert (Gt : nt <> 0 -> forall k i, nth_error cells k = Some i -> get_count msg (36 + 4 * length ks + 4 * k) = Ok (ct i)).
  { intros Z0 k i Hk. unfold msg. rewrite (app_assoc (head_of rw sm tm)). apply get_counts_at; [rewrite app_length, counts_len; lia| |].
    - unfold kt. replace (nt =? 0) with false by (symmetry; apply Nat.eqb_neq; assumption). assumption.
    - destruct nt_cases as [[_ Q]|[_ Q]]; [contradiction|]. pose proof (count_le ct cells i (nth_error_In _ _ Hk)). lia. }
  assert (L1 : (if ns =? 0 then Ok (signal_range A B (length cells) []) else merge_cells A B dim3 rank_map rank (length cells) msg 36 xs MergeS []) = Ok src_log).
  { unfold src_log. destruct (Nat.eq_dec ns 0) as [Z0|Z0]; [rewrite (proj2 (Nat.eqb_eq ns 0) Z0); reflexivity|rewrite (proj2 (Nat.eqb_neq ns 0) Z0)].
    assert (X : xs = flat_map (cell_batch cs os sources) cells) by (unfold xs, ks; replace (ns =? 0) with false by (symmetry; apply Nat.eqb_neq; assumption); reflexivity).
    rewrite X. rewrite merge_ok; [reflexivity|apply Hs|apply Gs; assumption]. }
  rewrite L1. cbn [bind]. unfold trg_log. destruct (Nat.eq_dec nt 0) as [Z0|Z0]; [rewrite (proj2 (Nat.eqb_eq nt 0) Z0)|rewrite (proj2 (Nat.eqb_neq nt 0) Z0)]; cbn [negb].
  - destruct (same && negb (ns =? 0)) eqn:Q.
    + apply andb_prop in Q. destruct Q as [_ Q]. apply negb_true_iff, Nat.eqb_neq in Q. apply same_ok. apply Gs. assumption.
    + rewrite signal_app. reflexivity.
  - assert (X : ys = flat_map (cell_batch ct ot targets) cells) by (unfold ys, kt; replace (nt =? 0) with false by (symmetry; apply Nat.eqb_neq; assumption); reflexivity).
    rewrite X. rewrite merge_ok; [reflexivity| |apply Gt; assumption]. destruct nt_cases as [[_ Q]|[Q _]]; [contradiction|]. apply Ht. assumption.
Qed.

(** ** What the log does *)
Lemma log_sources : to_sources (src_log ++ trg_log) = shipment cs os sources cells.
Proof.
  unfold to_sources. rewrite flat_map_app. replace (flat_map _ trg_log) with (@nil (nat * list A)); [rewrite app_nil_r|].
  - unfold src_log, shipment. destruct (Nat.eq_dec ns 0) as [Z0|Z0]; [rewrite (proj2 (Nat.eqb_eq ns 0) Z0)|rewrite (proj2 (Nat.eqb_neq ns 0) Z0)].
    + unfold signal_range. transitivity (@nil (nat * list A)); [destruct (length cells =? 0); reflexivity|].
      symmetry. apply flat_nil. intros i I. rewrite (sum0 cs cells Z0 i I). reflexivity.
    + rewrite flat_map_map. apply flat_map_eq. intros i _. unfold ev. destruct (cs i =? 0); reflexivity.
  - symmetry. unfold trg_log. destruct (negb (nt =? 0)); [|destruct (same && negb (ns =? 0))].
    + rewrite flat_map_map. apply flat_nil. intros i _. unfold ev. destruct (ct i =? 0); reflexivity.
    + rewrite flat_map_map. apply flat_nil. intros i _. destruct (cs i =? 0); reflexivity.
    + unfold signal_range. destruct (length cells =? 0); reflexivity.
Qed.
Lemma log_targets : to_targets (src_log ++ trg_log) = if same then [] else shipment ct ot targets cells.
Proof.
  unfold to_targets. rewrite flat_map_app. replace (flat_map _ src_log) with (@nil (nat * list B)); [cbn [app]|].
  - unfold trg_log, shipment. destruct (Nat.eq_dec nt 0) as [Z0|Z0]; [rewrite (proj2 (Nat.eqb_eq nt 0) Z0)|rewrite (proj2 (Nat.eqb_neq nt 0) Z0)]; cbn [negb].
    + transitivity (@nil (nat * list B)).
      * destruct (same && negb (ns =? 0)).
        -- rewrite flat_map_map. apply flat_nil. intros i _. destruct (cs i =? 0); reflexivity.
        -- unfold signal_range. destruct (length cells =? 0); reflexivity.
      * destruct nt_cases as [[Sm _]|[Sm Q]]; rewrite Sm; [reflexivity|]. symmetry. apply flat_nil. intros i I. rewrite (sum0 ct cells (eq_trans (eq_sym Q) Z0) i I). reflexivity.
    + destruct nt_cases as [[_ Q]|[Sm _]]; [contradiction|]. rewrite Sm. rewrite flat_map_map. apply flat_map_eq. intros i _. unfold ev. destruct (ct i =? 0); reflexivity.
  - symmetry. unfold src_log. destruct (ns =? 0).
    + unfold signal_range. destruct (length cells =? 0); reflexivity.
    + rewrite flat_map_map. apply flat_nil. intros i _. unfold ev. destruct (cs i =? 0); reflexivity.
Qed.
Lemma log_same : to_same (src_log ++ trg_log) = if same then flat_map (fun i => if cs i =? 0 then [] else [(i, cs i)]) cells else [].
Proof.
  unfold to_same. rewrite flat_map_app. replace (flat_map _ src_log) with (@nil (nat * nat)); [cbn [app]|].
  - unfold trg_log. destruct nt_cases as [[Sm N0]|[Sm _]]; [rewrite Sm, N0|rewrite Sm]; cbn [Nat.eqb negb andb].
    + destruct (Nat.eq_dec ns 0) as [Z0|Z0]; [rewrite (proj2 (Nat.eqb_eq ns 0) Z0)|rewrite (proj2 (Nat.eqb_neq ns 0) Z0)]; cbn [negb].
      * transitivity (@nil (nat * nat)); [unfold signal_range; destruct (length cells =? 0); reflexivity|]. symmetry. apply flat_nil. intros i I. rewrite (sum0 cs cells Z0 i I). reflexivity.
      * rewrite flat_map_map. apply flat_map_eq. intros i _. destruct (cs i =? 0); reflexivity.
    + destruct (negb _).
      * rewrite flat_map_map. apply flat_nil. intros i _. unfold ev. destruct (ct i =? 0); reflexivity.
      * unfold signal_range. destruct (length cells =? 0); reflexivity.
  - symmetry. unfold src_log. destruct (ns =? 0).
    + unfold signal_range. destruct (length cells =? 0); reflexivity.
    + rewrite flat_map_map. apply flat_nil. intros i _. unfold ev. destruct (cs i =? 0); reflexivity.
Qed.
Lemma log_signals : signals (src_log ++ trg_log) = 2 * length cells.
Proof.
  unfold signals. rewrite map_app, list_sum_app.
  assert (R : list_sum (map (fun e : event A B => match e with Signal n => n | _ => 1 end) (signal_range A B (length cells) [])) = length cells).
  { unfold signal_range. destruct (Nat.eqb_spec (length cells) 0) as [Z0|Z0]; cbn; lia. }
  assert (M : forall f : nat -> event A B, (forall i, match f i with Signal n => n | _ => 1 end = 1) -> forall l, list_sum (map (fun e : event A B => match e with Signal n => n | _ => 1 end) (map f l)) = length l).
  { intros f Hf. induction l as [|i l IH]; [reflexivity|]. cbn [map length]. rewrite list_sum_cons, IH, Hf. reflexivity. }
  assert (S1 : list_sum (map (fun e : event A B => match e with Signal n => n | _ => 1 end) src_log) = length cells).
  { unfold src_log. destruct (ns =? 0); [exact R|]. apply M. intros i. unfold ev. destruct (cs i =? 0); reflexivity. }
  assert (S2 : list_sum (map (fun e : event A B => match e with Signal n => n | _ => 1 end) trg_log) = length cells).
  { unfold trg_log. destruct (negb (nt =? 0)); [apply M; intros i; unfold ev; destruct (ct i =? 0); reflexivity|]. destruct (same && negb (ns =? 0)); [|exact R]. apply M. intros i. destruct (cs i =? 0); reflexivity. }
  rewrite S1, S2. lia.
Qed.
End S.
