From Coq Require Import ZArith List Bool Arith Lia.
From Verif Require Import Base ListFacts ArrayRefModel BufferModel BufferProofs ViewSetModel ViewSetSpec ViewSetProofs ViewSetProps
  IndexModel TreeModel LookupModel LookupSpec LookupProps EdgeGroupModel EdgeGroupSpec MessageModel MessageSpec.
Import ListNotations.
Open Scope nat_scope.

(** ** Blocks *)
Lemma store_mid : forall (pre old post d : list Z), length d = length old -> store (pre ++ old ++ post) (length pre) d = Ok (pre ++ d ++ post).
Proof.
  intros pre old post d H. rewrite store_ok by (rewrite !app_length; lia). f_equal.
  rewrite firstn_app, firstn_all, Nat.sub_diag, firstn_O, app_nil_r. f_equal. f_equal.
  replace (skipn (length pre + length d) (pre ++ old ++ post)) with (skipn (length d) (old ++ post)).
  - rewrite H, skipn_app, skipn_all, Nat.sub_diag. reflexivity.
  - rewrite (skipn_app (length pre + length d) pre). rewrite (skipn_all2 pre) by lia. cbn [app]. f_equal. lia.
Qed.

Lemma store_off : forall (pre old post d : list Z) off, off = length pre -> length d = length old -> store (pre ++ old ++ post) off d = Ok (pre ++ d ++ post).
Proof. intros; subst. apply store_mid; assumption. Qed.
Lemma store_front : forall (old post d : list Z), length d = length old -> store (old ++ post) 0 d = Ok (d ++ post).
Proof. intros. apply (store_mid []). assumption. Qed.
Lemma load_front : forall (d post : list Z) n, n = length d -> load (d ++ post) 0 n = Ok d.
Proof. intros; subst. apply (load_pre []). Qed.

Lemma load_mid : forall (pre d post : list Z) off n, off = length pre -> n = length d -> load (pre ++ d ++ post) off n = Ok d.
Proof. intros; subst. apply load_pre. Qed.

Lemma cut : forall (l : list Z) n, n <= length l -> exists a b, l = a ++ b /\ length a = n.
Proof. intros l n H. exists (firstn n l), (skipn n l). rewrite firstn_skipn. split; [reflexivity|]. apply firstn_length_le. assumption. Qed.

Lemma puts : forall ds pre old, length (concat ds) <= length old ->
  exists post, foldM put_at ds (pre ++ old, length pre) = Ok (pre ++ concat ds ++ post, length (pre ++ concat ds)) /\
    length post = length old - length (concat ds) /\ post = skipn (length (concat ds)) old.
Proof.
  induction ds as [|d ds IH]; intros pre old H; cbn [concat foldM] in *.
  - exists old. cbn. rewrite app_nil_r. repeat split; lia.
  - rewrite app_length in H. destruct (cut old (length d) ltac:(lia)) as (a & b & -> & La). rewrite app_length in H.
    unfold put_at at 1. cbn [fst snd]. rewrite store_mid by lia. cbn [bind].
    rewrite app_assoc. replace (length pre + length d) with (length (pre ++ d)) by (rewrite app_length; reflexivity).
    destruct (IH (pre ++ d) b ltac:(lia)) as (post & E & L & Q). exists post. rewrite E. rewrite <- !app_assoc. repeat split.
    + rewrite !app_length. lia.
    + rewrite Q. rewrite app_length. rewrite skipn_app. rewrite (skipn_all2 a) by lia. cbn [app]. f_equal. lia.
Qed.

(** ** Reading fields *)
Lemma get_i32_at : forall pre v post off, off = length pre -> int_ok v -> get_i32 (pre ++ le_enc 4 v ++ post) off = Ok v.
Proof. intros pre v post off -> H. unfold get_i32. rewrite load_mid by (rewrite ?le_enc_len; reflexivity). cbn [bind]. rewrite dec_int by assumption. reflexivity. Qed.
Lemma get_u64_at : forall pre v post off, off = length pre -> u64_ok v -> get_u64 (pre ++ le_enc 8 v ++ post) off = Ok v.
Proof.
  intros pre v post off -> H. unfold get_u64. rewrite load_mid by (rewrite ?le_enc_len; reflexivity). cbn [bind]. rewrite le_dec_enc.
  rewrite Z.mod_small; [reflexivity|]. unfold u64_ok in H. change (256 ^ Z.of_nat 8)%Z with (2 ^ 64)%Z. assumption.
Qed.
Lemma get_u64_front : forall v post, u64_ok v -> get_u64 (le_enc 8 v ++ post) 0 = Ok v.
Proof. intros. apply (get_u64_at []); auto. Qed.
Lemma index_len : forall i, length (index_bytes i) = 16.
Proof. intros. unfold index_bytes. rewrite !app_length, !le_enc_len. reflexivity. Qed.
Lemma get_index_at : forall pre i post off, off = length pre -> index_ok i -> get_index (pre ++ index_bytes i ++ post) off = Ok i.
Proof.
  intros pre i post off -> (Hx & Hy & Hz & Hl). unfold get_index, index_bytes. rewrite <- !app_assoc.
  rewrite get_i32_at by (auto). cbn [bind].
  rewrite (app_assoc pre). rewrite get_i32_at by (rewrite ?app_length, ?le_enc_len; auto; lia). cbn [bind].
  rewrite (app_assoc (pre ++ _)). rewrite get_i32_at by (rewrite ?app_length, ?le_enc_len; auto; lia). cbn [bind].
  rewrite (app_assoc ((pre ++ _) ++ _)). rewrite get_i32_at by (rewrite ?app_length, ?le_enc_len; auto; lia). cbn [bind].
  destruct i; reflexivity.
Qed.
Lemma op_round : forall o, op_of (op_code o) = Ok o. Proof. intros []; reflexivity. Qed.
Lemma op_int : forall o, int_ok (op_code o). Proof. intros []; unfold int_ok; cbn; lia. Qed.

(** ** Records *)
Definition sent (e : oedge) : irec := {| r_op := o_op e; r_target := o_addr e; r_idx := o_idx e |}.
Lemma irec_len : forall e, length (irec_bytes e) = irec_size.
Proof. intros. unfold irec_bytes. rewrite !app_length, !le_enc_len, index_len. reflexivity. Qed.
Lemma get_irec_at : forall pre e post off, off = length pre -> edge_ok e -> get_irec (pre ++ irec_bytes e ++ post) off = Ok (sent e).
Proof.
  intros pre e post off -> (Ha & Hi & _). unfold get_irec, irec_bytes. rewrite <- !app_assoc.
  rewrite get_i32_at by (auto using op_int). cbn [bind]. rewrite op_round. cbn [bind].
  rewrite (app_assoc pre), (app_assoc (pre ++ _)). rewrite get_u64_at by (rewrite ?app_length, ?le_enc_len; auto; lia). cbn [bind].
  rewrite (app_assoc ((pre ++ _) ++ _)). rewrite get_index_at by (rewrite ?app_length, ?le_enc_len; auto; lia). reflexivity.
Qed.
Lemma orec_len : forall e, length (orec_bytes e) = orec_size.
Proof. intros. unfold orec_bytes. rewrite !app_length, !le_enc_len, index_len. reflexivity. Qed.
Lemma get_orec_at : forall pre e post off, off = length pre -> edge_ok e -> get_orec (pre ++ orec_bytes (orec_of e) ++ post) off = Ok (orec_of e).
Proof.
  intros pre e post off -> (Ha & Hi & Hl). unfold get_orec, orec_bytes. rewrite <- !app_assoc. cbn [orec_of e_op e_target e_tidx e_locality].
  rewrite get_i32_at by (auto using op_int). cbn [bind]. rewrite op_round. cbn [bind].
  rewrite (app_assoc pre), (app_assoc (pre ++ _)). rewrite get_u64_at by (rewrite ?app_length, ?le_enc_len; auto; lia). cbn [bind].
  rewrite (app_assoc ((pre ++ _) ++ _)). rewrite get_index_at by (rewrite ?app_length, ?le_enc_len; auto; lia). cbn [bind].
  rewrite (app_assoc (((pre ++ _) ++ _) ++ _)). rewrite get_i32_at by (rewrite ?app_length, ?le_enc_len, ?index_len; auto; lia). reflexivity.
Qed.

(** Arrays of records. *)
Lemma get_array : forall E R (size : nat) (enc : E -> list Z) (ok : E -> Prop) (dec : E -> R) (get : list Z -> nat -> res R),
  (forall e, length (enc e) = size) ->
  (forall pre e post off, off = length pre -> ok e -> get (pre ++ enc e ++ post) off = Ok (dec e)) ->
  forall es pre post off, off = length pre -> Forall ok es ->
    mapM (fun k => get (pre ++ concat (map enc es) ++ post) (off + k * size)) (seq 0 (length es)) = Ok (map dec es).
Proof.
  intros E R size enc ok dec get HL HG.
  assert (G : forall es pre post off k, off + k * size = length pre -> Forall ok es ->
    mapM (fun k => get (pre ++ concat (map enc es) ++ post) (off + k * size)) (seq k (length es)) = Ok (map dec es)).
  { induction es as [|e es IH]; intros pre post off k Hoff F; [reflexivity|]. inversion F as [|? ? He Fe]; subst. cbn [length seq mapM map concat].
    rewrite <- app_assoc. rewrite HG by (assumption). cbn [bind].
    rewrite (app_assoc pre). rewrite (IH (pre ++ enc e) post off (Datatypes.S k)); [reflexivity| |assumption].
    rewrite app_length, HL. cbn. lia. }
  intros es pre post off Hoff F. apply G; [lia|assumption].
Qed.

Lemma concat_len : forall E (size : nat) (enc : E -> list Z), (forall e, length (enc e) = size) -> forall es, length (concat (map enc es)) = size * length es.
Proof. intros E size enc H es. induction es as [|e es IH]; cbn; [lia|]. rewrite app_length, H, IH. lia. Qed.

Lemma get_irecs_at : forall es pre post off, off = length pre -> Forall edge_ok es ->
  get_irecs (pre ++ concat (map irec_bytes es) ++ post) off (length es) = Ok (map sent es).
Proof. intros. unfold get_irecs. apply (get_array _ _ irec_size irec_bytes edge_ok sent get_irec irec_len get_irec_at); assumption. Qed.
Lemma get_orecs_at : forall es pre post off, off = length pre -> Forall edge_ok es ->
  get_orecs (pre ++ concat (map (fun e => orec_bytes (orec_of e)) es) ++ post) off (length es) = Ok (map orec_of es).
Proof. intros. unfold get_orecs. apply (get_array _ _ orec_size (fun e => orec_bytes (orec_of e)) edge_ok orec_of get_orec); auto using orec_len, get_orec_at. Qed.

(** ** Serialized sources *)
Section Ser.
  Context {A : Type} (z : serializer A).
  Definition body (xs : list A) : list Z := concat (map (z_write z) xs).
  Lemma size_fold : forall xs a, fold_left (fun a x => a + z_size z x) xs a = a + fold_left (fun a x => a + z_size z x) xs 0.
  Proof. induction xs as [|x xs IH]; intros a; cbn; [lia|]. rewrite (IH (a + _)), (IH (z_size z x)). lia. Qed.
  Lemma body_len : forall xs, Forall (codec_ok z) xs -> length (body xs) = source_size z xs.
  Proof.
    unfold body, source_size. induction xs as [|x xs IH]; intros F; [reflexivity|]. inversion F as [|? ? [L _] Fx]; subst. cbn [map concat fold_left].
    rewrite size_fold, app_length, L, IH by assumption. lia.
  Qed.
  Lemma ser_puts : forall xs s, foldM (ser_at z) xs s = foldM put_at (map (z_write z) xs) s.
  Proof. induction xs as [|x xs IH]; intros s; cbn; [reflexivity|]. unfold ser_at at 1. destruct (put_at s (z_write z x)); cbn; [apply IH|reflexivity]. Qed.
  Lemma deser_all : forall xs pre post acc k, Forall (codec_ok z) xs ->
    foldM (fun s (_ : nat) => deser_at z (pre ++ body xs ++ post) s) (seq k (length xs)) (acc, length pre) = Ok (acc ++ xs, length (pre ++ body xs)).
  Proof.
    unfold body. induction xs as [|x xs IH]; intros pre post acc k F; cbn [length seq foldM map concat app].
    - rewrite !app_nil_r. reflexivity.
    - inversion F as [|? ? [L R] Fx]; subst. unfold deser_at at 1. cbn [fst snd].
      replace (length (pre ++ (z_write z x ++ concat (map (z_write z) xs)) ++ post) <? length pre) with false by (symmetry; apply Nat.ltb_ge; rewrite app_length; lia).
      rewrite skipn_app, skipn_all, Nat.sub_diag. cbn [skipn app]. rewrite <- app_assoc. rewrite R. cbn [bind fst snd].
      rewrite (app_assoc pre). rewrite <- L. replace (length pre + length (z_write z x)) with (length (pre ++ z_write z x)) by (apply app_length).
      rewrite IH by assumption. rewrite <- !app_assoc. reflexivity.
  Qed.

  (** The header part of an instigation message. *)
  Definition front (rw : Z) (xs : list A) : list Z := le_enc 8 rw ++ le_enc 8 (Z.of_nat (length xs)) ++ body xs.
  Lemma front_len : forall rw xs, Forall (codec_ok z) xs -> length (front rw xs) = header_size z xs.
  Proof. intros. unfold front, header_size. rewrite !app_length, !le_enc_len, body_len by assumption. lia. Qed.
  Lemma fill_len : forall junk n, length (fill junk n) = n.
  Proof. intros. unfold fill. rewrite map_length, seq_length. reflexivity. Qed.

  Lemma inst_header_ok : forall junk rw xs n, Forall (codec_ok z) xs ->
    exists rest, inst_header z junk rw xs n = Ok (front rw xs ++ rest) /\ length rest = 8 + n * irec_size.
  Proof.
    intros junk rw xs n F. unfold inst_header. set (total := header_size z xs + 8 + n * irec_size).
    destruct (cut (fill junk total) 8) as (a & t & E & La). { rewrite fill_len. unfold total, header_size. lia. }
    pose proof (fill_len junk total) as FL. rewrite E in FL. rewrite app_length in FL.
    destruct (cut t 8) as (b & u & Et & Lb). { unfold total, header_size in FL. lia. }
    subst t. rewrite app_length in FL. rewrite E. rewrite store_front by (rewrite le_enc_len; lia). cbn [bind].
    rewrite store_off by (rewrite le_enc_len; lia). cbn [bind].
    rewrite ser_puts. rewrite app_assoc. replace 16 with (length (le_enc 8 rw ++ le_enc 8 (Z.of_nat (length xs)))) by (rewrite app_length, !le_enc_len; reflexivity).
    pose proof (body_len xs F) as BL. unfold body in BL.
    destruct (puts (map (z_write z) xs) (le_enc 8 rw ++ le_enc 8 (Z.of_nat (length xs))) u) as (post & -> & Lp & _).
    { rewrite BL. unfold total, header_size in FL. lia. }
    cbn [bind fst]. exists post. split.
    - unfold front, body. rewrite <- !app_assoc. reflexivity.
    - rewrite Lp, BL. unfold total, header_size in FL. lia.
  Qed.

  (** The bytes of a whole message. *)
  Definition inst_msg (rw : Z) (xs : list A) (es : list oedge) : list Z :=
    front rw xs ++ le_enc 8 (Z.of_nat (length es)) ++ concat (map irec_bytes es).

  Lemma inst_unpack_ok : forall rw xs es, u64_ok rw -> u64_ok (Z.of_nat (length xs)) -> u64_ok (Z.of_nat (length es)) ->
    Forall (codec_ok z) xs -> Forall edge_ok es -> inst_unpack z (inst_msg rw xs es) = Ok (rw, xs, map sent es).
  Proof.
    intros rw xs es Hr Hx He F Fe. unfold inst_unpack, inst_msg, front.
    set (N := le_enc 8 (Z.of_nat (length es))). set (C := concat (map irec_bytes es)). rewrite <- !app_assoc.
    rewrite get_u64_front by auto. cbn [bind].
    rewrite get_u64_at by (rewrite ?le_enc_len; auto). cbn [bind]. rewrite Nat2Z.id.
    rewrite (app_assoc (le_enc 8 rw)). replace 16 with (length (le_enc 8 rw ++ le_enc 8 (Z.of_nat (length xs)))) by (rewrite app_length, !le_enc_len; reflexivity).
    rewrite deser_all by assumption. cbn [bind fst snd app].
    rewrite (app_assoc (_ ++ le_enc 8 (Z.of_nat (length xs)))). unfold N at 1. rewrite get_u64_at by auto. cbn [bind]. rewrite Nat2Z.id.
    rewrite (app_assoc ((_ ++ le_enc 8 (Z.of_nat (length xs))) ++ body xs)). unfold C. rewrite <- (app_nil_r (concat (map irec_bytes es))).
    rewrite get_irecs_at; [reflexivity| |assumption]. unfold N. rewrite !app_length, !le_enc_len. reflexivity.
  Qed.

  (** One run. *)
  Definition delivers_inst (rw : Z) (xs : list A) (a : action oedge) (o : out irec) : Prop :=
    match a, o with
    | Work es, Done recs => recs = map sent es
    | Send r es, Parcel r' bytes => r' = r /\ bytes = inst_msg rw xs es
    | _, _ => False
    end.
  Lemma inst_work_ok : forall es, Forall (fun e => from_source (o_op e)) es -> inst_work (map sent es) = Ok (map sent es).
  Proof.
    unfold inst_work. induction es as [|e es IH]; intros F; [reflexivity|]. inversion F as [|? ? He Fe]; subst. cbn [map mapM].
    rewrite IH by assumption. cbn. destruct He as [->|[->| ->]]; reflexivity.
  Qed.

  Lemma inst_step_ok : forall rw xs a m outs rest, Forall (codec_ok z) xs -> Forall edge_ok (act_edges a) ->
    Forall (fun e => from_source (o_op e)) (act_edges a) ->
    m = front rw xs ++ rest -> 8 + irec_size * length (act_edges a) <= length rest ->
    exists rest' o, inst_step (header_size z xs) (m, outs) a = Ok (front rw xs ++ rest', outs ++ [o]) /\ length rest' = length rest /\ delivers_inst rw xs a o.
  Proof.
    intros rw xs a m outs rest F Fe Fo -> HL. unfold inst_step.
    replace (match a with Work es => es | Send _ es => es end) with (act_edges a) by (destruct a; reflexivity).
    set (es := act_edges a) in *. set (N := le_enc 8 (Z.of_nat (length es))). set (P := front rw xs).
    assert (LP : length P = header_size z xs) by (apply front_len; assumption). rewrite <- LP.
    assert (LN : length N = 8) by apply le_enc_len.
    destruct (cut rest 8 ltac:(lia)) as (a0 & b & -> & La). rewrite app_length in HL.
    rewrite store_mid by lia. cbn [bind]. rewrite (app_assoc P).
    replace (length P + 8) with (length (P ++ N)) by (rewrite app_length; lia).
    pose proof (concat_len _ _ _ irec_len es) as CL.
    destruct (puts (map irec_bytes es) (P ++ N) b ltac:(lia)) as (post & -> & Lp & _). cbn [bind fst].
    set (C := concat (map irec_bytes es)) in *.
    exists (N ++ C ++ post). destruct a as [es0|r es0]; cbn [act_edges] in *; subst es.
    - unfold C. rewrite get_irecs_at by (auto). cbn [bind]. rewrite inst_work_ok by assumption. cbn [bind]. exists (Done (map sent es0)). split; [|split].
      + rewrite <- !app_assoc. reflexivity.
      + rewrite !app_length. fold C. lia.
      + reflexivity.
    - rewrite (app_assoc (P ++ N)). rewrite load_front by (rewrite !app_length; lia).
      cbn [bind]. exists (Parcel r ((P ++ N) ++ C)). split; [|split].
      + rewrite <- !app_assoc. reflexivity.
      + rewrite !app_length. lia.
      + split; [reflexivity|]. unfold inst_msg. rewrite <- app_assoc. reflexivity.
  Qed.

  Lemma inst_loop_ok : forall rw xs acts m outs rest, Forall (codec_ok z) xs ->
    Forall (fun a => Forall edge_ok (act_edges a) /\ Forall (fun e => from_source (o_op e)) (act_edges a) /\ 8 + irec_size * length (act_edges a) <= length rest) acts ->
    m = front rw xs ++ rest ->
    exists m' outs', foldM (inst_step (header_size z xs)) acts (m, outs) = Ok (m', outs ++ outs') /\ Forall2 (delivers_inst rw xs) acts outs'.
  Proof.
    intros rw xs acts. induction acts as [|a acts IH]; intros m outs rest F G E.
    - exists m, []. rewrite app_nil_r. split; [reflexivity|constructor].
    - inversion G as [|? ? (G1 & G2 & G3) Gs]; subst.
      destruct (inst_step_ok rw xs a _ outs rest F G1 G2 eq_refl G3) as (rest' & o & E1 & L & D).
      cbn [foldM]. rewrite E1. cbn [bind].
      assert (Gs' : Forall (fun a => Forall edge_ok (act_edges a) /\ Forall (fun e => from_source (o_op e)) (act_edges a) /\ 8 + irec_size * length (act_edges a) <= length rest') acts) by (rewrite L; exact Gs).
      destruct (IH _ (outs ++ [o]) rest' F Gs' eq_refl) as (m' & outs' & E2 & D2).
      exists m', (o :: outs'). rewrite E2. rewrite <- app_assoc. split; [reflexivity|]. constructor; assumption.
  Qed.
End Ser.

(** ** Groups are parts of the edge list *)
Lemma group_part : forall (acts : list (action oedge)) sorted (a : action oedge), Permutation.Permutation (concat (map act_edges acts)) sorted -> In a acts ->
  length (act_edges a) <= length sorted /\ incl (act_edges a) sorted.
Proof.
  intros acts sorted a P I. rewrite <- (Permutation.Permutation_length P). split.
  - apply in_split in I. destruct I as (l1 & l2 & ->). rewrite map_app, concat_app, app_length. cbn. rewrite app_length. lia.
  - intros e He. eapply Permutation.Permutation_in; [exact P|]. apply in_concat. exists (act_edges a). split; [apply in_map; assumption|assumption].
Qed.

(** ** Expansion messages *)
Definition header_ok (h : header) : Prop := u64_ok (h_node h) /\ u64_ok (h_size h) /\ u64_ok (h_rwaddr h) /\ index_ok (h_index h) /\ length (h_rest h) = 48.
Lemma header_len : forall h, header_ok h -> length (header_bytes h) = hsize.
Proof. intros h (_ & _ & _ & _ & L). unfold header_bytes. rewrite !app_length, !le_enc_len, index_len, L. reflexivity. Qed.
Lemma get_header_at : forall h post, header_ok h -> get_header (header_bytes h ++ post) = Ok h.
Proof.
  intros h post (Hn & Hs & Hr & Hi & L). unfold get_header, header_bytes. rewrite <- !app_assoc.
  rewrite get_u64_front by auto. cbn [bind].
  rewrite get_u64_at by (rewrite ?le_enc_len; auto). cbn [bind].
  rewrite (app_assoc (le_enc 8 (h_node h))). rewrite get_u64_at by (rewrite ?app_length, ?le_enc_len; auto). cbn [bind].
  rewrite (app_assoc (le_enc 8 (h_node h) ++ _)). rewrite get_index_at by (rewrite ?app_length, ?le_enc_len; auto). cbn [bind].
  rewrite (app_assoc ((le_enc 8 (h_node h) ++ _) ++ _)). rewrite load_mid by (rewrite ?app_length, ?le_enc_len, ?index_len; auto). cbn [bind].
  destruct h; reflexivity.
Qed.

Definition spawn_msg (h : header) (exp : list Z) (es : list oedge) : list Z :=
  header_bytes h ++ exp ++ concat (map (fun e => orec_bytes (orec_of e)) es).

Lemma spawn_header_ok : forall junk h vs n, header_ok h -> wf_vs vs -> last_view_nonempty vs -> h_size h = vs_bytes vs ->
  exists exp rest b ps, spawn_header junk h vs n = Ok (header_bytes h ++ exp ++ rest) /\ Z.of_nat (length exp) = h_size h /\
    length rest = orec_size * n /\ interpret_vs (mk_buf exp) = Ok (b, ps) /\ same_contents exp vs ps.
Proof.
  intros junk h vs n H W V E. unfold spawn_header. set (es := Z.to_nat (h_size h)).
  assert (Hes : Z.of_nat es = h_size h) by (unfold es; destruct H as (_ & [? ?] & _); lia).
  destruct (cut (fill junk (hsize + es + orec_size * n)) hsize) as (a & t & Ef & La). { rewrite fill_len. lia. }
  pose proof (fill_len junk (hsize + es + orec_size * n)) as FL. rewrite Ef, app_length in FL.
  destruct (cut t es ltac:(lia)) as (b & rest & -> & Lb). rewrite app_length in FL. rewrite Ef.
  rewrite store_front by (rewrite header_len by assumption; lia). cbn [bind app].
  rewrite load_mid by (rewrite ?header_len by assumption; auto). cbn [bind].
  destruct (C28_round_trip vs b W V) as (b1 & S1 & _ & L1 & b2 & ps & I & SC). { rewrite Lb, Hes. assumption. }
  rewrite S1. cbn [bind]. rewrite <- (header_len h H). rewrite store_mid by lia.
  exists (b_mem b1), rest, b2, ps. split; [reflexivity|]. split; [lia|]. split; [lia|]. split; [exact I|exact (proj2 SC)].
Qed.

Lemma spawn_unpack_ok : forall h exp es b ps, header_ok h -> Z.of_nat (length exp) = h_size h -> Forall edge_ok es ->
  (Z.of_nat orec_size * Z.of_nat (length es) < 2 ^ 31)%Z -> interpret_vs (mk_buf exp) = Ok (b, ps) ->
  spawn_unpack (spawn_msg h exp es) = Ok (h, exp, ps, map orec_of es).
Proof.
  intros h exp es b ps H L F Hc I. unfold spawn_unpack, spawn_msg. rewrite get_header_at by assumption. cbn [bind].
  assert (Hs : Z.to_nat (h_size h) = length exp) by lia. rewrite Hs.
  rewrite load_mid by (rewrite ?header_len by assumption; auto). cbn [bind]. rewrite I. cbn [bind snd].
  assert (LC : length (concat (map (fun e => orec_bytes (orec_of e)) es)) = orec_size * length es) by (apply concat_len; intros; apply orec_len).
  assert (Ec : Z.to_nat (s32 (u64 (s32 (Z.of_nat (length (header_bytes h ++ exp ++ concat (map (fun e => orec_bytes (orec_of e)) es))) - Z.of_nat hsize - h_size h)) / Z.of_nat orec_size)) = length es).
  { rewrite !app_length, header_len, LC by assumption. replace (Z.of_nat (hsize + (length exp + orec_size * length es)) - Z.of_nat hsize - h_size h)%Z with (Z.of_nat orec_size * Z.of_nat (length es))%Z by lia.
    assert (Q : forall v, (0 <= v < 2 ^ 31)%Z -> s32 v = v). { intros v Hv. unfold s32. rewrite Z.mod_small by lia. replace (v <? 2 ^ 31)%Z with true by (symmetry; apply Z.ltb_lt; lia). reflexivity. }
    change (Z.of_nat orec_size) with 40%Z in *. rewrite (Q (40 * Z.of_nat (length es))%Z) by lia. unfold u64. rewrite Z.mod_small by lia. rewrite Z.mul_comm, Z.div_mul by discriminate. rewrite Q; lia. }
  rewrite Ec. rewrite (app_assoc (header_bytes h)). rewrite <- (app_nil_r (concat _)). rewrite get_orecs_at; [reflexivity| |assumption].
  rewrite app_length, header_len by assumption. reflexivity.
Qed.

Definition delivers_spawn (h : header) (exp : list Z) (a : action oedge) (o : out orec) : Prop :=
  match a, o with
  | Work es, Done recs => recs = map orec_of es
  | Send r es, Parcel r' bytes => r' = r /\ bytes = spawn_msg h exp es
  | _, _ => False
  end.
Lemma spawn_work_ok : forall es, Forall (fun e => from_expansion (o_op e)) es -> spawn_work (map orec_of es) = Ok (map orec_of es).
Proof.
  unfold spawn_work. induction es as [|e es IH]; intros F; [reflexivity|]. inversion F as [|? ? He Fe]; subst. cbn [map mapM].
  rewrite IH by assumption. cbn. destruct He as [H1 H2]. unfold from_source in H2. destruct (o_op e); try reflexivity; exfalso; auto.
Qed.

Lemma spawn_loop_ok : forall h exp acts m outs rest, header_ok h -> Z.of_nat (length exp) = h_size h ->
  Forall (fun a => Forall (fun e => from_expansion (o_op e)) (act_edges a) /\ orec_size * length (act_edges a) <= length rest) acts ->
  m = header_bytes h ++ exp ++ rest ->
  exists m' outs', foldM (spawn_step (hsize + Z.to_nat (h_size h))) acts (m, outs) = Ok (m', outs ++ outs') /\ Forall2 (delivers_spawn h exp) acts outs'.
Proof.
  intros h exp acts. induction acts as [|a acts IH]; intros m outs rest H L G E.
  - exists m, []. rewrite app_nil_r. split; [reflexivity|constructor].
  - inversion G as [|? ? (G1 & G2) Gs]; subst. cbn [foldM]. destruct a as [es|r es]; cbn [act_edges] in *.
    + cbn [spawn_step]. rewrite spawn_work_ok by assumption. cbn [bind].
      destruct (IH _ (outs ++ [Done (map orec_of es)]) rest H L Gs eq_refl) as (m' & outs' & E2 & D).
      exists m', (Done (map orec_of es) :: outs'). rewrite E2. rewrite <- app_assoc. split; [reflexivity|]. constructor; [reflexivity|assumption].
    + cbn [spawn_step]. assert (LC : length (concat (map (fun e => orec_bytes (orec_of e)) es)) = orec_size * length es) by (apply concat_len; intros; apply orec_len).
      set (C := concat (map (fun e => orec_bytes (orec_of e)) es)) in *.
      destruct (cut rest (orec_size * length es) G2) as (a & post & -> & La).
      rewrite (app_assoc (header_bytes h)).
      replace (hsize + Z.to_nat (h_size h)) with (length (header_bytes h ++ exp)) by (rewrite app_length, header_len by assumption; lia).
      rewrite store_mid by lia. cbn [bind].
      rewrite (app_assoc (header_bytes h ++ exp)). rewrite load_front by (rewrite !app_length; lia). cbn [bind].
      assert (Gs' : Forall (fun a => Forall (fun e => from_expansion (o_op e)) (act_edges a) /\ orec_size * length (act_edges a) <= length (C ++ post)) acts).
      { rewrite app_length, LC. rewrite app_length, La in Gs. exact Gs. }
      destruct (IH (((header_bytes h ++ exp) ++ C) ++ post) (outs ++ [Parcel r ((header_bytes h ++ exp) ++ C)]) (C ++ post) H L Gs') as (m' & outs' & E2 & D).
      { rewrite <- !app_assoc. reflexivity. }
      replace (length (header_bytes h ++ exp)) with (hsize + Z.to_nat (h_size h)) by (rewrite app_length, header_len by assumption; lia).
      exists m', (Parcel r ((header_bytes h ++ exp) ++ C) :: outs'). rewrite E2. rewrite <- app_assoc. split; [reflexivity|]. constructor; [|assumption].
      split; [reflexivity|]. unfold spawn_msg. rewrite <- app_assoc. reflexivity.
Qed.
