(** The loops that write events, segments and types. *)
From Coq Require Import String Ascii ZArith List Bool Arith Lia Permutation Sorted.
From Verif Require Import Base ListFacts TraceModel TraceSpec TraceProofs ReadModel ReadSpec DbModel DbSpec DbProofs.
Import ListNotations.
Open Scope Z_scope.

Lemma zseq_cons a n : zseq a (S n) = a :: zseq (a + 1) n.
Proof. unfold zseq. cbn [seq map]. f_equal; [lia|]. rewrite <- seq_shift, map_map. apply map_ext. intros k. lia. Qed.
Lemma zseq_snoc a n : zseq a (S n) = zseq a n ++ [a + Z.of_nat n].
Proof. unfold zseq. rewrite seq_S, map_app. reflexivity. Qed.
Lemma zseq_nodup a n : NoDup (zseq a n).
Proof. revert a. induction n as [|n IH]; intros a; [constructor|]. rewrite zseq_cons. constructor; [rewrite zseq_in; lia|apply IH]. Qed.
Lemma firstn_zseq m n a : (m <= n)%nat -> firstn m (zseq a n) = zseq a m.
Proof. revert n a. induction m as [|m IH]; intros n a H; [reflexivity|]. destruct n as [|n]; [lia|]. rewrite !zseq_cons. cbn [firstn]. rewrite IH by lia. reflexivity. Qed.

(** ** Events *)
Section Events.
  Context (typ : list (text * Z)) (T : tables).
  Definition type_number (e : entry) : Z := match find_text (event_type (e_kind e)) typ with Some i => i | None => -1 end.
  Fixpoint event_rows (g loc : Z) (k : nat) (evs : list entry) : list event_row :=
    match evs with [] => [] | e :: evs' => mkER (Z.of_nat k) (type_number e) loc g (int64 (e_stamp e)) :: event_rows g loc (S k) evs' end.
  Lemma event_rows_length g loc evs : forall k, length (event_rows g loc k evs) = length evs.
  Proof. induction evs as [|e evs IH]; intros k; [reflexivity|]. cbn [event_rows length]. rewrite IH. reflexivity. Qed.
  Lemma event_rows_ids g loc evs : forall k, map er_id (event_rows g loc k evs) = zseq (Z.of_nat k) (length evs).
  Proof. induction evs as [|e evs IH]; intros k; [reflexivity|]. cbn [event_rows map er_id length]. rewrite zseq_cons, IH. do 2 f_equal. lia. Qed.
  Lemma event_rows_nth g loc evs : forall k j e, nth_error evs j = Some e -> nth_error (event_rows g loc k evs) j = Some (mkER (Z.of_nat (k + j)) (type_number e) loc g (int64 (e_stamp e))).
  Proof.
    induction evs as [|x evs IH]; intros k j e E; [destruct j; discriminate|]. destruct j as [|j]; cbn [nth_error event_rows] in *; [injection E as ->; rewrite Nat.add_0_r; reflexivity|]. rewrite (IH (S k) j e E). do 2 f_equal. lia.
  Qed.
  Definition batched_events := batched set_events T.
  (** One worker *)
  Lemma worker_loop g loc evs : forall k rs work d n work', batched_events rs d -> length rs = k -> map er_id rs = zseq 0 k ->
    (forall e, In e evs -> find_text (event_type (e_kind e)) typ <> None) -> Z.of_nat (k + length evs) <= 2 ^ 31 ->
    collate_all work (Z.of_nat k) loc g (as_events evs) = (n, work') ->
    exists d', if (n =? length evs)%nat
      then each (event_step typ g loc) evs (Z.of_nat k, Z.of_nat k mod 10000, work) d = (d', Ok (Z.of_nat (k + length evs), Z.of_nat (k + length evs) mod 10000, work')) /\ batched_events (rs ++ event_rows g loc k evs) d'
      else each (event_step typ g loc) evs (Z.of_nat k, Z.of_nat k mod 10000, work) d = (d', Fail BadOp) /\ (n < length evs)%nat /\ kept d' = set_events T (firstn (full_batches (Z.of_nat (k + n))) (rs ++ firstn n (event_rows g loc k evs))).
  Proof.
    induction evs as [|e evs IH]; intros k rs work d n work' B K Ids Ty Sm C.
    - cbn in C. injection C as <- <-. exists d. cbn [length Nat.eqb each event_rows]. rewrite Nat.add_0_r, app_nil_r. split; [reflexivity|exact B].
    - cbn [as_events map collate_all] in C. cbn [length] in Sm. fold (as_events evs) in C. pose proof (begin_ok set_events T rs d B) as Bg. rewrite K in Bg. set (X := each _ (e :: evs) _ d). assert (EX : X = each (event_step typ g loc) (e :: evs) (Z.of_nat k, Z.of_nat k mod 10000, work) d) by reflexivity. clearbody X. cbn [each] in EX. unfold andthen at 1, event_step at 1, andthen at 1 in EX. rewrite Bg, (int32_small (Z.of_nat k)) in EX by lia. destruct (collate work (event_of (e_kind e) (e_stamp e)) (Z.of_nat k) loc g) as [ok work1] eqn:Ec. destruct ok.
      + cbn [negb] in EX. destruct (collate_all work1 (Z.of_nat k + 1) loc g (as_events evs)) as [n2 c2] eqn:Ea. injection C as <- <-. destruct (find_text (event_type (e_kind e)) typ) as [i|] eqn:Ef; [|exfalso; apply (Ty e); [left; reflexivity|exact Ef]].
        assert (Ei : type_number e = i) by (unfold type_number; rewrite Ef; reflexivity).
        destruct (insert_end er_id events set_events lens_events T (fun tc => ret (Z.of_nat k + 1, tc, work1)) rs (mkER (int64 (Z.of_nat k)) i loc g (int64 (e_stamp e)))) as (d2 & B2 & E2); [cbn [er_id]; rewrite Ids, int64_small, zseq_in by lia; lia|].
        rewrite K in E2. unfold insert_event in EX. rewrite E2 in EX. cbn [ret] in EX. assert (Ln : length (rs ++ [mkER (int64 (Z.of_nat k)) i loc g (int64 (e_stamp e))]) = S k) by (rewrite app_length; cbn [length]; lia). rewrite Ln in EX. rewrite (int64_small (Z.of_nat k)) in * by lia. replace (Z.of_nat k + 1) with (Z.of_nat (S k)) in * by lia.
        destruct (IH (S k) _ work1 d2 n2 c2 B2 Ln) as (d' & H).
        * rewrite map_app, Ids. cbn [map er_id]. rewrite zseq_snoc. reflexivity.
        * intros e' I. apply Ty. right. exact I.
        * lia.
        * exact Ea.
        * rewrite EX. exists d'. cbn [length Nat.eqb]. replace (k + S (length evs))%nat with (S k + length evs)%nat by lia. cbn [event_rows]. rewrite Ei. destruct (n2 =? length evs)%nat; [destruct H as [H1 H2]; split; [exact H1|]; rewrite <- app_assoc in H2; exact H2|]. destruct H as (H1 & H2 & H3). split; [exact H1|]. split; [lia|]. cbn [firstn]. rewrite <- app_assoc in H3. cbn [app] in H3. replace (k + S n2)%nat with (S k + n2)%nat by lia. exact H3.
      + injection C as <- <-. cbn [negb length Nat.eqb] in *. exists (in_batch set_events T rs). split; [exact EX|]. split; [lia|]. cbn [firstn kept in_batch]. rewrite app_nil_r, Nat.add_0_r, K. reflexivity.
  Qed.

  (** All workers *)
  Context (gid : Z -> Z -> Z).
  Definition number (w : worker) : Z := gid (w_loc w) (w_id w).
  Fixpoint all_rows (k : nat) (ws : list worker) : list event_row :=
    match ws with [] => [] | w :: ws' => event_rows (number w) (w_loc w) k (w_events w) ++ all_rows (k + length (w_events w)) ws' end.
  Definition collated (k : nat) (w : worker) : nat * collator := collate_all new_collator (Z.of_nat k) (w_loc w) (number w) (as_events (w_events w)).
  Fixpoint all_segments (k : nat) (ws : list worker) : list segment :=
    match ws with [] => [] | w :: ws' => done (snd (collated k w)) ++ all_segments (k + length (w_events w)) ws' end.
  Fixpoint all_fine (k : nat) (ws : list worker) : Prop :=
    match ws with [] => True | w :: ws' => fst (collated k w) = length (w_events w) /\ all_fine (k + length (w_events w)) ws' end.
  Definition total (ws : list worker) : nat := list_sum (map (fun w => length (w_events w)) ws).
  Lemma all_rows_length ws : forall k, length (all_rows k ws) = total ws.
  Proof. induction ws as [|w ws IH]; intros k; [reflexivity|]. cbn [all_rows]. rewrite app_length, event_rows_length, IH. reflexivity. Qed.
  Lemma all_rows_ids ws : forall k, map er_id (all_rows k ws) = zseq (Z.of_nat k) (total ws).
  Proof.
    induction ws as [|w ws IH]; intros k; [reflexivity|]. cbn [all_rows]. rewrite map_app, event_rows_ids, IH. unfold total. cbn [map list_sum fold_right]. fold (list_sum (map (fun w => length (w_events w)) ws)). rewrite zseq_app. do 2 f_equal. lia.
  Qed.
  Lemma all_rows_app ws : forall k vs, all_rows k (ws ++ vs) = all_rows k ws ++ all_rows (k + total ws) vs.
  Proof. induction ws as [|w ws IH]; intros k vs; [cbn; rewrite Nat.add_0_r; reflexivity|]. cbn [app all_rows]. rewrite IH, <- app_assoc. unfold total. cbn [map list_sum fold_right]. do 3 f_equal. unfold list_sum. lia. Qed.

  Lemma workers_loop ws : forall k rs segs d, batched_events rs d -> length rs = k -> map er_id rs = zseq 0 k ->
    (forall w e, In w ws -> In e (w_events w) -> find_text (event_type (e_kind e)) typ <> None) -> Z.of_nat (k + total ws) <= 2 ^ 31 -> all_fine k ws ->
    exists d' c, each (worker_step gid typ) ws (Z.of_nat k, Z.of_nat k mod 10000, segs) d = (d', Ok (Z.of_nat (k + total ws), Z.of_nat (k + total ws) mod 10000, c)) /\
      batched_events (rs ++ all_rows k ws) d' /\ done c = done segs ++ all_segments k ws.
  Proof.
    induction ws as [|w ws IH]; intros k rs segs d B K Ids Ty Sm F.
    - exists d, segs. unfold total. cbn. rewrite Nat.add_0_r, !app_nil_r. split; [reflexivity|]. split; [exact B|reflexivity].
    - destruct F as [F1 F2]. assert (Tt : total (w :: ws) = (length (w_events w) + total ws)%nat) by reflexivity. rewrite Tt in *. cbn [each all_rows all_segments]. unfold andthen at 1, worker_step at 1. destruct (collated k w) as [n c] eqn:Ec. cbn [fst snd] in *. subst n. unfold collated in Ec.
      destruct (worker_loop (number w) (w_loc w) (w_events w) k rs new_collator d (length (w_events w)) c B K Ids) as (d1 & H); [intros e I; apply (Ty w e); [left; reflexivity|exact I]|lia|exact Ec|]. rewrite Nat.eqb_refl in H. destruct H as [H1 H2]. unfold andthen at 1. unfold number in H1, H2. rewrite H1. cbn [ret]. fold (number w) in H2.
      destruct (IH (k + length (w_events w))%nat (rs ++ event_rows (number w) (w_loc w) k (w_events w)) (combine segs c) d1 H2) as (d' & c' & G1 & G2 & G3).
      + rewrite app_length, event_rows_length. lia.
      + rewrite map_app, Ids, event_rows_ids, zseq_app. reflexivity.
      + intros w' e I J. apply (Ty w' e); [right; exact I|exact J].
      + lia.
      + exact F2.
      + exists d', c'. rewrite G1. replace (k + length (w_events w) + total ws)%nat with (k + (length (w_events w) + total ws))%nat by lia. split; [reflexivity|]. rewrite <- app_assoc in G2. split; [exact G2|]. rewrite G3. cbn [combine done]. rewrite <- app_assoc. reflexivity.
  Qed.
  Lemma workers_refused ws w vs n c : forall k rs segs d, batched_events rs d -> length rs = k -> map er_id rs = zseq 0 k ->
    (forall v e, In v (ws ++ w :: vs) -> In e (w_events v) -> find_text (event_type (e_kind e)) typ <> None) -> Z.of_nat (k + total (ws ++ w :: vs)) <= 2 ^ 31 -> all_fine k ws ->
    collated (k + total ws) w = (n, c) -> (n < length (w_events w))%nat ->
    exists d', each (worker_step gid typ) (ws ++ w :: vs) (Z.of_nat k, Z.of_nat k mod 10000, segs) d = (d', Fail BadOp) /\
      kept d' = set_events T (firstn (full_batches (Z.of_nat (k + total ws + n))) (rs ++ all_rows k (ws ++ w :: vs))).
  Proof.
    assert (Tt : forall v us, total (v :: us) = (length (w_events v) + total us)%nat) by reflexivity.
    induction ws as [|v ws IH]; intros k rs segs d B K Ids Ty Sm F Ec Ln.
    - cbn [app] in *. change (total []) with O in *. rewrite Nat.add_0_r in *. rewrite Tt in Sm. cbn [each all_rows]. unfold andthen at 1, worker_step at 1, andthen at 1. unfold collated in Ec.
      destruct (worker_loop (number w) (w_loc w) (w_events w) k rs new_collator d n c B K Ids) as (d1 & H); [intros e I; apply (Ty w e); [left; reflexivity|exact I]|lia|exact Ec|]. rewrite (proj2 (Nat.eqb_neq _ _)) in H by lia. destruct H as (H1 & _ & H2). unfold number in H1. rewrite H1. exists d1. split; [reflexivity|]. rewrite H2. f_equal. fold (number w).
      pose proof (full_le (Z.of_nat (k + n)) ltac:(lia)) as Fl. rewrite Nat2Z.id in Fl. set (f := full_batches (Z.of_nat (k + n))) in *. rewrite !firstn_app. f_equal. rewrite event_rows_length. rewrite firstn_firstn. replace (Nat.min (f - length rs) n) with (f - length rs)%nat by lia. replace (f - length rs - length (w_events w))%nat with O by lia. cbn [firstn]. rewrite app_nil_r. reflexivity.
    - destruct F as [F1 F2]. cbn [app] in *. rewrite Tt in *. cbn [each all_rows]. unfold andthen at 1, worker_step at 1. destruct (collated k v) as [m c1] eqn:Ev. cbn [fst] in *. subst m. unfold collated in Ev.
      destruct (worker_loop (number v) (w_loc v) (w_events v) k rs new_collator d (length (w_events v)) c1 B K Ids) as (d1 & H); [intros e I; apply (Ty v e); [left; reflexivity|exact I]|lia|exact Ev|]. rewrite Nat.eqb_refl in H. destruct H as [H1 H2]. unfold andthen at 1. unfold number in H1, H2. rewrite H1. cbn [ret]. fold (number v) in H2.
      destruct (IH (k + length (w_events v))%nat (rs ++ event_rows (number v) (w_loc v) k (w_events v)) (combine segs c1) d1 H2) as (d' & G1 & G2).
      + rewrite app_length, event_rows_length. lia.
      + rewrite map_app, Ids, event_rows_ids, zseq_app. reflexivity.
      + intros w' e I J. apply (Ty w' e); [right; exact I|exact J].
      + lia.
      + exact F2.
      + replace (k + length (w_events v) + total ws)%nat with (k + (length (w_events v) + total ws))%nat by lia. exact Ec.
      + exact Ln.
      + exists d'. rewrite G1. split; [reflexivity|]. rewrite G2, <- app_assoc. do 4 f_equal. lia.
  Qed.
  Lemma events_done t d : workers_of t = d -> set_events T [] = T -> (forall w e, In w d -> In e (w_events w) -> find_text (event_type (e_kind e)) typ <> None) -> Z.of_nat (total d) <= 2 ^ 31 -> all_fine 0 d ->
    exists c, event_table t gid typ (saved T) = (saved (set_events T (all_rows 0 d)), Ok c) /\ done c = all_segments 0 d.
  Proof.
    intros W E Ty Sm F. unfold event_table. rewrite W. unfold andthen at 1. destruct (workers_loop d 0 [] new_collator (saved T) (start_ok set_events T E) eq_refl eq_refl Ty Sm F) as (d' & c & H1 & H2 & H3). cbn [Z.of_nat] in H1. rewrite Zmod_0_l in H1. rewrite H1. cbn [Nat.add app] in *. exists c. split; [|exact H3]. unfold andthen. pose proof (last_ok set_events T _ d' H2) as Q. rewrite all_rows_length in Q. rewrite Q. reflexivity.
  Qed.
  Lemma events_refused t ws w vs n c : workers_of t = ws ++ w :: vs -> set_events T [] = T -> (forall v e, In v (ws ++ w :: vs) -> In e (w_events v) -> find_text (event_type (e_kind e)) typ <> None) -> Z.of_nat (total (ws ++ w :: vs)) <= 2 ^ 31 -> all_fine 0 ws ->
    collated (total ws) w = (n, c) -> (n < length (w_events w))%nat ->
    exists d', event_table t gid typ (saved T) = (d', Fail BadOp) /\ kept d' = set_events T (firstn (full_batches (Z.of_nat (total ws + n))) (all_rows 0 (ws ++ w :: vs))).
  Proof.
    intros W E Ty Sm F Ec Ln. unfold event_table. rewrite W. unfold andthen at 1. destruct (workers_refused ws w vs n c 0 [] new_collator (saved T) (start_ok set_events T E) eq_refl eq_refl Ty Sm F Ec Ln) as (d' & H1 & H2). cbn [Z.of_nat] in H1. rewrite Zmod_0_l in H1. rewrite H1. exists d'. split; [reflexivity|exact H2].
  Qed.
End Events.

(** ** Segments *)
Section Segments.
  Context (T : tables).
  Fixpoint segment_rows (k : nat) (gs : list segment) : list segment_row :=
    match gs with
    | [] => []
    | g :: gs' => mkSR (Z.of_nat k) (g_id g) (g_begin g) (g_end g) (int64 (g_start g)) (int64 (g_finish g)) (g_loc g) (g_worker g) :: segment_rows (S k) gs'
    end.
  Lemma segment_rows_length gs : forall k, length (segment_rows k gs) = length gs.
  Proof. induction gs as [|g gs IH]; intros k; [reflexivity|]. cbn [segment_rows length]. rewrite IH. reflexivity. Qed.
  Lemma segment_rows_ids gs : forall k, map sr_id (segment_rows k gs) = zseq (Z.of_nat k) (length gs).
  Proof. induction gs as [|g gs IH]; intros k; [reflexivity|]. cbn [segment_rows map sr_id length]. rewrite zseq_cons, IH. do 2 f_equal. lia. Qed.
  Lemma segment_loop gs : forall k rs d, batched set_segments T rs d -> length rs = k -> map sr_id rs = zseq 0 k -> Z.of_nat (k + length gs) <= 2 ^ 31 ->
    exists d', each segment_step gs (Z.of_nat k, Z.of_nat k mod 10000) d = (d', Ok (Z.of_nat (k + length gs), Z.of_nat (k + length gs) mod 10000)) /\ batched set_segments T (rs ++ segment_rows k gs) d'.
  Proof.
    induction gs as [|g gs IH]; intros k rs d B K Ids Sm; [exists d; cbn; rewrite Nat.add_0_r, app_nil_r; split; [reflexivity|exact B]|]. cbn [length] in Sm. cbn [each]. unfold andthen at 1, segment_step at 1, andthen at 1. pose proof (begin_ok set_segments T rs d B) as Bg. rewrite K in Bg. rewrite Bg. clear Bg.
    destruct (insert_end sr_id segments set_segments lens_segments T (fun tc => ret (Z.of_nat k + 1, tc)) rs (mkSR (int64 (Z.of_nat k)) (g_id g) (g_begin g) (g_end g) (int64 (g_start g)) (int64 (g_finish g)) (g_loc g) (g_worker g))) as (d2 & B2 & E2); [cbn [sr_id]; rewrite Ids, int64_small, zseq_in by lia; lia|].
    rewrite K in E2. unfold insert_segment. rewrite E2. cbn [ret]. match type of B2 with batched _ _ ?l _ => assert (Ln : length l = S k) by (rewrite app_length; cbn [length]; lia) end. rewrite Ln. rewrite (int64_small (Z.of_nat k)) in * by lia. replace (Z.of_nat k + 1) with (Z.of_nat (S k)) in * by lia.
    destruct (IH (S k) _ d2 B2 Ln) as (d' & H1 & H2); [rewrite map_app, Ids; cbn [map sr_id]; rewrite zseq_snoc; reflexivity|lia|]. exists d'. rewrite H1. cbn [length]. replace (k + S (length gs))%nat with (S k + length gs)%nat by lia. split; [reflexivity|]. rewrite <- app_assoc in H2. exact H2.
  Qed.
  Lemma segments_done c : set_segments T [] = T -> Z.of_nat (length (done c)) <= 2 ^ 31 -> segment_table c (saved T) = (saved (set_segments T (segment_rows 0 (done c))), Ok tt).
  Proof.
    intros E Sm. unfold segment_table, andthen. destruct (segment_loop (done c) 0 [] (saved T) (start_ok set_segments T E) eq_refl eq_refl Sm) as (d' & H1 & H2). cbn [Z.of_nat] in H1. rewrite Zmod_0_l in H1. rewrite H1. cbn [snd Nat.add]. cbn [app] in H2. pose proof (last_ok set_segments T _ d' H2) as Q. rewrite segment_rows_length in Q. exact Q.
  Qed.
End Segments.

(** ** Types *)
Section Types.
  Context (t : trace).
  Definition class_number (e : entry) : Z := match find_text (event_class (e_kind e)) (evtcls t) with Some c => c | None => -1 end.
  Fixpoint type_rows (k : nat) (l : list (text * entry)) : list type_row :=
    match l with [] => [] | (n, e) :: l' => mkTR (Z.of_nat k) (class_number e) (bind_text n) (segment_of e) :: type_rows (S k) l' end.
  Lemma type_rows_ids l : forall k, map tr_id (type_rows k l) = zseq (Z.of_nat k) (length l).
  Proof. induction l as [|[n e] l IH]; intros k; [reflexivity|]. cbn [type_rows map tr_id length]. rewrite zseq_cons, IH. do 2 f_equal. lia. Qed.
  Lemma type_loop l : forall k m T, NoDup (map fst l) -> (forall n, In n (map fst l) -> ~ In n (map fst m)) -> NoDup (map fst m) -> (forall n e, In (n, e) l -> find_text (event_class (e_kind e)) (evtcls t) <> None) ->
    map tr_id (types T) = zseq 0 k -> exists m', each (type_step t) l (m, Z.of_nat k) (saved T) = (saved (set_types T (types T ++ type_rows k l)), Ok (m', Z.of_nat (k + length l))) /\
      NoDup (map fst m') /\ (forall n i, In (n, i) m -> In (n, i) m') /\ forall n e, In (n, e) l -> exists r, In r (type_rows k l) /\ In (n, tr_id r) m' /\ tr_name r = bind_text n /\ tr_segment r = segment_of e /\ tr_class r = class_number e.
  Proof.
    induction l as [|[n e] l IH]; intros k m T D Dj Dm C Ids.
    - exists m. cbn. rewrite app_nil_r, Nat.add_0_r. replace (set_types T (types T)) with T by (destruct T; reflexivity). split; [reflexivity|]. split; [exact Dm|]. split; [intros n i H; exact H|intros n e []].
    - cbn [map fst] in D. apply NoDup_cons_iff in D. destruct D as [D1 D2]. cbn [each]. unfold andthen at 1, type_step at 1. pose proof (C n e (or_introl eq_refl)) as Cn. destruct (find_text (event_class (e_kind e)) (evtcls t)) as [c|] eqn:Ec; [|contradiction]. assert (Ecn : class_number e = c) by (unfold class_number; rewrite Ec; reflexivity). unfold andthen at 1, insert_type. rewrite (insert_ok tr_id types set_types).
      2:{ cbn [tr_id]. rewrite Ids, zseq_in. lia. }
      cbn [ret]. assert (Nn : ~ In n (map fst m)) by (apply Dj; left; reflexivity). pose proof (store_new n (Z.of_nat k) m Nn) as P. replace (Z.of_nat k + 1) with (Z.of_nat (S k)) by lia. set (T' := set_types T _).
      destruct (IH (S k) (store_text n (Z.of_nat k) m) T' D2) as (m' & H1 & H2 & H3 & H4).
      + intros x I J. apply (Permutation_in _ (Permutation_map fst P)) in J. destruct J as [J|J]; [cbn in J; subst; apply D1, I|]. apply (Dj x); [right; exact I|exact J].
      + apply store_nodup; assumption.
      + intros x y I. apply (C x y). right. exact I.
      + unfold T'. cbn [types set_types]. rewrite map_app, Ids. cbn [map tr_id]. rewrite zseq_snoc. reflexivity.
      + exists m'. rewrite H1. cbn [length type_rows]. rewrite Ecn. replace (k + S (length l))%nat with (S k + length l)%nat by lia. split; [unfold T'; cbn [types set_types]; rewrite <- app_assoc; reflexivity|]. split; [exact H2|]. split.
        * intros x i I. apply H3. apply (Permutation_in _ (Permutation_sym P)). right. exact I.
        * intros x y [I|I].
          -- injection I as <- <-. eexists. split; [left; reflexivity|]. cbn [tr_id tr_name tr_segment tr_class]. split; [apply H3, (Permutation_in _ (Permutation_sym P)); left; reflexivity|]. split; [reflexivity|split; [reflexivity|symmetry; exact Ecn]].
          -- destruct (H4 x y I) as (r & R1 & R2). exists r. split; [right; exact R1|exact R2].
  Qed.
End Types.
