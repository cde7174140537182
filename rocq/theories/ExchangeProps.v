(** C13: point messages. *)
From Coq Require Import ZArith List Bool Arith Lia.
From Verif Require Import Base ListFacts BufferModel ViewSetModel ViewSetProofs MessageModel MessageSpec MessageProofs MessageProps ExchangeModel ExchangeSpec ExchangeProofs.
Import ListNotations.
Open Scope nat_scope.

(** For every rank map, counts, offsets and records, whatever the fresh parcel
    contains, in both modes: all writes stay inside the parcel; the receiver
    starts, for each of its cells in order, exactly one merge of the sender's
    records of that cell, in order, and none for a cell without records; when S
    == T the target tree is told the source counts; and [done] is set exactly
    as often as it waits for. *)
Theorem C13_messages : forall A B dim3 rank_map same (zs : serializer A) (zt : serializer B) junk rw sm tm rank cs ct os ot sources targets,
  let cells := cells_of dim3 rank_map rank in
  sendable zs cs os sources cells -> (same = false -> sendable zt ct ot targets cells) -> (Z.of_nat (length cells) < 2 ^ 31)%Z ->
  exists msg log,
    send_points A B dim3 rank_map same zs zt junk rw sm tm rank cs ct os ot sources targets = Ok msg /\
    recv_points A B dim3 rank_map same zs zt rank msg = Ok log /\
    to_sources log = shipment cs os sources cells /\
    to_targets log = (if same then [] else shipment ct ot targets cells) /\
    to_same log = (if same then flat_map (fun i => if cs i =? 0 then [] else [(i, cs i)]) cells else []) /\
    signals log = 2 * length cells.
Proof.
  intros A B dim3 rank_map same zs zt junk rw sm tm rank cs ct os ot sources targets cells Hs Ht Hr.
  destruct (send_ok dim3 rank_map same zs zt rank cs ct os ot sources targets Hs Ht junk rw sm tm) as (post & E).
  eexists _, _. split; [exact E|]. split; [apply recv_ok; assumption|].
  split; [eapply log_sources; eassumption|]. split; [eapply log_targets; eassumption|]. split; [eapply log_same; eassumption|eapply log_signals; eassumption].
Qed.
Print Assumptions C13_messages.

(** The parcel is at least as large as what has to be sent. *)
Definition needed {A B} (zs : serializer A) (zt : serializer B) (cells : list nat) (s : list (nat * list A)) (t : list (nat * list B)) : nat :=
  24 + 12 + (if length s =? 0 then 0 else 4 * length cells) + (if length t =? 0 then 0 else 4 * length cells) +
  list_sum (map (z_size zs) (concat (map snd s))) + list_sum (map (z_size zt) (concat (map snd t))).

Lemma shipment_concat : forall X count offset (recs : list X) l, concat (map snd (shipment count offset recs l)) = flat_map (cell_batch count offset recs) l.
Proof.
  intros X count offset recs. induction l as [|i l IH]; [reflexivity|]. unfold shipment in *. cbn [flat_map]. rewrite map_app, concat_app, IH. f_equal.
  destruct (Nat.eqb_spec (count i) 0) as [E|E]; cbn [map concat snd]; [|apply app_nil_r]. unfold cell_batch. rewrite E. reflexivity.
Qed.
Lemma shipment_zero : forall X count offset (recs : list X) l, (length (shipment count offset recs l) =? 0) = (list_sum (map count l) =? 0).
Proof.
  intros X count offset recs. induction l as [|i l IH]; [reflexivity|]. unfold shipment in *. cbn [flat_map map]. rewrite app_length, list_sum_cons.
  destruct (Nat.eqb_spec (count i) 0) as [E|E]; [rewrite E; exact IH|]. cbn [length]. destruct (Nat.eqb_spec (count i + list_sum (map count l)) 0); [lia|reflexivity].
Qed.

Theorem C13_parcel_large_enough : forall A B dim3 rank_map same (zs : serializer A) (zt : serializer B) junk rw sm tm rank cs ct os ot sources targets msg,
  let cells := cells_of dim3 rank_map rank in
  sendable zs cs os sources cells -> (same = false -> sendable zt ct ot targets cells) ->
  send_points A B dim3 rank_map same zs zt junk rw sm tm rank cs ct os ot sources targets = Ok msg ->
  needed zs zt cells (shipment cs os sources cells) (if same then [] else shipment ct ot targets cells) <= length msg.
Proof.
  intros A B dim3 rank_map same zs zt junk rw sm tm rank cs ct os ot sources targets msg cells Hs Ht E.
  destruct (send_ok dim3 rank_map same zs zt rank cs ct os ot sources targets Hs Ht junk rw sm tm) as (post & E'). rewrite E' in E. assert (Em := f_equal (fun r => match r with Ok m => m | Fail _ => [] end) E). cbv beta iota in Em. rewrite <- Em. clear E E' Em.
  unfold head_of. rewrite !app_length, !le_enc_len, !counts_len. fold cells. unfold needed. rewrite shipment_zero, shipment_concat.
  rewrite <- (sizes_sum _ zs) by (apply batches_ok; apply Hs).
  assert (S1 : list_sum (map (z_size zs) (flat_map (cell_batch cs os sources) cells)) = list_sum (map (z_size zs) (flat_map (cell_batch cs os sources) (if list_sum (map cs cells) =? 0 then [] else cells)))).
  { destruct (Nat.eqb_spec (list_sum (map cs cells)) 0) as [Z0|Z0]; [|reflexivity]. rewrite (flat_nil _ _ (cell_batch cs os sources)); [reflexivity|]. intros i I. unfold cell_batch. rewrite (sum0 cs cells Z0 i I). reflexivity. }
  rewrite S1. assert (S2 : length (if list_sum (map cs cells) =? 0 then [] else cells) = if list_sum (map cs cells) =? 0 then 0 else length cells) by (destruct (list_sum (map cs cells) =? 0); reflexivity). rewrite S2.
  destruct same; cbn [length Nat.eqb map concat list_sum fold_right flat_map].
  - unfold body. destruct (list_sum (map cs cells) =? 0); cbn [length map concat]; lia.
  - rewrite shipment_zero, shipment_concat. rewrite <- (sizes_sum _ zt) by (apply batches_ok; apply Ht; reflexivity).
    destruct (Nat.eqb_spec (list_sum (map ct cells)) 0) as [Z0|Z0].
    + rewrite (flat_nil _ _ (cell_batch ct ot targets) cells) by (intros i I; unfold cell_batch; rewrite (sum0 ct cells Z0 i I); reflexivity). cbn [length map list_sum fold_right flat_map]. destruct (list_sum (map cs cells) =? 0); lia.
    + destruct (list_sum (map cs cells) =? 0); lia.
Qed.
Print Assumptions C13_parcel_large_enough.

(** It is not as small as it could be: the running total [bytes_source] is
    added once per cell, so three cells of one 2-byte record each are given 12
    bytes for 6. *)
Definition three : nat -> nat := fun _ => 1.
Theorem C13_parcel_exact_refuted :
  let cells := cells_of 3 (fun _ => 1) 1 in
  sendable two_bytes three (fun i => i) ex_srcs cells /\
  exists msg, send_points _ _ 3 (fun _ => 1) true two_bytes two_bytes (fun _ => 0%Z) 1 2 3 1 three three (fun i => i) (fun i => i) ex_srcs ex_srcs = Ok msg /\
    length msg = 60 /\ needed two_bytes two_bytes cells (shipment three (fun i => i) ex_srcs cells) [] = 54.
Proof.
  split.
  - split; [intros i I; vm_compute in I; intuition (subst; apply Nat.leb_le; reflexivity)|]. split; [repeat constructor; apply two_bytes_ok|reflexivity].
  - eexists. split; [vm_compute; reflexivity|]. split; reflexivity.
Qed.
Print Assumptions C13_parcel_exact_refuted.

(** Five cells on two ranks, S != T. *)
Definition ex_map (i : nat) : nat := if Nat.odd i then 1 else 0.
Definition ex_cs (i : nat) : nat := nth i [1; 2; 0; 0; 1] 0.
Definition ex_os (i : nat) : nat := nth i [0; 1; 3; 3; 3] 0.
Definition ex_ct (i : nat) : nat := nth i [1; 1; 0; 2; 0] 0.
Definition ex_ot (i : nat) : nat := nth i [0; 1; 2; 2; 4] 0.
Definition ex_ps : list (Z * Z) := [(1, 1); (2, 2); (3, 3); (4, 4)]%Z.
Definition ex_pt : list (Z * Z) := [(11, 1); (12, 2); (13, 3); (14, 4)]%Z.
Example C13_nonvacuous :
  let cells := cells_of 5 ex_map 1 in
  cells = [1; 3] /\ sendable two_bytes ex_cs ex_os ex_ps cells /\ sendable two_bytes ex_ct ex_ot ex_pt cells /\
  (do m <- send_points _ _ 5 ex_map false two_bytes two_bytes (fun _ => 77%Z) 1 2 3 1 ex_cs ex_ct ex_os ex_ot ex_ps ex_pt; recv_points _ _ 5 ex_map false two_bytes two_bytes 1 m)
  = Ok [MergeS 1 [(2, 2); (3, 3)]; Signal 1; MergeT 1 [(12, 2)]; MergeT 3 [(13, 3); (14, 4)]]%Z /\
  (do m <- send_points _ _ 5 ex_map true two_bytes two_bytes (fun _ => 77%Z) 1 2 3 1 ex_cs ex_cs ex_os ex_os ex_ps ex_ps; recv_points _ _ 5 ex_map true two_bytes two_bytes 1 m)
  = Ok [MergeS 1 [(2, 2); (3, 3)]; Signal 1; MergeSame 1 2; Signal 1]%Z.
Proof.
  split; [reflexivity|]. split; [|split]; [| |split; vm_compute; reflexivity];
    (split; [intros i I; vm_compute in I; intuition (subst; apply Nat.leb_le; reflexivity)|split; [repeat constructor; apply two_bytes_ok|reflexivity]]).
Qed.
