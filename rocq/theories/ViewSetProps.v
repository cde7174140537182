(** C28: ViewSet serialization round trip. *)
From Coq Require Import ZArith List Bool Arith Lia.
From Verif Require Import Base ListFacts ArrayRefModel BufferModel BufferSpec BufferProofs ViewSetModel ViewSetSpec ViewSetProofs.
Import ListNotations.
Open Scope nat_scope.

(** The last view, if any, is not empty. *)
Definition last_view_nonempty (vs : viewset) : Prop := vs_views vs = [] \/ exists l v, vs_views vs = l ++ [v] /\ v_data v <> [].

Lemma last_view_ends : forall vs, last_view_nonempty vs <-> ends_nonempty (map v_data (vs_views vs)).
Proof.
  intros vs. unfold last_view_nonempty, ends_nonempty. split.
  - intros [->|(l & v & -> & N)]; [left; reflexivity|]. right. rewrite map_app. cbn [map]. rewrite last_last. assumption.
  - intros [E|N]; [left; destruct (vs_views vs); [reflexivity|discriminate]|]. right.
    destruct (vs_views vs) as [|v0 l0] eqn:E; [contradiction N; reflexivity|].
    destruct (exists_last (l := v0 :: l0) ltac:(discriminate)) as (l & v & El). rewrite El in *.
    exists l, v. split; [reflexivity|]. rewrite map_app in N. cbn [map] in N. rewrite last_last in N. assumption.
Qed.

Lemma pieces_ends : forall vs, wf_vs vs -> ends_nonempty (map v_data (vs_views vs)) -> ends_nonempty (pieces vs).
Proof.
  intros vs W [E|N]; right; unfold pieces.
  - assert (Ev : vs_views vs = []) by (destruct (vs_views vs); [reflexivity|discriminate]). rewrite Ev. cbn. destruct W as (_ & _ & _ & _ & Hs & _). intros X. rewrite X in Hs. discriminate.
  - destruct (map v_data (vs_views vs)) as [|d ds] eqn:E; [contradiction N; reflexivity|].
    destruct (exists_last (l := d :: ds) ltac:(discriminate)) as (l & x & El). rewrite El in *. rewrite last_last in N.
    rewrite !app_assoc. rewrite last_last. assumption.
Qed.

(** Into a buffer of exactly [bytes()] bytes, when the last view is not empty:
    every assert holds, the buffer is filled completely, and interpreting it
    returns the same role, centre, scale and views, consuming every byte. *)
Theorem C28_round_trip : forall vs mem, wf_vs vs -> last_view_nonempty vs ->
  Z.of_nat (length mem) = vs_bytes vs ->
  exists b, serialize vs (mk_buf mem) = Ok b /\ b_rem b = 0 /\ length (b_mem b) = length mem /\
    exists b' ps, interpret_vs (mk_buf (b_mem b)) = Ok (b', ps) /\ b_rem b' = 0 /\ same_contents (b_mem b) vs ps.
Proof.
  intros vs mem W HL HM. rewrite bytes_len in HM by assumption. apply Nat2Z.inj in HM. apply last_view_ends in HL.
  rewrite serialize_pieces by assumption.
  destruct (puts_ok (pieces vs) (mk_buf mem) [] mem (at_mk mem)) as (b & post & E & HA & L); [lia|right; apply pieces_ends; assumption|].
  assert (post = []) by (destruct post; [reflexivity|cbn [length] in L; lia]). subst post. exists b. destruct HA as (M & O & R). cbn [app] in *.
  split; [assumption|]. split; [assumption|]. rewrite M, app_nil_r. unfold total_len in HM. split; [congruence|].
  destruct (interpret_ok vs (mk_buf (concat (pieces vs))) [] [] W) as (b' & ps & E' & HA' & C).
  { rewrite app_nil_r. apply at_mk. }
  { right. assumption. }
  exists b', ps. split; [assumption|]. split; [apply HA'|assumption].
Qed.
Print Assumptions C28_round_trip.

(** With spare room the round trip holds for every view set. *)
Theorem C28_round_trip_spare : forall vs mem, wf_vs vs -> (vs_bytes vs < Z.of_nat (length mem))%Z ->
  exists b, serialize vs (mk_buf mem) = Ok b /\ Z.of_nat (b_off b) = vs_bytes vs /\
    exists b' ps, interpret_vs (mk_buf (b_mem b)) = Ok (b', ps) /\ b_off b' = b_off b /\ same_contents (b_mem b) vs ps.
Proof.
  intros vs mem W HM. rewrite bytes_len in * by assumption. rewrite serialize_pieces by assumption.
  destruct (puts_ok (pieces vs) (mk_buf mem) [] mem (at_mk mem)) as (b & post & E & HA & L); [lia|left; lia|].
  assert (post <> []) by (intros ->; cbn [length] in L; lia). exists b. destruct HA as (M & O & R). cbn [app] in *.
  split; [assumption|]. split; [unfold total_len; congruence|].
  destruct (interpret_ok vs (mk_buf (b_mem b)) [] post W) as (b' & ps & E' & HA' & C).
  { rewrite M. apply at_mk. }
  { left. assumption. }
  exists b', ps. split; [assumption|]. split; [|assumption]. destruct HA' as (_ & O' & _). cbn [app] in O'. congruence.
Qed.
Print Assumptions C28_round_trip_spare.

(** Exactly when the claim fails: a set whose last view is empty makes the
    assert in [serialize] fail in a buffer of [bytes()] bytes. *)
Theorem C28_serialize_succeeds_iff : forall vs mem, wf_vs vs -> Z.of_nat (length mem) = vs_bytes vs ->
  ((exists b, serialize vs (mk_buf mem) = Ok b) <-> last_view_nonempty vs).
Proof.
  intros vs mem W HM. split.
  - intros [b E]. apply last_view_ends. unfold ends_nonempty.
    destruct (map v_data (vs_views vs)) as [|d ds] eqn:Ed; [left; reflexivity|right]. intros HE.
    rewrite bytes_len in HM by assumption. apply Nat2Z.inj in HM. rewrite serialize_pieces in E by assumption.
    rewrite (puts_full (pieces vs) (mk_buf mem) [] mem (at_mk mem)) in E; [discriminate|lia|discriminate|].
    unfold pieces. rewrite Ed. destruct (exists_last (l := d :: ds) ltac:(discriminate)) as (l & x & El). rewrite El in *. rewrite last_last in HE.
    rewrite !app_assoc. rewrite last_last. assumption.
  - intros HL. destruct (C28_round_trip vs mem W HL HM) as (b & E & _). eauto.
Qed.
Print Assumptions C28_serialize_succeeds_iff.

Definition ex_vs (d : list Z) : viewset :=
  {| vs_views := [{| v_index := 0; v_bytes := 3; v_data := [7;8;9]%Z |}; {| v_index := -1; v_bytes := length d; v_data := d |}];
     vs_role := 2; vs_x := repeat 1%Z 8; vs_y := repeat 2%Z 8; vs_z := repeat 3%Z 8; vs_scale := repeat 4%Z 8 |}.

(** A concrete failing set: the second view has no bytes. *)
Theorem C28_trailing_empty_view_refuted :
  wf_vs (ex_vs []) /\ serialize (ex_vs []) (mk_buf (repeat 0%Z (Z.to_nat (vs_bytes (ex_vs []))))) = Fail AssertFail.
Proof. split; [|vm_compute; reflexivity]. unfold wf_vs. cbn. repeat split; try lia. repeat constructor; cbn; lia. Qed.
Print Assumptions C28_trailing_empty_view_refuted.

Example C28_nonvacuous : wf_vs (ex_vs [5;6]%Z) /\ last_view_nonempty (ex_vs [5;6]%Z) /\ vs_bytes (ex_vs [5;6]%Z) = 69%Z /\
  (do b <- serialize (ex_vs [5;6]%Z) (mk_buf (repeat 0%Z 69)); do r <- interpret_vs (mk_buf (b_mem b)); Ok (snd r)) =
   Ok {| ps_views := [{| p_index := 0; p_bytes := 3; p_data := 64 |}; {| p_index := -1; p_bytes := 2; p_data := 67 |}];
     ps_role := 2; ps_x := repeat 1%Z 8; ps_y := repeat 2%Z 8; ps_z := repeat 3%Z 8; ps_scale := repeat 4%Z 8 |}.
Proof.
  split; [unfold wf_vs; cbn; repeat split; try lia; repeat constructor; cbn; lia|].
  split; [right; exists [{| v_index := 0; v_bytes := 3; v_data := [7;8;9]%Z |}]; eexists; split; [reflexivity|discriminate]|].
  split; [reflexivity|]. vm_compute. reflexivity.
Qed.
