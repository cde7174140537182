(** C34: messages between ranks carry their edges unchanged. *)
From Coq Require Import ZArith List Bool Arith Lia Permutation Sorted.
From Verif Require Import Base ListFacts BufferModel ViewSetModel ViewSetSpec ViewSetProps IndexModel TreeModel LookupModel LookupSpec LookupProps
  EdgeGroupModel EdgeGroupSpec EdgeGroupProps DagModel DagSpec MethodModel MethodProps DistroModel DistroSpec DistroProps MessageModel MessageSpec MessageProofs.
Import ListNotations.
Open Scope nat_scope.

(** ** Source leaves *)

(** For every serializer meeting its contract on the sources, any contents of
    the fresh scratch block, and any outcome of the sort: every run of local
    edges is applied with the operations, addresses and indices it had, and
    every message unpacks to the tree address, the sources and the edges of its
    run, although the runs overwrite one another in the block. *)
Theorem C34_source_messages : forall A (z : serializer A) junk rw my sources edges sorted,
  sort_outcome o_loc edges sorted ->
  Forall (codec_ok z) sources -> Forall edge_ok edges -> Forall (fun e => from_source (o_op e)) edges ->
  u64_ok rw -> u64_ok (Z.of_nat (length sources)) -> u64_ok (Z.of_nat (length edges)) ->
  exists acts outs, instigate_split o_loc my sorted = Ok acts /\ instigate z junk rw my sources sorted = Ok outs /\
    Forall2 (fun a o => match a, o with
      | Work es, Done recs => recs = map (fun e => {| r_op := o_op e; r_target := o_addr e; r_idx := o_idx e |}) es
      | Send r es, Parcel r' bytes => r' = r /\
          inst_unpack z bytes = Ok (rw, sources, map (fun e => {| r_op := o_op e; r_target := o_addr e; r_idx := o_idx e |}) es)
      | _, _ => False end) acts outs.
Proof.
  intros A z junk rw my sources edges sorted SO F Fe Fs Hr Hx He.
  destruct (C33_edges_once_per_rank _ o_loc my edges sorted SO) as (acts & Ea & P & _ & _). destruct SO as [P0 _].
  assert (P1 : Permutation (concat (map act_edges acts)) sorted) by (rewrite P; assumption).
  unfold instigate. destruct (inst_header_ok z junk rw sources (length sorted) F) as (rest & -> & Lr). cbn [bind]. rewrite Ea. cbn [bind].
  assert (G : Forall (fun a => Forall edge_ok (act_edges a) /\ Forall (fun e => from_source (o_op e)) (act_edges a) /\ 8 + irec_size * length (act_edges a) <= length rest) acts).
  { apply Forall_forall. intros a Ia. destruct (group_part acts sorted a P1 Ia) as [L I]. rewrite Forall_forall in Fe, Fs.
    assert (I' : incl (act_edges a) edges) by (intros e H; eapply Permutation_in; [symmetry; exact P0|]; auto).
    repeat split; try (apply Forall_forall; intros e H; auto). rewrite Lr. unfold irec_size. lia. }
  destruct (inst_loop_ok z rw sources acts _ [] rest F G eq_refl) as (m' & outs & -> & D). cbn [bind snd app]. exists acts, outs. split; [reflexivity|]. split; [reflexivity|].
  assert (R : forall es, In es (map act_edges acts) -> Forall edge_ok es /\ u64_ok (Z.of_nat (length es))).
  { intros es I. apply in_map_iff in I. destruct I as (a & <- & Ia). rewrite Forall_forall in G. destruct (G a Ia) as (G1 & _). split; [assumption|].
    destruct (group_part acts sorted a P1 Ia) as [L _]. rewrite (Permutation_length P0) in He. unfold u64_ok in *. lia. }
  clear - D R F Hr Hx. induction D as [|a o acts outs D1 D2 IH]; [constructor|]. constructor.
  - destruct (R (act_edges a) (or_introl eq_refl)) as [R1 R2]. destruct a as [es|r es], o as [recs|r' bytes]; cbn [act_edges delivers_inst] in *; try contradiction; [exact D1|].
    destruct D1 as [-> ->]. split; [reflexivity|]. apply (inst_unpack_ok z); assumption.
  - apply IH. intros es I. apply R. right. assumption.
Qed.
Print Assumptions C34_source_messages.

(** The receiver applies the edges of a message to the same sources, in order,
    each at the address it must have, if no edge leads into the source tree and
    every address needed is there. *)
Theorem C34_source_receiver : forall A (z : serializer A) rw sources es bytes stree ttree,
  inst_unpack z bytes = Ok (rw, sources, map (fun e => {| r_op := o_op e; r_target := o_addr e; r_idx := o_idx e |}) es) ->
  well_indexed ttree -> Forall (fun e => o_op e = StoL \/ o_op e = StoT) es ->
  Forall (fun e => exists a, address_for stree ttree e a) es ->
  exists done, inst_remote z ttree bytes = Ok (sources, done) /\
    Forall2 (fun e r => r_op r = o_op e /\ r_idx r = o_idx e /\ address_for stree ttree e (r_target r)) es done.
Proof.
  intros A z rw sources es bytes stree ttree U W Fo Fa. unfold inst_remote. rewrite U. cbn [bind]. clear U.
  assert (G : exists done, mapM (inst_resolve ttree) (map (fun e => {| r_op := o_op e; r_target := o_addr e; r_idx := o_idx e |}) es) = Ok done /\ inst_work done = Ok done /\
    Forall2 (fun e r => r_op r = o_op e /\ r_idx r = o_idx e /\ address_for stree ttree e (r_target r)) es done).
  { induction es as [|e es IH]; [exists []; repeat split; constructor|]. inversion Fo as [|? ? Ho Fo']; subst. inversion Fa as [|? ? [a Ha] Fa']; subst.
    destruct (IH Fo' Fa') as (done & E & Wk & D). cbn [map mapM].
    assert (Q : exists r, inst_resolve ttree {| r_op := o_op e; r_target := o_addr e; r_idx := o_idx e |} = Ok r /\ r_op r = o_op e /\ r_idx r = o_idx e /\ address_for stree ttree e (r_target r)).
    { unfold inst_resolve. cbn [r_op r_target r_idx]. destruct Ha as [[N ->]|[N Hn]].
      - replace (o_addr e =? 0)%Z with false by (symmetry; apply Z.eqb_neq; assumption). eexists. split; [reflexivity|]. cbn. repeat split. left. auto.
      - rewrite N. cbn [Z.eqb]. destruct Hn as (n & Hn & Hs).
        assert (NS : ~ ends_in_source (o_op e)) by (unfold ends_in_source; destruct Ho as [-> | ->]; intros [?|[?|?]]; discriminate).
        destruct Hn as [[B _]|[_ Hn]]; [contradiction|].
        destruct (C04_lookup_iff ttree (o_idx e) (o_op e) W) as [L _]. rewrite (proj2 (L a)) by (exists n; auto). cbn [bind]. eexists. split; [reflexivity|]. cbn. repeat split. right. split; [assumption|]. exists n. auto. }
    destruct Q as (r & Er & Q1 & Q2 & Q3). rewrite Er. cbn [bind]. rewrite E. cbn [bind]. exists (r :: done). split; [reflexivity|]. split.
    - unfold inst_work in *. cbn [mapM]. rewrite Q1. destruct Ho as [-> | ->]; cbn [bind]; rewrite Wk; reflexivity.
    - constructor; auto. }
  destruct G as (done & -> & Wk & D). cbn [bind]. rewrite Wk. cbn [bind]. exists done. auto.
Qed.
Print Assumptions C34_source_receiver.

(** For an StoM edge the receiver would look in the wrong tree: it looks up
    every address in the target tree (dualtree.h:1635-1639), and gets the local
    expansion of the target node in place of the source node's expansion. *)
Definition one_node (a : Z) : tree lnode := ex_leaf root_index a.
Lemma one_node_indexed : forall a, well_indexed (one_node a).
Proof.
  intros a. split; [reflexivity|]. apply ex_leaf_indexed.
Qed.
Theorem C34_StoM_wrong_tree_refuted : exists stree ttree e r, well_indexed stree /\ well_indexed ttree /\ o_op e = StoM /\
  address_for stree ttree e 100 /\ inst_resolve ttree {| r_op := o_op e; r_target := o_addr e; r_idx := o_idx e |} = Ok r /\ r_target r = 200%Z /\
  ~ address_for stree ttree e 200.
Proof.
  exists (one_node 100), (one_node 200), {| o_op := StoM; o_addr := 0; o_idx := root_index; o_loc := 1 |}. eexists.
  split; [apply one_node_indexed|]. split; [apply one_node_indexed|]. split; [reflexivity|]. split.
  { right. split; [reflexivity|]. exists (one_node 100). split; [|reflexivity]. left. split; [left; reflexivity|]. split; [left; reflexivity|reflexivity]. }
  split; [vm_compute; reflexivity|]. split; [reflexivity|].
  intros [[N _]|[_ (n & [[_ [I _]]|[N _]] & Hs)]].
  - apply N. reflexivity.
  - destruct I as [<-|[]]. discriminate.
  - apply N. left. reflexivity.
Qed.
Print Assumptions C34_StoM_wrong_tree_refuted.

(** This does no harm with the built-in methods and policies: a source leaf's
    rank is the rank of the StoM edges' targets (C41_StoM_local), so on the
    leaf's own rank no message contains such an edge. *)
Theorem C34_no_StoM_message : forall A B (m : method A B) unif fuel same S T n rm d L,
  setting m unif fuel same S T n rm d ->
  (forall x, In x (dnodes d) -> settled_bh (dnodes d) x -> L x = home rm unif (snd (fst x))) ->
  forall x edges sorted acts, (forall e, In e edges -> In e (dedges d) /\ efrom e = x) ->
  sort_outcome (fun e => L (eto e)) edges sorted -> instigate_split (fun e => L (eto e)) (L x) sorted = Ok acts ->
  forall r es e, In (Send r es) acts -> In e es -> eop e <> StoM.
Proof.
  intros A B m unif fuel same S T n rm d L H Hs x edges sorted acts Hin SO Ea r es e Ia Ie Eo.
  destruct (C33_edges_once_per_rank _ (fun e => L (eto e)) (L x) edges sorted SO) as (acts' & Ea' & P & _ & F & _). rewrite Ea in Ea'. injection Ea' as <-.
  destruct (F _ Ia) as (_ & Fr & Fw). cbn [act_edges act_rank] in *. pose proof (Fr e Ie) as R.
  assert (I : In e edges). { eapply Permutation_in; [exact P|]. apply in_concat. exists es. split; [|assumption]. apply in_map_iff. exists (Send r es). auto. }
  destruct (Hin e I) as [Id Ef]. pose proof (C41_StoM_local A B m unif fuel same S T n rm d L H Hs e Id Eo) as Q. rewrite Ef in Q.
  assert (W : Send r es = Work es) by (apply Fw; congruence). discriminate.
Qed.
Print Assumptions C34_no_StoM_message.

(** ** Expansions *)

(** The same for the edges out of an expansion: every message unpacks to the
    header, the expansion's contents and the edges of its run.  The edges of a
    run must take less than 2^31 bytes, as the receiver counts them in an
    [int]; the expansion must be one that can be serialized (C28). *)
Theorem C34_expansion_messages : forall junk num_ranks my h views edges sorted,
  sort_outcome o_loc edges sorted -> (0 <= my < num_ranks)%Z -> (forall e, In e edges -> 0 <= o_loc e < num_ranks)%Z ->
  header_ok h -> wf_vs views -> last_view_nonempty views -> h_size h = vs_bytes views ->
  Forall edge_ok edges -> Forall (fun e => from_expansion (o_op e)) edges -> (Z.of_nat orec_size * Z.of_nat (length edges) < 2 ^ 31)%Z ->
  exists acts outs, out_edges_split o_loc num_ranks my sorted = Ok acts /\ spawn_out_edges junk num_ranks my h views sorted = Ok outs /\
    Forall2 (fun a o => match a, o with
      | Work es, Done recs => recs = map (fun e => {| e_op := o_op e; e_target := o_addr e; e_tidx := o_idx e; e_locality := o_loc e |}) es
      | Send r es, Parcel r' bytes => r' = r /\ exists exp ps,
          spawn_unpack bytes = Ok (h, exp, ps, map (fun e => {| e_op := o_op e; e_target := o_addr e; e_tidx := o_idx e; e_locality := o_loc e |}) es) /\
          same_contents exp views ps
      | _, _ => False end) acts outs.
Proof.
  intros junk nr my h vs edges sorted SO Hmy Hloc Hh W V Es Fe Fx Hc.
  destruct (C33_out_edges_once_per_rank _ o_loc nr my edges sorted SO Hmy Hloc) as (acts & Ea & P & _ & _). pose proof SO as [P0 _].
  assert (Fs : Forall (fun e => from_expansion (o_op e)) sorted) by (rewrite Forall_forall in *; intros e I; apply Fx; eapply Permutation_in; [symmetry; exact P0|exact I]).
  unfold spawn_out_edges. destruct (Z.eqb_spec nr 1) as [->|Hn].
  - unfold out_edges_split in *. cbn [Z.eqb Pos.eqb] in *. injection Ea as <-. rewrite spawn_work_ok by assumption. cbn [bind]. eexists _, _. split; [reflexivity|]. split; [reflexivity|]. constructor; [reflexivity|constructor].
  - assert (P1 : Permutation (concat (map act_edges acts)) sorted) by (rewrite P; assumption).
    destruct (spawn_header_ok junk h vs (length sorted) Hh W V Es) as (exp & rest & b & ps & -> & Le & Lr & I & SC). cbn [bind]. rewrite Ea. cbn [bind].
    assert (G : Forall (fun a => Forall (fun e => from_expansion (o_op e)) (act_edges a) /\ orec_size * length (act_edges a) <= length rest) acts).
    { apply Forall_forall. intros a Ia. destruct (group_part acts sorted a P1 Ia) as [L Inc]. split.
      - rewrite Forall_forall in *. auto.
      - rewrite Lr. apply Nat.mul_le_mono_l. assumption. }
    destruct (spawn_loop_ok h exp acts _ [] rest Hh Le G eq_refl) as (m' & outs & -> & D). cbn [bind snd app]. exists acts, outs. split; [reflexivity|]. split; [reflexivity|].
    assert (R : forall es, In es (map act_edges acts) -> Forall edge_ok es /\ length es <= length edges).
    { intros es J. apply in_map_iff in J. destruct J as (a & <- & Ia). destruct (group_part acts sorted a P1 Ia) as [L Inc]. rewrite (Permutation_length P0). split; [|assumption].
      rewrite Forall_forall in *. intros e Ie. apply Fe. eapply Permutation_in; [symmetry; exact P0|]. auto. }
    clear - D R Hh Le Hc I SC. induction D as [|a o acts outs D1 D2 IH]; [constructor|]. constructor.
    + destruct (R (act_edges a) (or_introl eq_refl)) as [R1 R2]. destruct a as [es|r es], o as [recs|r' bytes]; cbn [act_edges delivers_spawn] in *; try contradiction; [exact D1|].
      destruct D1 as [-> ->]. split; [reflexivity|]. exists exp, ps. split; [|assumption]. eapply spawn_unpack_ok; try eassumption. change (Z.of_nat orec_size) with 40%Z in *. lia.
    + apply IH. intros es J. apply R. right. assumption.
Qed.
Print Assumptions C34_expansion_messages.

(** The receiver applies the edges in order, each at the address it must have;
    for all eight operations the tree searched is the one the operation leads
    to. *)
Theorem C34_expansion_receiver : forall h exp ps es bytes stree ttree,
  spawn_unpack bytes = Ok (h, exp, ps, map (fun e => {| e_op := o_op e; e_target := o_addr e; e_tidx := o_idx e; e_locality := o_loc e |}) es) ->
  well_indexed stree -> well_indexed ttree -> Forall (fun e => from_expansion (o_op e)) es ->
  Forall (fun e => exists a, address_for stree ttree e a) es ->
  exists done, spawn_remote stree ttree bytes = Ok (h, exp, ps, done) /\
    Forall2 (fun e r => e_op r = o_op e /\ e_tidx r = o_idx e /\ address_for stree ttree e (e_target r)) es done.
Proof.
  intros h exp ps es bytes stree ttree U Ws W Fo Fa. unfold spawn_remote. rewrite U. cbn [bind]. clear U.
  assert (G : exists done, mapM (spawn_resolve stree ttree) (map (fun e => {| e_op := o_op e; e_target := o_addr e; e_tidx := o_idx e; e_locality := o_loc e |}) es) = Ok done /\ spawn_work done = Ok done /\
    Forall2 (fun e r => e_op r = o_op e /\ e_tidx r = o_idx e /\ address_for stree ttree e (e_target r)) es done).
  { induction es as [|e es IH]; [exists []; repeat split; constructor|]. inversion Fo as [|? ? Ho Fo']; subst. inversion Fa as [|? ? [a Ha] Fa']; subst.
    destruct (IH Fo' Fa') as (done & E & Wk & D). cbn [map mapM].
    assert (Q : exists r, spawn_resolve stree ttree {| e_op := o_op e; e_target := o_addr e; e_tidx := o_idx e; e_locality := o_loc e |} = Ok r /\ e_op r = o_op e /\ e_tidx r = o_idx e /\ address_for stree ttree e (e_target r)).
    { unfold spawn_resolve. cbn [e_op e_target e_tidx]. destruct Ha as [[N ->]|[N Hn]].
      - replace (o_addr e =? 0)%Z with false by (symmetry; apply Z.eqb_neq; assumption). eexists. split; [reflexivity|]. cbn. repeat split. left. auto.
      - rewrite N. cbn [Z.eqb]. pose proof (C04_dual_lookup_iff stree ttree (o_idx e) (o_op e) a Ws W) as L. rewrite (proj2 L Hn). cbn [bind]. eexists. split; [reflexivity|]. cbn. repeat split. right. split; assumption. }
    destruct Q as (r & Er & Q1 & Q2 & Q3). rewrite Er. cbn [bind]. rewrite E. cbn [bind]. exists (r :: done). split; [reflexivity|]. split.
    - unfold spawn_work in *. cbn [mapM]. rewrite Q1. rewrite Wk. destruct Ho as [H1 H2]. unfold from_source in H2. destruct (o_op e); try reflexivity; exfalso; auto.
    - constructor; auto. }
  destruct G as (done & -> & Wk & D). cbn [bind]. rewrite Wk. cbn [bind]. exists done. auto.
Qed.
Print Assumptions C34_expansion_receiver.

(** A lookup without an answer fails, it never yields another address. *)
Theorem C34_unknown_fails : forall stree ttree e r, well_indexed stree -> well_indexed ttree ->
  spawn_resolve stree ttree {| e_op := o_op e; e_target := o_addr e; e_tidx := o_idx e; e_locality := o_loc e |} = Ok r ->
  address_for stree ttree e (e_target r).
Proof.
  intros stree ttree e r Ws W. unfold spawn_resolve. cbn [e_op e_target e_tidx]. destruct (Z.eqb_spec (o_addr e) 0) as [N|N].
  - destruct (dual_lookup _ _ _ _ _) as [a|] eqn:E; [|discriminate]. cbn [bind]. intros Q. injection Q as <-. cbn. right. split; [assumption|]. apply (C04_dual_lookup_iff stree ttree (o_idx e) (o_op e) a Ws W). assumption.
  - intros Q. injection Q as <-. cbn. left. auto.
Qed.
Print Assumptions C34_unknown_fails.

(** ** Instances *)

(** Records of two bytes, copied as they are (TrivialSerializer, array.h). *)
Definition two_bytes : serializer (Z * Z) := {| z_size := fun _ => 2; z_write := fun x => [fst x; snd x];
  z_read := fun l => match l with a :: b :: _ => Ok ((a, b), 2) | _ => Fail Oob end |}.
Lemma two_bytes_ok : forall x, codec_ok two_bytes x.
Proof. intros [a b]. split; [reflexivity|]. intros rest. reflexivity. Qed.

Definition ex_i (k : Z) : index := child k root_index.
Definition ex_edge (o : operation) (a k l : Z) : oedge := {| o_op := o; o_addr := a; o_idx := ex_i k; o_loc := l |}.
Definition ex_srcs : list (Z * Z) := [(7, 8); (9, 10); (11, 12)]%Z.
Definition ex_ses : list oedge := [ex_edge StoL 0 1 0; ex_edge StoM 77 2 1; ex_edge StoT 0 3 2; ex_edge StoL 0 4 2].
Definition sizes_of (r : res (list (out irec))) := match r with Ok l => map (fun o => match o with Done recs => (0, length recs) | Parcel _ b => (1, length b) end) l | Fail _ => [] end.

Example C34_nonvacuous_source :
  sort_outcome o_loc ex_ses ex_ses /\ Forall (codec_ok two_bytes) ex_srcs /\ Forall edge_ok ex_ses /\ Forall (fun e => from_source (o_op e)) ex_ses /\
  sizes_of (instigate two_bytes (fun _ => 255%Z) 4096 1 ex_srcs ex_ses) = [(1, 22 + 8 + 32); (0, 1); (1, 22 + 8 + 64)].
Proof.
  split; [split; [reflexivity|repeat constructor; cbn; lia]|]. split; [repeat constructor; apply two_bytes_ok|].
  split; [repeat constructor; vm_compute; try (intros Q; discriminate Q); reflexivity|].
  split; [unfold ex_ses; repeat (apply Forall_cons; [unfold from_source; cbn; auto|]); apply Forall_nil|]. vm_compute. reflexivity.
Qed.

Definition ex_head : header := {| h_node := 1; h_size := 69; h_rwaddr := 4096; h_index := ex_i 0; h_rest := repeat 0%Z 48 |}.
Definition ex_oes : list oedge := [ex_edge MtoL 0 1 0; ex_edge MtoM 77 2 1; ex_edge MtoT 0 3 2; ex_edge MtoI 0 4 2].
Definition sizes_of' (r : res (list (out orec))) := match r with Ok l => map (fun o => match o with Done recs => (0, length recs) | Parcel _ b => (1, length b) end) l | Fail _ => [] end.
Example C34_nonvacuous_expansion :
  sort_outcome o_loc ex_oes ex_oes /\ header_ok ex_head /\ wf_vs (ex_vs [5;6]%Z) /\ last_view_nonempty (ex_vs [5;6]%Z) /\ h_size ex_head = vs_bytes (ex_vs [5;6]%Z) /\
  Forall edge_ok ex_oes /\ Forall (fun e => from_expansion (o_op e)) ex_oes /\ (Z.of_nat orec_size * Z.of_nat (length ex_oes) < 2 ^ 31)%Z /\
  sizes_of' (spawn_out_edges (fun _ => 255%Z) 3 1 ex_head (ex_vs [5;6]%Z) ex_oes) = [(1, 88 + 69 + 40); (0, 1); (1, 88 + 69 + 80)].
Proof.
  split; [split; [reflexivity|repeat constructor; cbn; lia]|]. split; [vm_compute; repeat split; intros Q; discriminate Q|].
  split; [apply C28_nonvacuous|]. split; [apply C28_nonvacuous|]. split; [reflexivity|].
  split; [repeat constructor; vm_compute; try (intros Q; discriminate Q); reflexivity|].
  split; [unfold ex_oes; repeat (apply Forall_cons; [split; [discriminate|intros [Q|[Q|Q]]; discriminate]|]); apply Forall_nil|].
  split; [reflexivity|]. vm_compute. reflexivity.
Qed.

(** A receiver resolving a null address in each tree. *)
Example C34_nonvacuous_receiver :
  spawn_remote (one_node 100) (one_node 200) (spawn_msg ex_head (match serialize (ex_vs [5;6]%Z) (mk_buf (repeat 0%Z 69)) with Ok b => b_mem b | _ => [] end)
     [{| o_op := MtoM; o_addr := 0; o_idx := root_index; o_loc := 2 |}; {| o_op := MtoL; o_addr := 0; o_idx := root_index; o_loc := 2 |}; {| o_op := LtoT; o_addr := 9; o_idx := root_index; o_loc := 2 |}])
  = match spawn_unpack (spawn_msg ex_head (match serialize (ex_vs [5;6]%Z) (mk_buf (repeat 0%Z 69)) with Ok b => b_mem b | _ => [] end) []) with
    | Ok (h, e, v, _) => Ok (h, e, v, [{| e_op := MtoM; e_target := 100; e_tidx := root_index; e_locality := 2 |}; {| e_op := MtoL; e_target := 200; e_tidx := root_index; e_locality := 2 |}; {| e_op := LtoT; e_target := 9; e_tidx := root_index; e_locality := 2 |}])
    | Fail e => Fail e end.
Proof. vm_compute. reflexivity. Qed.
