(** C94: the table of the edges of a DAG counts each edge once. *)
From Coq Require Import ZArith List Bool Arith Lia Permutation.
From Verif Require Import Base ListFacts LookupModel TreeModel DagModel MethodModel DagSpec DagPaths DagSound MethodProofs MethodSound DirectBHProofs FmmProofs Fmm97Proofs MethodProps LinkSpec EvalModel EvalProps CountModel CountSpec CountProofs.
Import ListNotations.
Open Scope Z_scope.

(** One line for each operation and each two localities, in order, with the number of edges of
    the listed nodes between them. *)
Theorem C94_counts : forall loc outs sl sn tn n, 0 <= n ->
  (forall v e, In v (sl ++ sn ++ tn) -> In e (outs v) -> efrom e = v /\ 0 <= loc v < n /\ 0 <= loc (eto e) < n) ->
  Z.of_nat (length (flat_map outs (sl ++ sn ++ tn))) < 2 ^ 31 ->
  printedges loc outs sl sn tn n = Ok (all_lines (Z.to_nat n) (fun o j k => between loc o j k (flat_map outs (sl ++ sn ++ tn)))).
Proof. exact printed. Qed.
Print Assumptions C94_counts.

(** The nodes of a DAG are in four lists, the last of them (the target leaves) not read. *)
Definition four_lists (ts : list task) (sl sn tn tl : list dnode) : Prop :=
  Permutation (sl ++ sn ++ tn ++ tl) (all_adds ts) /\ forall v, In v tl -> is_target v = true.
Lemma four_edges : forall A B (m : method A B) unif same fuel S T, builtin fuel m -> usable unif fuel S T ->
  exists ss tt, create_dag m unif same fuel S T = Ok (ss, tt) /\ forall outs sl sn tn tl, four_lists (ss ++ tt) sl sn tn tl ->
    (forall v, Permutation (outs v) (out_of v (all_edges (ss ++ tt)))) -> Permutation (flat_map outs (sl ++ sn ++ tn)) (all_edges (ss ++ tt)) /\
    forall v e, In v (sl ++ sn ++ tn) -> In e (outs v) -> efrom e = v /\ In v (all_adds (ss ++ tt)) /\ In (eto e) (all_adds (ss ++ tt)).
Proof.
  intros A B m unif same fuel S T Hm (H1 & H2 & H3 & H4 & H5 & H6).
  assert (X : exists ss tt, create_dag m unif same fuel S T = Ok (ss, tt) /\ good_dag S T (ss ++ tt) /\ forall e, In e (all_edges (ss ++ tt)) -> shape e).
  { destruct Hm as [|accept| |].
    - destruct (direct_dag S T unif fuel same H1 H2 H3 H4 H5 H6) as (ss & tt & Hc & G & Sh & _). exists ss, tt. auto.
    - destruct (bh_dag S T unif fuel same H1 H2 H3 H4 H5 H6 accept) as (ss & tt & Hc & G & Sh & _). exists ss, tt. auto.
    - destruct (fmm_dag S T H1 H2 fuel unif same H3 H4 H5 H6) as (ss & tt & Hc & G & Sh & _). exists ss, tt. auto.
    - destruct (fmm97_dag S T H1 H2 fuel unif same H3 H4 H5 H6) as (ss & tt & Hc & G & Sh & _). exists ss, tt. auto. }
  destruct X as (ss & tt & Hc & (_ & _ & _ & G) & Sh). exists ss, tt. split; [exact Hc|]. destruct (C38_schedule_exists A B m unif same fuel S T ss tt H1 Hc) as (l & Sc).
  destruct (G l Sc) as (d & Rn & Pn & Pe). apply run_facts in Rn. destruct Rn as [N Ends].
  assert (Na : NoDup (all_adds (ss ++ tt))) by (eapply Permutation_NoDup; eassumption). assert (En : forall e, In e (all_edges (ss ++ tt)) -> In (efrom e) (all_adds (ss ++ tt)) /\ In (eto e) (all_adds (ss ++ tt))) by (intros e J; destruct (Ends e) as [X Y]; [eapply Permutation_in; [symmetry; exact Pe|exact J]|]; split; eapply Permutation_in; eassumption).
  intros outs sl sn tn tl (Pl & Tl) Po. rewrite 2 app_assoc in Pl. rewrite <- (app_assoc sl) in Pl. split.
  - etransitivity; [|apply (out_perm (all_edges (ss ++ tt)) (sl ++ sn ++ tn))].
    + clear - Po. induction (sl ++ sn ++ tn) as [|v l IH]; [constructor|]. cbn [flat_map]. apply Permutation_app; [apply Po|exact IH].
    + apply (Permutation_NoDup (Permutation_sym Pl)) in Na. clear - Na. induction (sl ++ sn ++ tn) as [|v l IH]; [constructor|]. cbn [app] in Na. apply NoDup_cons_iff in Na. destruct Na as [X Y]. constructor; [intros I; apply X, in_or_app; auto|apply IH, Y].
    + intros e J. destruct (En e J) as [Q _]. apply (Permutation_in _ (Permutation_sym Pl)), in_app_or in Q. destruct Q as [Q|Q]; [exact Q|]. apply Tl in Q. destruct (Sh e J); discriminate Q.
  - intros v e I J. apply (Permutation_in _ (Po v)) in J. unfold out_of in J. apply filter_In in J. destruct J as [J Q]. destruct (dnode_dec (efrom e) v) as [E|]; [|discriminate]. split; [exact E|]. split; [apply (Permutation_in _ Pl), in_or_app; auto|apply En, J].
Qed.
(** For the DAGs of the four methods each edge is counted once. *)
Theorem C94_all : forall A B (m : method A B) unif same fuel S T, builtin fuel m -> usable unif fuel S T ->
  exists ss tt, create_dag m unif same fuel S T = Ok (ss, tt) /\ forall loc outs sl sn tn tl n, four_lists (ss ++ tt) sl sn tn tl ->
    (forall v, Permutation (outs v) (out_of v (all_edges (ss ++ tt)))) -> 0 <= n -> (forall v, In v (all_adds (ss ++ tt)) -> 0 <= loc v < n) -> Z.of_nat (length (all_edges (ss ++ tt))) < 2 ^ 31 ->
    printedges loc outs sl sn tn n = Ok (all_lines (Z.to_nat n) (fun o j k => between loc o j k (all_edges (ss ++ tt)))).
Proof.
  intros A B m unif same fuel S T Hm U. destruct (four_edges A B m unif same fuel S T Hm U) as (ss & tt & Hc & F). exists ss, tt. split; [exact Hc|]. intros loc outs sl sn tn tl n Fl Po Hn L B0. destruct (F outs sl sn tn tl Fl Po) as [P Q].
  rewrite printed; [|exact Hn|intros v e I J; destruct (Q v e I J) as (E & V & W); auto|rewrite (Permutation_length P); exact B0]. f_equal. apply all_lines_ext. intros o j k. apply between_perm, P.
Qed.
Print Assumptions C94_all.
(** An edge from or to a node without a locality (-1), or with one beyond the table, is a store
    outside the table. *)
Theorem C94_unplaced_refuted : forall A B (m : method A B) unif same fuel S T, builtin fuel m -> usable unif fuel S T ->
  exists ss tt, create_dag m unif same fuel S T = Ok (ss, tt) /\ forall loc outs sl sn tn tl n, four_lists (ss ++ tt) sl sn tn tl ->
    (forall v, Permutation (outs v) (out_of v (all_edges (ss ++ tt)))) -> 0 <= n -> Z.of_nat (length (all_edges (ss ++ tt))) < 2 ^ 31 ->
    (exists e, In e (all_edges (ss ++ tt)) /\ ~ (0 <= loc (efrom e) < n /\ 0 <= loc (eto e) < n)) -> printedges loc outs sl sn tn n = Fail Oob.
Proof.
  intros A B m unif same fuel S T Hm U. destruct (four_edges A B m unif same fuel S T Hm U) as (ss & tt & Hc & F). exists ss, tt. split; [exact Hc|]. intros loc outs sl sn tn tl n Fl Po Hn B0 (e & J & X). destruct (F outs sl sn tn tl Fl Po) as [P Q].
  apply printed_fail; [exact Hn|intros v e' I I'; apply (Q v e' I I')|rewrite (Permutation_length P); exact B0|]. apply (Permutation_in _ (Permutation_sym P)) in J. apply in_flat_map in J. destruct J as (v & I & J). exists v, e. split; [exact I|]. split; [exact J|]. destruct (Q v e I J) as (<- & _). exact X.
Qed.
Print Assumptions C94_unplaced_refuted.
(** A negative number of localities is refused. *)
Theorem C94_negative : forall loc outs sl sn tn n, n < 0 -> printedges loc outs sl sn tn n = Fail BadOp.
Proof. intros loc outs sl sn tn n H. unfold printedges, zero_table. destruct (Z.ltb_spec n 0); [reflexivity|lia]. Qed.
Print Assumptions C94_negative.

(** FMM97 of the example trees with the boxes of the source tree on locality 0, those of the
    target tree on 1. *)
Definition side (v : dnode) : Z := match v with ((SrcTree, _), _) => 0 | _ => 1 end.
(** The list a node is in, 0 to 3 *)
Definition list_of (v : dnode) : Z := if is_source v then 0 else if is_target v then 3 else 1 + side v.
Definition listed (ts : list task) (i : Z) : list dnode := filter (fun v => list_of v =? i) (all_adds ts).
Lemma listed_four ts : four_lists ts (listed ts 0) (listed ts 1) (listed ts 2) (listed ts 3).
Proof.
  split.
  - unfold listed. induction (all_adds ts) as [|v l IH]; [constructor|]. cbn [filter]. assert (C : list_of v = 0 \/ list_of v = 1 \/ list_of v = 2 \/ list_of v = 3) by (destruct v as [[[] p] []]; cbn; auto).
    destruct C as [->|[->|[->| ->]]]; cbn [Z.eqb Pos.eqb app]; (etransitivity; [|apply perm_skip; exact IH]); [reflexivity|..]; symmetry.
    + apply Permutation_middle.
    + rewrite !(app_assoc _ (filter (fun v => list_of v =? 1) l)). apply Permutation_middle.
    + rewrite !(app_assoc _ (filter (fun v => list_of v =? 1) l)), !(app_assoc _ (filter (fun v => list_of v =? 2) l)). apply Permutation_middle.
  - intros v I. unfold listed in I. apply filter_In in I. destruct I as [_ I]. destruct v as [[[] p] []]; cbn in I; congruence || reflexivity.
Qed.
Definition ex_table (r : res (list task * list task)) (loc : dnode -> Z) : res (list (Z * Z * Z * Z)) :=
  match r with Ok (su, tu) => printedges loc (fun v => out_of v (all_edges (su ++ tu))) (listed (su ++ tu) 0) (listed (su ++ tu) 1) (listed (su ++ tu) 2) 2 | Fail e => Fail e end.
Example C94_nonvacuous : usable 1 4 exS exT /\ (forall ts, four_lists ts (listed ts 0) (listed ts 1) (listed ts 2) (listed ts 3)) /\
  exists l, ex_table (create_dag (fmm97 4) 1 true 4 exS exT) side = Ok l /\ length l = 48%nat /\
  filter (fun x => negb (snd x =? 0)) l = [(1, 0, 0, 4); (2, 0, 1, 3); (3, 0, 0, 3); (5, 1, 1, 2); (6, 0, 1, 1); (7, 1, 1, 4); (8, 0, 1, 5); (9, 0, 0, 6); (10, 0, 1, 5); (11, 1, 1, 4)] /\
  ex_table (create_dag (fmm97 4) 1 true 4 exS exT) (fun v => side v - 1) = Fail Oob.
Proof. split; [apply ex_usable|]. split; [exact listed_four|]. eexists. split; [vm_compute; reflexivity|]. split; [reflexivity|]. split; [reflexivity|vm_compute; reflexivity]. Qed.
