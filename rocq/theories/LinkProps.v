(** C29: input counts and output lists after concurrent edge insertion. *)
From Coq Require Import ZArith List Bool Arith Lia Permutation.
From Verif Require Import Base LookupModel TreeModel DagModel MethodModel DagSpec DagPaths DagSound MethodProofs MethodSound DirectBHProofs FmmProofs Fmm97Proofs MethodProps LinkModel LinkSpec LinkProofs.
Import ListNotations.
Open Scope nat_scope.

(** For every number of threads, every list of calls of the edge operations each makes and
    every interleaving of their locked steps: when all threads are done, in_count_ of each
    DAG node is the number of edges into it and its output list holds its edges, each once. *)
Theorem C29_counts : forall css n s, lruns n (lstart (map links_of css)) s -> finished s -> counts_right (fst s) (edges_of (concat css)).
Proof.
  intros css n s R F. apply inv_end; [|exact F]. eapply inv_runs; [exact R|].
  replace (edges_of (concat css)) with (map edge_of (concat (map links_of css))).
  - apply inv_start. apply Forall_forall. intros ls I. apply in_map_iff in I. destruct I as (cs & <- & _). apply links_owned.
  - clear. induction css as [|cs css IH]; [reflexivity|]. cbn [map concat]. unfold edges_of in *. rewrite map_app, flat_map_app, IH. f_equal. apply links_edges.
Qed.
Print Assumptions C29_counts.

(** No interleaving gets stuck, and every one has the same length: eight steps a call. *)
Theorem C29_no_deadlock : forall css n s, lruns n (lstart (map links_of css)) s ->
  (finished s \/ exists s', lstep s s') /\ n <= 8 * length (links_of (concat css)) /\ (finished s -> n = 8 * length (links_of (concat css))).
Proof.
  intros css n s R. assert (I : Inv (map edge_of (concat (map links_of css))) (lstart (map links_of css))) by (apply inv_start; apply Forall_forall; intros ls J; apply in_map_iff in J; destruct J as (cs & <- & _); apply links_owned).
  split; [eapply progress; eapply inv_runs; eassumption|]. pose proof (runs_work _ _ _ R) as W.
  assert (W0 : work (lstart (map links_of css)) = 8 * length (links_of (concat css))).
  { unfold work, lstart. cbn [snd]. clear. induction css as [|cs css IH]; [reflexivity|]. cbn [map concat]. rewrite sumT_cons, IH. assert (LA : links_of (cs ++ concat css) = links_of cs ++ links_of (concat css)) by apply flat_map_app. rewrite LA, app_length. cbn [code]. enough (length (flat_map link_code (links_of cs)) = 8 * length (links_of cs)) by lia.
    clear. induction (links_of cs) as [|l ls IHl]; [reflexivity|]. cbn [flat_map]. rewrite app_length, IHl. cbn [length link_code]. lia. }
  split; [lia|]. intros F. assert (work s = 0); [|lia]. clear - F. destruct s as [m ts]. unfold work, finished in *. cbn [snd] in *. induction ts as [|t ts IH]; [reflexivity|]. rewrite sumT_cons, (F t (or_introl eq_refl)), IH by (intros; apply F; right; assumption). reflexivity.
Qed.
Print Assumptions C29_no_deadlock.

(** The threads of a DAG construction: the edge operations of each task of a method. *)
Definition calls_of (e : edge) : call :=
  match eop e with
  | MtoT | LtoT => (eop e, fst (efrom e), fst (eto e))
  | op => (op, fst (eto e), fst (efrom e))
  end.
Lemma dag_counts : forall ts n s, (forall e, In e (all_edges ts) -> call_edge (calls_of e) = Some e) ->
  lruns n (lstart (map (fun t => links_of (map calls_of (links (snd t)))) ts)) s -> finished s -> counts_right (fst s) (all_edges ts).
Proof.
  intros ts n s H R F. replace (all_edges ts) with (edges_of (concat (map (fun t => map calls_of (links (snd t))) ts))).
  - apply (C29_counts _ n); [|exact F]. rewrite map_map. exact R.
  - clear R F. induction ts as [|t ts IH]; [reflexivity|]. cbn [map concat]. change (all_edges (t :: ts)) with (links (snd t) ++ all_edges ts) in *. unfold edges_of in *. rewrite flat_map_app, IH by (intros; apply H; apply in_or_app; right; assumption). f_equal.
    assert (G : forall e, In e (links (snd t)) -> call_edge (calls_of e) = Some e) by (intros; apply H; apply in_or_app; left; assumption). clear - G. induction (links (snd t)) as [|e es IH]; [reflexivity|]. cbn [map flat_map]. rewrite (G e (or_introl eq_refl)), IH by (intros; apply G; right; assumption). reflexivity.
Qed.
(** For the four methods: one thread for each task of the DAG construction, in any
    interleaving (the order the DAG construction keeps between tasks allows fewer); the
    counts are those of the edges C35-C39 describe. *)
Theorem C29_dag : forall A B (m : method A B) unif same fuel S T, builtin fuel m -> usable unif fuel S T ->
  exists ss tt, create_dag m unif same fuel S T = Ok (ss, tt) /\
    forall n s, lruns n (lstart (map (fun t => links_of (map calls_of (links (snd t)))) (ss ++ tt))) s -> finished s -> counts_right (fst s) (all_edges (ss ++ tt)).
Proof.
  assert (G : forall ts, (forall e, In e (all_edges ts) -> shape e) -> forall e, In e (all_edges ts) -> call_edge (calls_of e) = Some e) by (intros ts H e I; destruct (H e I); reflexivity).
  intros A B m unif same fuel S T Hm (H1 & H2 & H3 & H4 & H5 & H6). destruct Hm as [|accept| |].
  - destruct (direct_dag S T unif fuel same H1 H2 H3 H4 H5 H6) as (ss & tt & Hc & _ & Sh & _). exists ss, tt. split; [assumption|]. intros n s. apply dag_counts. apply G. exact Sh.
  - destruct (bh_dag S T unif fuel same H1 H2 H3 H4 H5 H6 accept) as (ss & tt & Hc & _ & Sh & _). exists ss, tt. split; [assumption|]. intros n s. apply dag_counts. apply G. exact Sh.
  - destruct (fmm_dag S T H1 H2 fuel unif same H3 H4 H5 H6) as (ss & tt & Hc & _ & Sh & _). exists ss, tt. split; [assumption|]. intros n s. apply dag_counts. apply G. exact Sh.
  - destruct (fmm97_dag S T H1 H2 fuel unif same H3 H4 H5 H6) as (ss & tt & Hc & _ & Sh & _). exists ss, tt. split; [assumption|]. intros n s. apply dag_counts. apply G. exact Sh.
Qed.
Print Assumptions C29_dag.

(** Two threads adding edges into the same node and out of the same node: they contend, and
    the order of the output list depends on the interleaving, the counts do not. *)
Definition exN (w : nat) : owner := (SrcTree, [w]).
Definition exT1 : list call := [(MtoM, (SrcTree, []), exN 0); (StoM, exN 0, exN 0)].
Definition exT2 : list call := [(MtoM, (SrcTree, []), exN 1); (MtoL, (TgtTree, []), exN 0)].
(** Runs thread [i] for the entries of a list of thread numbers. *)
Fixpoint play (order : list nat) (s : lstate) : option lstate :=
  match order with
  | [] => Some s
  | i :: order' => match nth_error (snd s) i with
                   | Some t => match step_thread (fst s) t with
                               | Some (m', t') => play order' (m', firstn i (snd s) ++ t' :: skipn (S i) (snd s))
                               | None => None end
                   | None => None end
  end.
Lemma play_runs : forall order s s' k s0, lruns k s0 s -> play order s = Some s' -> lruns (length order + k) s0 s'.
Proof.
  induction order as [|i order IH]; intros s s' k s0 R P; cbn [play] in P; [injection P as <-; exact R|]. destruct (nth_error (snd s) i) as [t|] eqn:E; [|discriminate]. destruct (step_thread (fst s) t) as [[m' t']|] eqn:St; [|discriminate].
  cbn [length plus]. rewrite plus_n_Sm. eapply IH; [|exact P]. econstructor; [exact R|]. destruct s as [m ts]. cbn [fst snd] in *. apply nth_error_split in E. destruct E as (a & b & -> & L).
  replace (firstn i (a ++ t :: b)) with a by (rewrite <- L, firstn_app, Nat.sub_diag, firstn_all; cbn; rewrite app_nil_r; reflexivity).
  assert (Sk : skipn (S i) (a ++ t :: b) = b) by (rewrite skipn_app, skipn_all2 by lia; replace (S i - length a) with 1 by lia; reflexivity). rewrite Sk. apply lstep_do. exact St.
Qed.
Example C29_nonvacuous : exists s1 s2,
  lruns 32 (lstart (map links_of [exT1; exT2])) s1 /\ finished s1 /\ lruns 32 (lstart (map links_of [exT1; exT2])) s2 /\ finished s2 /\
  in_count (fst s1) ((SrcTree, []), Normal) = 2 /\ in_count (fst s2) ((SrcTree, []), Normal) = 2 /\
  out_edges (fst s1) (exN 0, Normal) = [(MtoM, ((SrcTree, []), Normal)); (MtoL, ((TgtTree, []), Normal))] /\
  out_edges (fst s2) (exN 0, Normal) = [(MtoL, ((TgtTree, []), Normal)); (MtoM, ((SrcTree, []), Normal))] /\
  (* the second thread is kept out while the first is between its read and its write *)
  play [0; 0; 1] (lstart (map links_of [exT1; exT2])) = None.
Proof.
  set (o1 := repeat 0 16 ++ repeat 1 16). set (o2 := repeat 1 16 ++ [0;0;0;0] ++ repeat 0 12).
  destruct (play o1 (lstart (map links_of [exT1; exT2]))) as [s1|] eqn:E1; [|vm_compute in E1; discriminate]. destruct (play o2 (lstart (map links_of [exT1; exT2]))) as [s2|] eqn:E2; [|vm_compute in E2; discriminate].
  pose proof (play_runs _ _ _ _ _ (lruns_0 _) E1) as R1. pose proof (play_runs _ _ _ _ _ (lruns_0 _) E2) as R2. exists s1, s2. split; [exact R1|].
  cbv in E1. injection E1 as <-. split; [intros t [<-|[<-|[]]]; reflexivity|]. split; [exact R2|]. cbv in E2. injection E2 as <-. split; [intros t [<-|[<-|[]]]; reflexivity|].
  repeat split; reflexivity.
Qed.
