(** C53: what the tasks of the tree build use is not freed too early -- except for messages
    without points; C54: the tree build comes to an end, and what it leaves behind. *)
From Coq Require Import List Bool Arith Lia.
From Verif Require Import Base ListFacts LifeModel LifeSpec LifeProofs.
Import ListNotations.
Open Scope nat_scope.

(** In every schedule, the only tasks that can use something freed are the sending and the
    receiving of a message without points: [dual_tree_complete] gets no input too many and
    none after it was deleted, no completion gate is used after or deleted twice, no node is
    used after the trees were destroyed, and no rank's points or counts are read after they
    were freed if that rank had points to send. *)
Theorem C53_only_empty_messages : forall c s e x, proper c -> reachable c s -> step c e s = Some (Fail x) ->
  exists r r', r < ranks c /\ r' < ranks c /\ r <> r' /\ ~ has_points_for c r r' /\
    ((e = SendPoints r r' /\ at_ s r = Done) \/ (e = RecvPoints r r' /\ destroyed s = true)).
Proof.
  intros c s e x P [m H] F. pose proof (only_late c P e s x (inv_runs c P m s H) F) as L.
  destruct e; cbn in L; try contradiction; destruct L as (A & B & C & D & E); exists r, r'; repeat (split; [assumption|]); auto.
Qed.
Print Assumptions C53_only_empty_messages.

(** So if every rank has points for every other rank nothing fails. *)
Theorem C53_safe : forall c s e x, proper c -> (forall r r', r < ranks c -> r' < ranks c -> r <> r' -> has_points_for c r r') ->
  reachable c s -> step c e s <> Some (Fail x).
Proof.
  intros c s e x P A R F. destruct (C53_only_empty_messages c s e x P R F) as (r & r' & Hr & Hr' & Hne & NP & _). apply NP, A; assumption.
Qed.
Print Assumptions C53_safe.

(** Nothing waits for the task [send_points_] of a pair without points: whenever rank [r] has
    no points for rank [r'], some schedule frees the counts of [r] before the task reads
    them, and some schedule destroys the tree of [r'] before [recv_points_] reads it. *)
Theorem C53_freed_before_use_refuted : forall c r r', proper c -> r < ranks c -> r' < ranks c -> r <> r' -> ~ has_points_for c r r' ->
  (exists s, reachable c s /\ at_ s r = Done /\ step c (SendPoints r r') s = Some (Fail NullDeref)) /\
  (exists s, reachable c s /\ destroyed s = true /\ step c (RecvPoints r r') s = Some (Fail NullDeref)).
Proof.
  intros c r r' P Hr Hr' Hne NP. destruct (reach_pending c P r r' Hr Hr' Hne NP (mu c (start c)) 0 (start c)) as (m & s & R & W & M); [lia|constructor|reflexivity|].
  split.
  - destruct (run_without c P r r' Hr Hr' Hne NP (mu c s) m s) as (m' & s' & R' & D & M'); [lia|assumption|congruence|].
    exists s'. pose proof (v_destr c s' (inv_runs c P m' s' R') D r Hr) as E. split; [exists m'; assumption|]. split; [assumption|]. unfold step. rewrite M', M, E. reflexivity.
  - assert (ND : destroyed s = false). { destruct (destroyed s) eqn:E; [|reflexivity]. rewrite (v_destr c s (inv_runs c P m s R) E r Hr) in W. discriminate. }
    assert (S : exists s1, step c (SendPoints r r') s = Some (Ok s1) /\ mails s1 r r' = MFlying).
    { eexists. unfold step. rewrite M, W, ND. cbn [finished orb]. split; [reflexivity|]. apply set2_eq. }
    destruct S as (s1 & S & M1).
    destruct (run_without c P r r' Hr Hr' Hne NP (mu c s1) (Datatypes.S m) s1) as (m' & s' & R' & D & M'); [lia|apply (runs_snoc c _ _ _ _ _ R S)|congruence|].
    exists s'. split; [exists m'; assumption|]. split; [assumption|]. unfold step. rewrite M', M1, D. reflexivity.
Qed.
Print Assumptions C53_freed_before_use_refuted.

(** No schedule gets stuck before all ranks have finished the build and the trees are
    destroyed, and every schedule is finite. *)
Theorem C54_completes : forall c, proper c ->
  (exists bound, forall m s, runs c m (start c) s -> m <= bound) /\
  forall s, reachable c s -> (forall e, step c e s = None) ->
    destroyed s = true /\ (forall r, r < ranks c -> at_ s r = Done) /\
    (forall r r', r < ranks c -> r' < ranks c -> r <> r' -> mails s r r' = MDone).
Proof.
  intros c P. split.
  - exists (mu c (start c)). intros m s H. pose proof (runs_bound c P m s H). lia.
  - intros s [m H] Stop. destruct (stuck_end c P s (inv_runs c P m s H) Stop) as (A & B & C & _). auto.
Qed.
Print Assumptions C54_completes.

(** A rank finishes the build only after every cell with points, of either tree, holds the
    points of all ranks, is partitioned and has been sent to all ranks. *)
Theorem C54_not_early : forall c s r k, proper c -> reachable c s -> r < ranks c -> at_ s r = Done -> k < 2 * dim3 c -> ~ empty_cell c k ->
  cells s k = CSent /\ arrived s k = list_sum (map (fun q => cnt c q k) (seq 0 (ranks c))) /\
  (r <> owner c k -> newsof s k r = NNoted \/ newsof s k r = NDeleted).
Proof.
  intros c s r k P [m H] Hr Hd Hk He. pose proof (inv_runs c P m s H) as I.
  assert (Ht : total c k <> 0). { intros E. apply He. intros q Hq. rewrite (total_sumn c k) in E. exact (sumn_zero _ _ E q Hq). }
  assert (S : cells s k = CSent) by (apply (done_sent c s r I Hr Hd k Hk Ht)). split; [assumption|]. split.
  - change (arrived s k = total c k). destruct (v_cell c s I k ltac:(congruence)) as (_ & _ & X). pose proof (arrived_le c s k I Hk). lia.
  - intros Ho. pose proof (done_signalled c s r I Hr Hd k Hk) as X. unfold signalled in X. destruct (Nat.eqb_spec (total c k) 0); [contradiction|]. cbn [orb] in X.
    destruct (Nat.eqb_spec (home c k) r) as [E|]; [exfalso; apply Ho; rewrite <- E; reflexivity|]. destruct (newsof s k r); try discriminate; auto.
Qed.
Print Assumptions C54_not_early.

(** What waits for what: no rank merges its points before every rank has counted its own, no
    points from elsewhere are merged before the rank has merged its own, and with S == T no
    target cell is partitioned before its source cell. *)
Theorem C54_order : forall c s, reachable c s ->
  (forall r q, r < ranks c -> q < ranks c -> (at_ s r = Inited \/ at_ s r = Waiting \/ at_ s r = Done) -> at_ s q <> Begin) /\
  (forall r r', mails s r r' = MDone -> at_ s r' = Inited \/ at_ s r' = Waiting \/ at_ s r' = Done) /\
  (same c = true -> forall i, i < dim3 c -> cells s (dim3 c + i) <> CWait -> cells s i <> CWait).
Proof.
  intros c s [m H]. destruct (ordered_runs c m s H) as [A B C]. split; [|split; [|exact C]].
  - intros r q Hr Hq I. apply (A r Hr); [destruct I as [->|[->| ->]]; reflexivity|assumption].
  - intros r r' M. pose proof (B r r' M) as I. destruct (at_ s r'); try discriminate; auto.
Qed.
Print Assumptions C54_order.

(** At the end exactly the completion gates of the empty cells on the ranks that do not own
    them are left over. *)
Theorem C54_leak_refuted : forall c s, proper c -> reachable c s -> (forall e, step c e s = None) ->
  forall r k, r < ranks c -> k < 2 * dim3 c -> (gone s r k = false <-> r <> owner c k /\ empty_cell c k).
Proof.
  intros c s P [m H] Stop r k Hr Hk. destruct (stuck_end c P s (inv_runs c P m s H) Stop) as (_ & _ & _ & G). rewrite (G r k Hr Hk).
  change (home c k) with (owner c k). rewrite (total_sumn c k). split; intros [A B]; (split; [congruence|]).
  - intros q Hq. exact (sumn_zero _ _ B q Hq).
  - apply sumn_all_zero. exact B.
Qed.
Print Assumptions C54_leak_refuted.

(** Two ranks, two cells.  Rank 0 has sources in both cells and a target in cell 1; rank 1
    has a source and a target in its own cell 1 only, so nothing for rank 0.  Target cell 0
    is empty. *)
Definition sample : config :=
  {| ranks := 2; dim3 := 2; rank_map := fun i => i; same := false;
     cnt := fun r k => match r, k with 0, 0 => 2 | 0, 1 => 1 | 0, 3 => 1 | 1, 1 => 3 | 1, 3 => 1 | _, _ => 0 end |}.
Fixpoint exec (c : config) (l : list event) (s : state) : option (res state) :=
  match l with
  | [] => Some (Ok s)
  | e :: l' => match step c e s with Some (Ok s') => exec c l' s' | o => o end
  end.
Definition common : list event :=
  [Count 0; Count 1; Init 1; Init 0; Complete 0; Spawn 0; SendPoints 0 1; RecvPoints 0 1; Complete 3; SendNode 0; Spawn 1; Complete 1; SendNode 3;
   RecvNode 0 1; Note 0 1; SendNode 1; RecvNode 3 0; RecvNode 1 0; Note 1 0; Note 3 0; DeleteGate 3 0; Free 1; Free 0; DeleteGate 0 1; DeleteGate 1 0].

Example C53_nonvacuous :
  proper sample /\ ~ has_points_for sample 1 0 /\ has_points_for sample 0 1 /\
  exec sample (common ++ [SendPoints 1 0]) (start sample) = Some (Fail NullDeref) /\
  exec sample ([Count 0; Count 1; Init 1; Spawn 1; SendPoints 1 0; Init 0; Complete 0; Spawn 0; SendPoints 0 1; RecvPoints 0 1; Complete 3; SendNode 0; Complete 1; SendNode 3;
   RecvNode 0 1; Note 0 1; SendNode 1; RecvNode 3 0; RecvNode 1 0; Note 1 0; Note 3 0; Free 1; Free 0; Destroy; RecvPoints 1 0]) (start sample) = Some (Fail NullDeref).
Proof.
  split; [|split; [|split; [|split]]].
  - split; [cbn; lia|]. split; [cbn; auto|discriminate].
  - intros (i & Hi & Hm & Hc). cbn in Hi, Hm, Hc. subst i. cbn in Hc. lia.
  - exists 1. cbn. lia.
  - vm_compute. reflexivity.
  - vm_compute. reflexivity.
Qed.

(** A whole run: the empty message first, then everything else.  The gate of the empty target
    cell 0 on rank 1 is left. *)
Example C54_nonvacuous :
  match exec sample ([Count 0; Count 1; Init 0; Init 1; Spawn 1; SendPoints 1 0; RecvPoints 1 0; Complete 0; Spawn 0; SendPoints 0 1; RecvPoints 0 1; Complete 3; SendNode 0; Complete 1; SendNode 3;
   RecvNode 0 1; Note 0 1; SendNode 1; RecvNode 3 0; RecvNode 1 0; Note 1 0; Note 3 0; DeleteGate 3 0; Free 1; Free 0; DeleteGate 0 1; DeleteGate 1 0; Destroy]) (start sample) with
  | Some (Ok s) => destroyed s = true /\ map (gone s 0) (seq 0 4) = [true; true; true; true] /\ map (gone s 1) (seq 0 4) = [true; true; false; true] /\
                   map (arrived s) (seq 0 4) = [2; 4; 0; 2]
  | _ => False
  end.
Proof. vm_compute. repeat split. Qed.
