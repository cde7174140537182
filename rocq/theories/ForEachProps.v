(** C25: forEach applies the action to each record exactly once. *)
From Coq Require Import List Arith Bool Lia Permutation.
From Verif Require Import Base ListFacts ForEachModel ForEachSpec ForEachProofs.
Import ListNotations.

Lemma sizes_ok : forall total threads factor, 0 < threads ->
  exists chunk n, foreach_sizes total threads factor = Ok (chunk, n) /\ 0 < chunk /\ n = nleaves chunk total.
Proof.
  intros total threads factor Ht. unfold foreach_sizes.
  set (over := if factor =? 0 then 1 else if threads =? 1 then 1 else threads * factor).
  assert (0 < over). { unfold over. destruct (Nat.eqb_spec factor 0), (Nat.eqb_spec threads 1); lia. }
  destruct (Nat.eqb_spec over 0); [lia|]. destruct (Nat.eqb_spec (total / over) 0).
  - exists 1, total. repeat split; [lia|]. unfold nleaves. rewrite Nat.div_1_r. lia.
  - eexists _, _. split; [reflexivity|]. split; [lia|]. apply ceil_spec. lia.
Qed.

(** For every record count, thread count and factor, in every state reachable
    by running pending tasks in any order: no task fails; the leaf calls so far
    touch disjoint records inside the segment; the gate has been set at most
    [n_chunks] times, and exactly [n_chunks] times precisely when no task is
    left, at which point every record has been handled exactly once. *)
Theorem C25_foreach_any_schedule : forall total threads factor, 0 < threads ->
  exists chunk n_chunks, foreach_sizes total threads factor = Ok (chunk, n_chunks) /\
  forall s, fruns chunk (foreach_init total) s ->
    (pending s <> [] -> exists s', fstep chunk s s') /\
    (forall t, In t (pending s) -> exists r, spawn_handler chunk t = Ok r) /\
    NoDup (concat (map records (calls s))) /\
    incl (concat (map records (calls s))) (seq 0 total) /\
    sets s = length (calls s) /\ sets s <= n_chunks /\
    (sets s = n_chunks <-> pending s = []) /\
    (pending s = [] -> each_once (calls s) total).
Proof.
  intros total threads factor Ht. destruct (sizes_ok total threads factor Ht) as (chunk & n & E & Hc & Hn).
  exists chunk, n. split; [assumption|]. intros s Hs. pose proof (fruns_inv chunk total s Hc Hs) as I.
  pose proof I as (P & Q & R & T & L). pose proof (pending_le_leaves chunk _ Hc P).
  split; [apply (finv_progress chunk total); assumption|].
  split. { intros [d m] Ht'. rewrite Forall_forall in P. destruct (handler_facts chunk d m Hc (P _ Ht')) as (sp & lf & HH & _). eauto. }
  split. { apply (NoDup_app_l _ _ (concat (map records (pending s)))). eapply Permutation_NoDup; [symmetry; exact R|apply seq_NoDup]. }
  split. { intros x Hx. eapply Permutation_in; [exact R|]. apply in_or_app. left. assumption. }
  split; [assumption|]. split; [lia|]. split.
  - split; intros X.
    + destruct (pending s); [reflexivity|]. cbn [length] in *. lia.
    + rewrite X in T. change (total_leaves chunk []) with 0 in T. lia.
  - intros X. rewrite X in R. cbn in R. rewrite app_nil_r in R. exact R.
Qed.
Print Assumptions C25_foreach_any_schedule.

(** Every execution terminates. *)
Theorem C25_foreach_terminates : forall total threads factor chunk n, 0 < threads ->
  foreach_sizes total threads factor = Ok (chunk, n) ->
  exists m : fstate -> nat, forall s s', fruns chunk (foreach_init total) s -> fstep chunk s s' -> m s' < m s.
Proof.
  intros total threads factor chunk n Ht E. destruct (sizes_ok total threads factor Ht) as (chunk' & n' & E' & Hc & Hn).
  rewrite E in E'. inversion E'; subst. exists (measure chunk'). intros s s' Hs Hst.
  apply (fstep_measure chunk' total s s' Hc); [apply fruns_inv; assumption|assumption].
Qed.
Print Assumptions C25_foreach_terminates.

(** Two schedules of 5 records on 2 threads; both make three leaf calls. *)
Example C25_nonvacuous : foreach_sizes 5 2 1 = Ok (2, 3) /\
  fruns 2 (foreach_init 5) {| pending := []; calls := [(4,1); (2,2); (0,2)]; sets := 3 |} /\
  fruns 2 (foreach_init 5) {| pending := []; calls := [(0,2); (2,2); (4,1)]; sets := 3 |}.
Proof.
  split; [reflexivity|]. split.
  - eapply fruns_step; [eapply fruns_step; [eapply fruns_step; [eapply fruns_step; [eapply fruns_step; [apply fruns_refl|]|]|]|]|].
    + exact (fstep_run 2 [] (0,5) [] [] 0 [(0,2);(2,3)] None eq_refl).
    + exact (fstep_run 2 [] (0,2) [(2,3)] [] 0 [] (Some (0,2)) eq_refl).
    + exact (fstep_run 2 [] (2,3) [] [(0,2)] 1 [(2,2);(4,1)] None eq_refl).
    + exact (fstep_run 2 [] (2,2) [(4,1)] [(0,2)] 1 [] (Some (2,2)) eq_refl).
    + exact (fstep_run 2 [] (4,1) [] [(2,2);(0,2)] 2 [] (Some (4,1)) eq_refl).
  - eapply fruns_step; [eapply fruns_step; [eapply fruns_step; [eapply fruns_step; [eapply fruns_step; [apply fruns_refl|]|]|]|]|].
    + exact (fstep_run 2 [] (0,5) [] [] 0 [(0,2);(2,3)] None eq_refl).
    + exact (fstep_run 2 [(0,2)] (2,3) [] [] 0 [(2,2);(4,1)] None eq_refl).
    + exact (fstep_run 2 [(0,2);(2,2)] (4,1) [] [] 0 [] (Some (4,1)) eq_refl).
    + exact (fstep_run 2 [(0,2)] (2,2) [] [(4,1)] 1 [] (Some (2,2)) eq_refl).
    + exact (fstep_run 2 [] (0,2) [] [(2,2);(4,1)] 2 [] (Some (0,2)) eq_refl).
Qed.
