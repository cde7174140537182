(** C18: completion of a branch. *)
From Coq Require Import ZArith List Bool Arith Lia Permutation.
From Verif Require Import Base ListFacts TreeModel TreeFacts GateModel GateSpec GateProofs.
Import ListNotations.
Open Scope nat_scope.

(** No action of any schedule fails: no gate gets more than eight inputs, none is used
    after it was deleted, none is deleted twice.  And no action is ever blocked. *)
Theorem C18_no_failure : forall t n s l1 a l2, branch t -> gruns n (start t) s -> acts s = l1 ++ a :: l2 ->
  exists s', exec a (take s (l1 ++ l2)) = Ok s'.
Proof.
  intros t n s l1 a l2 B H E. destruct (inv_exec t s l1 a l2 (inv_runs t n s B H) E) as (s' & X & _). eauto.
Qed.
Print Assumptions C18_no_failure.

(** A gate fires at most once, and not before every node below it has been made and
    partitioned and has itself fired.  The branch is sent at most once, and only after
    the gate of the uniform cell has fired. *)
Theorem C18_not_early : forall t n s, branch t -> gruns n (start t) s ->
  NoDup (fired s) /\
  (forall p q, In p (fired s) -> node_of t q -> below p q ->
     In q (created s) /\ In q (fired s) /\ forall a, In a (acts s) -> ~ partitioning q a) /\
  sent s <= 1 /\ (0 < sent s -> In [] (fired s)) /\ (In Send (acts s) -> In [] (fired s)).
Proof.
  intros t n s B H. pose proof (inv_runs t n s B H) as I. split; [apply (v_fnd _ _ I)|]. split; [|split; [|split]].
  - intros p q Hp Hq Hb. apply (v_fired _ _ I) in Hp. destruct Hp as [Hc Hl]. destruct (complete_all t s I p Hc Hl q Hq Hb) as (X & Y & Z).
    split; [assumption|]. split; [apply (v_fired _ _ I); auto|assumption].
  - pose proof (v_sd _ _ I). lia.
  - intros X. apply (v_fired _ _ I). split; [apply (v_root _ _ I)|apply (v_sent _ _ I); assumption].
  - intros X. apply (v_fired _ _ I). split; [apply (v_root _ _ I)|exact (v_acts _ _ I _ X)].
Qed.
Print Assumptions C18_not_early.

(** Every schedule is finite. *)
Theorem C18_finite : forall t n s, branch t -> gruns n (start t) s -> n <= tweight t + 2.
Proof.
  intros t n s B H. pose proof (runs_bounded t n s B H) as X. assert (E : tot weight (start t) = tweight t + 2).
  { unfold tot. cbn [start acts created map]. unfold waits. cbn [gates start]. destruct (path_dec [] []); [|congruence]. unfold sumf. cbn [waiting new_gate map weight list_sum fold_right]. lia. }
  lia.
Qed.
Print Assumptions C18_finite.

(** A schedule that cannot go on has made exactly the nodes of the branch, each gate has
    fired exactly once, the branch was sent exactly once, and all gates below the uniform
    cell are deleted. *)
Theorem C18_complete : forall t n s, branch t -> gruns n (start t) s -> (forall s', ~ gstep s s') ->
  NoDup (created s) /\ (forall q, In q (created s) <-> node_of t q) /\ Permutation (fired s) (created s) /\ sent s = 1 /\
  forall q, node_of t q -> q <> [] -> exists g, gates s q = Some g /\ gone g = true.
Proof.
  intros t n s B H Stop. pose proof (inv_runs t n s B H) as I.
  assert (F : acts s = []).
  { destruct (acts s) as [|a l] eqn:E; [reflexivity|]. exfalso. destruct (C18_no_failure t n s [] a l B H E) as [s' X]. apply (Stop s'). apply (gstep_do s s' [] a l E X). }
  destruct (final_all t s I F) as (X & Y & Z & W). split; [apply (v_nd _ _ I)|]. split; [assumption|]. split; [assumption|]. split; [assumption|].
  intros q Hq Hn. specialize (W q (proj2 (Y q) Hq) Hn). unfold goneof in W. destruct (gates s q) as [g|]; [|discriminate]. exists g. split; [reflexivity|]. destruct (gone g); [reflexivity|discriminate].
Qed.
Print Assumptions C18_complete.

(** The cell splits into children 2 and 5; child 5 into child 0. *)
Definition sample : tree bool :=
  let leaf := T true no_kids in
  T false [None; None; Some leaf; None; None; Some (T false [Some leaf; None; None; None; None; None; None; None]); None; None].

(** Run the newest (or oldest) pending action until none is left. *)
Fixpoint run_last (fuel : nat) (s : state) : res state :=
  match fuel, rev (acts s) with
  | S f, a :: l => do s' <- exec a (take s (rev l)); run_last f s'
  | _, _ => Ok s
  end.
Fixpoint run_first (fuel : nat) (s : state) : res state :=
  match fuel, acts s with
  | S f, a :: l => do s' <- exec a (take s l); run_first f s'
  | _, _ => Ok s
  end.

Example C18_nonvacuous :
  branch sample /\
  match run_last 100 (start sample), run_first 100 (start sample) with
  | Ok s1, Ok s2 => acts s1 = [] /\ acts s2 = [] /\ sent s1 = 1 /\ sent s2 = 1 /\
      fired s1 = [[0; 5]; [5]; [2]; []] /\ fired s2 = [[2]; [0; 5]; [5]; []] /\ created s1 = [[]; [2]; [5]; [0; 5]]
  | _, _ => False
  end.
Proof.
  split; [|vm_compute; repeat split].
  assert (Lf : forall p n, sub (T true no_kids) p = Some n -> n = T true no_kids).
  { intros [|x p] n H; cbn [sub] in H; [injection H as <-; reflexivity|]. rewrite kid_no_kids in H. discriminate. }
  assert (Bl : branch (T true no_kids)) by (intros p n H; apply Lf in H; subst; split; reflexivity).
  assert (Bm : branch (T false [Some (T true no_kids); None; None; None; None; None; None; None])).
  { intros [|x p] n H; cbn [sub] in H; [injection H as <-; split; [reflexivity|discriminate]|].
    destruct x as [|x]; [apply (Bl p n H)|]. do 8 (destruct x as [|x]; [discriminate|]). destruct x; discriminate. }
  intros [|x p] n H; cbn [sub] in H; [injection H as <-; split; [reflexivity|discriminate]|].
  do 2 (destruct x as [|x]; [discriminate|]). destruct x as [|x]; [apply (Bl p n H)|]. do 2 (destruct x as [|x]; [discriminate|]).
  destruct x as [|x]; [apply (Bm p n H)|]. do 3 (destruct x as [|x]; [discriminate|]). destruct x; discriminate.
Qed.
