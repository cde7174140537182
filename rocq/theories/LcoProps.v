(** C100: the life of a DAG. *)
From Coq Require Import ZArith List Bool Arith Lia Permutation.
From Verif Require Import Base ListFacts TreeModel TreeFacts LookupModel DagModel DagSpec DagProofs DagExec MethodModel MethodProps DistroModel DistroSpec DistroProofs DistroRun DistroProps LcoModel LcoSpec LcoProofs.
Import ListNotations.
Open Scope nat_scope.

(** A DAG that some schedule of a built-in method's tasks has built on usable trees. *)
Definition has_built {A B} (m : method A B) (unif fuel : nat) (same : bool) (S : tree A) (T : tree B) (d : dag) : Prop :=
  builtin fuel m /\ usable unif fuel S T /\ exists ss tt l, create_dag m unif same fuel S T = Ok (ss, tt) /\ schedule (ss ++ tt) l /\ run (map snd l) = Ok d.

(** On every rank, for every choice of localities and in every order, one LCO each for exactly the
    expansions and target leaves of that rank. *)
Theorem C100_created : forall A B (m : method A B) unif fuel same S T d loc rank, has_built m unif fuel same S T d ->
  exists sw tw, create_S (has d) loc rank fuel ([], S) = Ok sw /\ create_T (has d) loc rank fuel ([], T) = Ok tw /\
    forall order, Permutation order (sw ++ tw) -> one_each (keeps d loc rank) (fold_left make order pool0).
Proof.
  intros A B m unif fuel same S T d loc rank (Hm & Hus & ss & tt & l & Hc & Sc & R). destruct (created m unif fuel same S T ss tt d Hm Hus Hc (ex_intro _ l (conj Sc R)) loc rank) as (sw & tw & Es & Et & N & I).
  exists sw, tw. split; [assumption|]. split; [assumption|]. intros order P. apply (inv_ext (fun y => False \/ In y order)); [|apply (makes_ok order (fun _ => False)); [apply pool0_ok|eapply Permutation_NoDup; [symmetry; exact P|assumption]|tauto]].
  intros x. rewrite <- I. split; [intros [[]|J]; eapply Permutation_in; eassumption|]. intros J. right. eapply Permutation_in; [symmetry; exact P|assumption].
Qed.
Print Assumptions C100_created.

(** Destroying them, in any order, meets only nodes with an LCO, destroys none twice and leaves none. *)
Theorem C100_destroyed : forall A B (m : method A B) unif fuel same S T d loc rank, has_built m unif fuel same S T d ->
  exists sw tw s t, create_S (has d) loc rank fuel ([], S) = Ok sw /\ create_T (has d) loc rank fuel ([], T) = Ok tw /\
    collect (has d) SrcTree fuel ([], S) = Ok s /\ collect (has d) TgtTree fuel ([], T) = Ok t /\
    forall order order', Permutation order (sw ++ tw) -> Permutation order' (to_kill (vectors_of s t)) ->
      exists p, foldM (kill loc rank) order' (fold_left make order pool0) = Ok p /\ alive p = [].
Proof.
  intros A B m unif fuel same S T d loc rank (Hm & Hus & ss & tt & l & Hc & Sc & R). destruct (created m unif fuel same S T ss tt d Hm Hus Hc (ex_intro _ l (conj Sc R)) loc rank) as (sw & tw & Es & Et & N & I).
  destruct (vectors_ok m unif fuel same S T ss tt d Hm Hus Hc (ex_intro _ l (conj Sc R))) as (s & t & Cs & Ct & _ & _ & Nk & Ik).
  exists sw, tw, s, t. split; [assumption|]. split; [assumption|]. split; [assumption|]. split; [assumption|]. intros order order' P P'.
  assert (H : inv (fun y => False \/ In y order) (fold_left make order pool0)) by (apply makes_ok; [apply pool0_ok|eapply Permutation_NoDup; [symmetry; exact P|assumption]|tauto]).
  destruct (kills_ok loc rank order' _ _ H) as (p & E & H').
  - eapply Permutation_NoDup; [symmetry; exact P'|assumption].
  - intros x J Ex. right. eapply Permutation_in; [symmetry; exact P|]. apply I. apply (Permutation_in _ P') in J. apply Ik in J. unfold keeps. tauto.
  - exists p. split; [exact E|]. destruct H' as ((_ & _ & H3 & _) & _). destruct (alive p) as [|i r]; [reflexivity|]. exfalso. destruct (H3 i (or_introl eq_refl)) as (x & ([[]|J] & Nx) & _). apply Nx. apply (Permutation_in _ P) in J. apply I in J. destruct J as (J1 & J2 & J3). split; [assumption|]. eapply Permutation_in; [symmetry; exact P'|]. apply Ik. auto.
Qed.
Print Assumptions C100_destroyed.

(** The destructor of the DAG deletes every node that was made once, and no other pointer. *)
Theorem C100_deleted : forall A B (m : method A B) unif fuel same S T d, has_built m unif fuel same S T d ->
  exists s t, collect (has d) SrcTree fuel ([], S) = Ok s /\ collect (has d) TgtTree fuel ([], T) = Ok t /\ foldM delete_node (to_delete (vectors_of s t)) (dnodes d) = Ok [].
Proof.
  intros A B m unif fuel same S T d (Hm & Hus & ss & tt & l & Hc & Sc & R). destruct (vectors_ok m unif fuel same S T ss tt d Hm Hus Hc (ex_intro _ l (conj Sc R))) as (s & t & Cs & Ct & Nd & Id & _).
  exists s, t. split; [assumption|]. split; [assumption|]. destruct (deletes_ok _ (dnodes d) Nd) as (N' & E & H); [intros x; apply Id|]. rewrite E. destruct N' as [|x N']; [reflexivity|]. exfalso. destruct (proj1 (H x) (or_introl eq_refl)) as [H1 H2]. apply H2. apply Id. assumption.
Qed.
Print Assumptions C100_deleted.

(** "A tree can be used for another DAG when the first one has been destroyed": it cannot; with every
    method and in every order the second creation stops at a failing assertion. *)
Theorem C100_another_refuted : forall A B (m : method A B) unif fuel same S T d ss tt l, has_built m unif fuel same S T d ->
  create_dag m unif same fuel S T = Ok (ss, tt) -> schedule (ss ++ tt) l -> run_again d (map snd l) = Fail AssertFail.
Proof.
  intros A B m unif fuel same S T d ss tt l (Hm & Hus & ss' & tt' & l' & Hc & Sc & R) Hc' Sc'. rewrite Hc in Hc'. injection Hc' as <- <-. exact (again_fails m unif fuel same S T ss' tt' d Hm Hus Hc (ex_intro _ l' (conj Sc R)) l Sc').
Qed.
Print Assumptions C100_another_refuted.

(** Whatever happens to an ExpansionLCO, as long as it is only reset and destroyed when its action has
    ended: no error; at most one expansion at a time; none left at the end, none deleted twice. *)
Theorem C100_expansions : forall ins outs es r, play ins outs true (cell0 ins) es = Some r ->
  exists c, r = Ok c /\ NoDup (freed c) /\ made c <= S (length (freed c)) /\ (gone c = true -> all_freed c).
Proof.
  intros ins outs es r P. destruct (play_ok ins outs es _ _ (cinv0 ins) P) as (c & -> & N & Le & Hg & _). exists c. split; [reflexivity|]. split; [assumption|]. split; [assumption|]. intros G. split; [assumption|]. apply (Hg G).
Qed.
Print Assumptions C100_expansions.

(** Any number of evaluations, with a reset between two, is such a history.  An LCO with out edges
    uses a new expansion in each, one without keeps the first one, and with it the old value. *)
Theorem C100_evaluations : forall ins outs n, 0 < ins ->
  exists c, play ins outs true (cell0 ins) (life ins outs n) = Some (Ok c) /\ gone c = true /\ all_freed c /\ made c = if outs =? 0 then 1 else S n.
Proof.
  intros ins outs n Hi.
  assert (G : exists c, play ins outs true (cell0 ins) (life ins outs n) = Some (Ok c) /\ gone c = true /\ made c = if outs =? 0 then 1 else S n).
  { unfold life. destruct outs as [|o].
    - destruct (life_in ins n [Destroy] Hi) as (c & -> & M & G & A & O & F). cbn [play allowed]. rewrite G, A. cbn [negb andb step]. rewrite G. unfold drop. rewrite O, F. cbn. eexists. split; [reflexivity|]. auto.
    - destruct (life_out ins (S o) n 0 [] Waiting [Destroy]) as (c & E & M & G & A & O); [assumption|lia|intros i []|]. unfold cell0. rewrite E. cbn [play allowed]. rewrite G, A. cbn [negb andb step]. rewrite G. unfold drop. rewrite O. cbn [bind]. eexists. split; [reflexivity|]. cbn. auto. }
  destruct G as (c & E & G & M). exists c. split; [assumption|]. split; [assumption|]. split; [|assumption]. destruct (C100_expansions _ _ _ _ E) as (c' & Q & _ & _ & H). injection Q as <-. auto.
Qed.
Print Assumptions C100_evaluations.

(** Whatever happened before, the action runs only when as many contributions as there are in
    edges have come since the last reset. *)
Theorem C100_complete : forall ins outs settled es c, play ins outs settled (cell0 ins) (es ++ [Work]) = Some (Ok c) -> arrived es = ins.
Proof. intros ins outs settled es c P. eapply (play_arrived ins outs settled es (cell0 ins) 0); [apply Nat.add_0_r|discriminate|exact P]. Qed.
Print Assumptions C100_complete.

(** "Destroying when all contributions have been made is safe": the action deletes its expansion
    after its last contribution, and nobody waits for that. *)
Theorem C100_at_once_refuted : forall ins outs, 0 < ins -> 0 < outs -> play ins outs false (cell0 ins) (repeat Set_ ins ++ [Work; Destroy; Free]) = Some (Fail BadOp).
Proof. apply race. Qed.
Print Assumptions C100_at_once_refuted.

(** The advanced FMM on two trees of 4 levels, 28 nodes, two ranks: both keep LCOs. *)
Definition ex_loc (x : dnode) : Z := match snd (fst x) with 0 :: _ => 0%Z | _ => 1%Z end.
Definition ex_pool (rank : Z) : option (nat * nat * bool) :=
  match create_S (has ex_dag) ex_loc rank 4 ([], exS), create_T (has ex_dag) ex_loc rank 4 ([], exT), collect (has ex_dag) SrcTree 4 ([], exS), collect (has ex_dag) TgtTree 4 ([], exT) with
  | Ok sw, Ok tw, Ok s, Ok t =>
    let p := fold_left make (sw ++ tw) pool0 in
    match foldM (kill ex_loc rank) (to_kill (vectors_of s t)) p with Ok p' => Some (total p, length (alive p), match alive p' with [] => true | _ => false end) | Fail _ => None end
  | _, _, _, _ => None
  end.
Example C100_nonvacuous : has_built (fmm97 4) 1 4 true exS exT ex_dag /\ length (dnodes ex_dag) = 28 /\ ex_pool 0 = Some (18, 18, true) /\ ex_pool 1 = Some (5, 5, true) /\
  exists c, play 3 2 true (cell0 3) (life 3 2 4) = Some (Ok c) /\ freed c = [4; 3; 2; 1; 0].
Proof.
  split; [split; [constructor|split; [apply ex_usable|apply ex_built]]|]. split; [vm_compute; reflexivity|]. split; [vm_compute; reflexivity|]. split; [vm_compute; reflexivity|]. eexists. vm_compute. split; reflexivity.
Qed.
Example C100_complete_nonvacuous : exists c, play 3 2 true (cell0 3) ([Set_; Reset; Set_; Set_; Set_] ++ [Work]) = Some (Ok c) /\ at_stage c = Sent.
Proof. eexists. vm_compute. split; reflexivity. Qed.
