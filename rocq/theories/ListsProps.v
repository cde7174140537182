(** The interaction lists of the multipole methods. *)
From Coq Require Import ZArith List Bool Arith Lia.
From Verif Require Import Base TreeModel TreeFacts RefineModel LookupModel GeomModel DagModel MethodModel DagSpec MethodProps ListsSpec ListsProofs ListsCount.
Import ListNotations.
Open Scope nat_scope.

(** C57: the DAG of the FMM method has exactly the edges of the interaction lists, each once. *)
Theorem C57_fmm_lists : forall A B (S : tree A) (T : tree B) fuel unif same, usable unif fuel S T ->
  exists ss tt, create_dag (@fmm A B fuel) unif same fuel S T = Ok (ss, tt) /\ NoDup (all_edges (ss ++ tt)) /\
    forall e, In e (all_edges (ss ++ tt)) <-> fmm_edge unif same S T e.
Proof. intros A B S T fuel unif same (a & b & c & d & e & f). apply fmm_edges; assumption. Qed.
Print Assumptions C57_fmm_lists.

(** C57: the same for FMM97, whose V list goes through intermediate expansions. *)
Theorem C57_fmm97_lists : forall A B (S : tree A) (T : tree B) fuel unif same, usable unif fuel S T ->
  exists ss tt, create_dag (@fmm97 A B fuel) unif same fuel S T = Ok (ss, tt) /\ NoDup (all_edges (ss ++ tt)) /\
    forall e, In e (all_edges (ss ++ tt)) <-> fmm97_edge unif same S T e.
Proof. intros A B S T fuel unif same (a & b & c & d & e & f). apply fmm97_edges; assumption. Qed.
Print Assumptions C57_fmm97_lists.

(** C57: no box takes more than 189 multipole expansions into its local expansion, none gives
    its own to more than 189, and none gathers more than 8 in its multipole expansion. *)
Theorem C57_fmm_bounds : forall A B (S : tree A) (T : tree B) fuel unif same, usable unif fuel S T ->
  exists ss tt, create_dag (@fmm A B fuel) unif same fuel S T = Ok (ss, tt) /\
    forall x, into (ss ++ tt) MtoL x <= 189 /\ out_of (ss ++ tt) MtoL x <= 189 /\ into (ss ++ tt) MtoM x <= 8.
Proof. intros A B S T fuel unif same (a & b & c & d & e & f). apply fmm_bounds; assumption. Qed.
Print Assumptions C57_fmm_bounds.

(** C57: with intermediate expansions one set is sent to at most 26 boxes and each takes at most 208. *)
Theorem C57_fmm97_bounds : forall A B (S : tree A) (T : tree B) fuel unif same, usable unif fuel S T ->
  exists ss tt, create_dag (@fmm97 A B fuel) unif same fuel S T = Ok (ss, tt) /\
    forall x, into (ss ++ tt) ItoI x <= 208 /\ out_of (ss ++ tt) ItoI x <= 26 /\ into (ss ++ tt) MtoM x <= 8.
Proof. intros A B S T fuel unif same (a & b & c & d & e & f). apply fmm97_bounds; assumption. Qed.
Print Assumptions C57_fmm97_bounds.

(** Every edge kind occurs in small trees of uneven depth. *)
Example C57_nonvacuous : usable 1 4 exS exT /\
  forallb (fun o => has_op o (create_dag (fmm 4) 1 true 4 exS exT)) [StoM; MtoM; MtoL; LtoL; LtoT; StoL; MtoT; StoT] = true /\
  forallb (fun o => has_op o (create_dag (fmm97 4) 1 true 4 exS exT)) [StoM; MtoM; MtoI; ItoI; ItoL; LtoL; LtoT; StoL; MtoT; StoT] = true.
Proof. split; [exact ex_usable|split; vm_compute; reflexivity]. Qed.

(** The bounds are reached: all boxes of the first levels. *)
Fixpoint full (n : nat) : tree nat :=
  match n with 0 => leaf8 1 | Datatypes.S n => put 0 (map (fun k => (k, full n)) (seq 0 8)) end.
Definition count_of (f : list task -> nat) (r : res (list task * list task)) : nat := match r with Ok (ss, ts) => f (ss ++ ts) | Fail _ => 0 end.
Example C57_bounds_reached : usable 1 5 (full 3) (full 3) /\
  count_of (fun ts => into ts MtoL ((TgtTree, [0; 7; 7]), Normal)) (create_dag (fmm 5) 1 true 5 (full 3) (full 3)) = 189 /\
  count_of (fun ts => out_of ts MtoL ((SrcTree, [0; 7; 7]), Normal)) (create_dag (fmm 5) 1 true 5 (full 3) (full 3)) = 189 /\
  count_of (fun ts => into ts ItoI ((TgtTree, [0; 7]), Interm)) (create_dag (fmm97 5) 1 true 5 (full 3) (full 3)) = 208 /\
  count_of (fun ts => out_of ts ItoI ((SrcTree, [0; 7; 7]), Interm)) (create_dag (fmm97 5) 1 true 5 (full 3) (full 3)) = 26.
Proof. split; [apply usable_ok; vm_compute; reflexivity|]. repeat split; vm_compute; reflexivity. Qed.
