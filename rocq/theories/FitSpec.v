(** Which expansion can do what, and what a tidy heap is. *)
From Coq Require Import ZArith List Bool Arith Permutation.
From Verif Require Import Base IndexModel TreeModel LookupModel GeomModel DagModel MethodModel DagSpec FitModel.
Import ListNotations.

(** The operations an expansion has no result for. *)
Definition lacks (x : expansion) (o : operation) : Prop :=
  match x with
  | Laplace => False
  | Yukawa | Helmholtz => o = MtoL
  | LaplaceCOM | LaplaceCOMAcc => In o [StoL; MtoL; LtoL; MtoI; ItoI; ItoL]
  | User => In o [MtoI; ItoI; ItoL]
  end.

(** The events serve edges of the DAG only; they serve each of them. *)
Definition of_dag (ts : list task) (evs : list event) : Prop := forall e, In (Serve e) evs -> In e (all_edges ts).
Definition whole_dag (ts : list task) (evs : list event) : Prop := forall e, In e (all_edges ts) -> In (Serve e) evs.

(** The blocks in use, each counted once, are those of the views of the LCOs' expansions. *)
Definition tidy (st : state) : Prop :=
  NoDup (live (mem st)) /\ Permutation (map Block (live (mem st))) (flat_map (fun q => map snd (snd q)) (held st)).
(** Deleting the expansions deletes each block once and leaves none. *)
Definition all_given_back (st : state) : Prop := exists h, finish st = Ok h /\ live h = [].

(** The methods that use only operations the expansion has. *)
Inductive fits {A B} (fuel : nat) : expansion -> method A B -> Prop :=
| Fit_direct : forall x, fits fuel x (direct fuel)
| Fit_bh : forall x accept, fits fuel x (bh accept fuel)
| Fit_fmm : forall x, x = Laplace \/ x = User -> fits fuel x (fmm fuel)
| Fit_fmm97 : forall x, x = Laplace \/ x = Yukawa \/ x = Helmholtz -> fits fuel x (fmm97 fuel).

(** The nodes whose LCO has an expansion, or will have one when the messages have arrived. *)
Definition reached_lcos (st : state) : list dnode := map fst (held st) ++ map fst (flying st).
(** The edges whose operation makes an expansion. *)
Definition makes (e : edge) : Prop := ~ In (eop e) [StoT; MtoT; LtoT].
