(** What C100 says, without the model's traversals. *)
From Coq Require Import ZArith List Bool Arith.
From Verif Require Import Base TreeModel DagModel LcoModel.
Import ListNotations.
Open Scope nat_scope.

(** The nodes of the DAG a rank keeps an LCO for: those it is to evaluate, without the sources. *)
Definition keeps (d : dag) (loc : dnode -> Z) (rank : Z) (x : dnode) : Prop :=
  In x (dnodes d) /\ loc x = rank /\ ~ (fst (fst x) = SrcTree /\ snd x = Parts).
(** Every node of [P] has an LCO of its own and there are no others. *)
Definition one_each (P : dnode -> Prop) (s : pool) : Prop :=
  (forall x, P x -> exists i, addx s x = Some i /\ In i (alive s)) /\
  (forall x y i, P x -> P y -> addx s x = Some i -> addx s y = Some i -> x = y) /\
  (forall i, In i (alive s) -> exists x, P x /\ addx s x = Some i) /\ NoDup (alive s).
(** None of the expansions made was deleted twice, and none is left. *)
Definition all_freed (c : cell) : Prop := NoDup (freed c) /\ forall i, In i (freed c) <-> i < made c.
(** One evaluation as an LCO with in and out edges sees it, or without out edges; and [n] more after it, and the end. *)
Definition round (ins outs : nat) : list event := repeat Set_ ins ++ (if outs =? 0 then [] else [Work; Free]).
Definition life (ins outs n : nat) : list event := round ins outs ++ concat (repeat (Reset :: round ins outs) n) ++ [Destroy].
(** The contributions that have come since the beginning or the last reset. *)
Definition arrived (es : list event) : nat := fold_left (fun n e => match e with Set_ => S n | Reset => 0 | _ => n end) es 0.
