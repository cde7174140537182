(** Splitting the output edges of a DAG node by the locality of their target. *)
From Coq Require Import ZArith List Bool.
From Verif Require Import Base.
Import ListNotations.
Open Scope Z_scope.

(** What one loop iteration does with a run of edges. *)
Inductive action (A : Type) : Type :=
| Work (edges : list A)                   (* handled directly *)
| Send (rank : Z) (edges : list A).       (* one message to [rank] *)
Arguments Work {A} edges.
Arguments Send {A} rank edges.

(** expansionlco.h:431-435, dualtree.h:1552-1557: inner [while], the run of
    edges at the front with locality [rank], and the rest. *)
Fixpoint run_of {A} (loc : A -> Z) (rank : Z) (l : list A) : list A * list A :=
  match l with
  | e :: l' => if loc e =? rank then let '(r, rest) := run_of loc rank l' in (e :: r, rest) else ([], l)
  | [] => ([], [])
  end.

(** expansionlco.h:426-462, dualtree.h:1549-1591: outer [while (begin != end)]. *)
Fixpoint group_loop {A} (fuel : nat) (loc : A -> Z) (my_rank : Z) (l : list A) : res (list (action A)) :=
  match l with
  | [] => Ok []
  | e :: _ =>
      match fuel with
      | O => Fail OutOfFuel
      | S fuel' =>
          let curr_rank := loc e in
          let '(run, rest) := run_of loc curr_rank l in
          do acts <- group_loop fuel' loc my_rank rest;
          Ok ((if curr_rank =? my_rank then Work run else Send curr_rank run) :: acts)
      end
  end.

(** expansionlco.h:381-475 after [std::sort]: on one rank all edges are handled
    directly (lines 404-411), otherwise by runs.  dualtree.h:1506-1597 has no
    such shortcut, see [instigate_split]. *)
Definition out_edges_split {A} (loc : A -> Z) (num_ranks my_rank : Z) (sorted : list A) : res (list (action A)) :=
  if num_ranks =? 1 then Ok [Work sorted]
  else group_loop (length sorted) loc my_rank sorted.

(** dualtree.h:1546-1592 after [std::sort]. *)
Definition instigate_split {A} (loc : A -> Z) (my_rank : Z) (sorted : list A) : res (list (action A)) :=
  group_loop (length sorted) loc my_rank sorted.
