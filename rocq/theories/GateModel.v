(** Completion detection of a branch: the partition tasks and their gates. *)
From Coq Require Import ZArith List Bool Arith.
From Verif Require Import Base TreeModel.
Import ListNotations.
Open Scope nat_scope.

(** A node of the branch under one uniform cell: the child slots followed, innermost
    first; [[]] is the uniform cell. *)
Definition path := list nat.
Definition path_dec : forall p q : path, {p = q} + {p <> q} := list_eq_dec Nat.eq_dec.

(** Pending actions.  [tree bool] is the branch the points force (RefineModel); the flag
    says that the node has at most [threshold] points. *)
Inductive act :=
| Run (p : path) (t : tree bool)                      (* partition_node_ spawned, not begun *)
| Loop (p : path) (w : nat) (todo : list (option (tree bool)))  (* in its loop over the children *)
| SetN (p : path) (n : nat)                           (* hpx_lco_and_set(_num) in flight to the gate of [p] *)
| Signal (c : path)                                   (* hpx_lco_set_action at the gate of the parent of [c] *)
| Delete (c : path)                                   (* its continuation hpx_lco_delete_action *)
| WaitRoot                                            (* sendNode has not yet attached to the gate *)
| Send.                                               (* send_node_ released *)

(** An and gate: inputs missing, the actions attached to it, and whether it was deleted. *)
Record gate := { left : nat; waiting : list act; gone : bool }.
Definition new_gate : gate := {| left := 8; waiting := []; gone := false |}.

(** [created], [fired] and [sent] are logs. *)
Record state := { acts : list act; gates : path -> option gate; created : list path; fired : list path; sent : nat }.

Definition push (l : list act) (s : state) : state :=
  {| acts := acts s ++ l; gates := gates s; created := created s; fired := fired s; sent := sent s |}.
Definition put (p : path) (g : gate) (s : state) : state :=
  {| acts := acts s; gates := fun q => if path_dec q p then Some g else gates s q; created := created s; fired := fired s; sent := sent s |}.
Definition note_fired (p : path) (s : state) : state :=
  {| acts := acts s; gates := gates s; created := created s; fired := fired s ++ [p]; sent := sent s |}.
Definition note_created (p : path) (s : state) : state :=
  {| acts := acts s; gates := gates s; created := created s ++ [p]; fired := fired s; sent := sent s |}.

(** HPX-5 and-gates.  Too many inputs and use after deletion are failures. *)
Definition gate_set (p : path) (n : nat) (s : state) : res state :=
  match gates s p with
  | None => Fail NullDeref
  | Some g =>
      if gone g then Fail BadOp
      else if left g <? n then Fail Overflow
      else if left g =? n then Ok (note_fired p (push (waiting g) (put p {| left := 0; waiting := []; gone := false |} s)))
      else Ok (put p {| left := left g - n; waiting := waiting g; gone := false |} s)
  end.
Definition gate_wait (p : path) (a : act) (s : state) : res state :=
  match gates s p with
  | None => Fail NullDeref
  | Some g =>
      if gone g then Fail BadOp
      else if left g =? 0 then Ok (push [a] s)
      else Ok (put p {| left := left g; waiting := waiting g ++ [a]; gone := false |} s)
  end.

(** node.h:454-459: only if there is a parent that has a gate.  The parent of a uniform
    cell has none (tree.h:599 gives gates to the uniform cells only). *)
Definition attach (p : path) (s : state) : res state :=
  match p with
  | [] => Ok s
  | _ :: q => match gates s q with None => Ok s | Some _ => gate_wait p (Signal p) s end
  end.

Definition exec (a : act) (s : state) : res state :=
  match a with
  | Run p t =>
      (* node.h:443-463, 515: the handler up to its loop over the children *)
      do s' <- attach p s;
      if info t then Ok (push [SetN p 8] s') else Ok (push [Loop p 0 (kids t)] s')
  | Loop p w [] => Ok s
  (* node.h:529-531 *)
  | Loop p w (None :: todo) => Ok (push [SetN p 1; Loop p (S w) todo] s)
  (* node.h:524-528; the node constructor makes the gate (node.h:102) *)
  | Loop p w (Some c :: todo) =>
      Ok (push [Run (w :: p) c; Loop p (S w) todo] (note_created (w :: p) (put (w :: p) new_gate s)))
  | SetN p n => gate_set p n s
  | Signal [] => Fail NullDeref
  | Signal (w :: q) => do s' <- gate_set q 1 s; Ok (push [Delete (w :: q)] s')
  | Delete c =>
      match gates s c with
      | None => Fail NullDeref
      | Some g => if gone g then Fail BadOp else Ok (put c {| left := left g; waiting := waiting g; gone := true |} s)
      end
  (* tree.h:191-195 *)
  | WaitRoot => gate_wait [] Send s
  | Send => Ok {| acts := acts s; gates := gates s; created := created s; fired := fired s; sent := S (sent s) |}
  end.

(** The uniform cell exists with its gate, its partition task is spawned. *)
Definition start (t : tree bool) : state :=
  {| acts := [Run [] t; WaitRoot]; gates := fun q => if path_dec q [] then Some new_gate else None;
     created := [[]]; fired := []; sent := 0 |}.

Definition take (s : state) (l : list act) : state :=
  {| acts := l; gates := gates s; created := created s; fired := fired s; sent := sent s |}.

(** Any pending action may be next. *)
Inductive gstep : state -> state -> Prop :=
| gstep_do : forall s s' l1 a l2, acts s = l1 ++ a :: l2 -> exec a (take s (l1 ++ l2)) = Ok s' -> gstep s s'.

Inductive gruns : nat -> state -> state -> Prop :=
| gruns_0 : forall s, gruns 0 s s
| gruns_S : forall n s s' s'', gruns n s s' -> gstep s' s'' -> gruns (S n) s s''.
