(** Potentials and fields of charges at targets, and what an evaluation writes to them. *)
From Coq Require Import Reals ZArith List.
From Verif Require Import Base IndexModel LookupModel TreeModel DagModel DagSpec EdgeGroupSpec LinkSpec EvalModel EvalSpec LapModel LapSpec TranSpec PotModel PotSpec.
Import ListNotations.
Open Scope R_scope.

(** The charges that are not at the place of the target. *)
Definition others (t : pt) (l : list charge) : list charge := filter (fun s => if pt_dec (cpos s) t then false else true) l.
(** The field of charges at a target: every charge times the distance vector over its cube. *)
Definition pull_along (c : pt -> R) (l : list charge) (t : pt) : R :=
  fold_right (fun s v => cq s * ((c t - c (cpos s)) / dist t (cpos s) ^ 3) + v) 0 l.
Definition field (l : list charge) (t : pt) : R * R * R :=
  (pull_along px (others t l) t, pull_along py (others t l) t, pull_along pz (others t l) t).
Definition dist3 (u v : R * R * R) : R :=
  let '(a, b, c) := u in let '(d, e, f) := v in sqrt ((a - d) ^ 2 + (b - e) ^ 2 + (c - f) ^ 2).

(** As [PotSpec.delivers_in]: once every rank has been told that all is done, whatever the
    schedule, the targets of every final box have gained values that are right by [right]. *)
Definition writes_in {M G} (zero : M) (add : M -> M -> M) (vals : list G -> M) (op_val : edge -> M -> M) (sources : dnode -> M) (targets : path -> list pt) (ts : list task) (right : pt -> G -> Prop) : Prop :=
  forall loc num_ranks inc outs,
  (forall v, In v (all_adds ts) -> (0 <= loc v < num_ranks)%Z) -> (forall v, inc v = length (into v (all_edges ts))) ->
  (forall v, sort_outcome (fun e => loc (eto e)) (out_of v (all_edges ts)) (outs v)) ->
  forall s0 s, idle s0 -> clean outs s0 ->
  evaluates zero add op_val sources loc num_ranks inc outs (filter is_source (all_adds ts)) (filter (fun v => negb (is_source v)) (all_adds ts)) s0 s ->
  (forall r, (0 <= r < num_ranks)%Z -> remaining s r = 0%Z) ->
  forall q, stops ts q -> exists vs, tval s ((TgtTree, q), Parts) = add (tval s0 ((TgtTree, q), Parts)) (vals vs) /\ Forall2 right (targets q) vs.
