(** What window queries, coverage and segments mean. *)
From Coq Require Import ZArith List Bool Sorting.Sorted.
From Verif Require Import Base TraceModel.
Import ListNotations.
Open Scope Z_scope.

(** The positions a..b of a list. *)
Definition slice_of {A} (l : list A) (a b : nat) : list A := firstn (b - a) (skipn a l).

(** Events of one type start and end in turn, in time order; [b] says whether the worker
    is inside a segment at the beginning. *)
Fixpoint alternate (b : bool) (l : list event) : Prop :=
  match l with
  | [] => True
  | e :: l' => estart e = negb b /\ eend e = b /\ alternate (negb b) l'
  end.
Definition of_type (ty : Z) (l : list event) : list event := filter (fun e => sty e =? ty) l.
(** Inside a segment at time [t]: the last event up to [t] is a start. *)
Definition busy (b : bool) (l : list event) (t : Z) : bool :=
  fold_left (fun x e => if stamp e <=? t then estart e else x) l b.
Definition busy_time (b : bool) (l : list event) (start end_ : Z) : Z :=
  Z.of_nat (length (filter (busy b l) (zseq start (Z.to_nat (end_ - start))))).
(** An end is followed by a start strictly later. *)
Definition separated (l : list event) : Prop :=
  forall k e f, nth_error l k = Some e -> nth_error l (S k) = Some f -> estart f = true -> stamp e < stamp f.

(** The number of earlier events of the same type. *)
Definition earlier (evs : list event) (j : nat) (ty : Z) : nat := length (of_type ty (firstn j evs)).
(** Event [j] is a start where one is due, or an end where one is due. *)
Definition in_turn (evs : list event) (j : nat) : Prop :=
  forall e, nth_error evs j = Some e -> sty e <> 0 ->
  if Nat.even (earlier evs j (sty e)) then estart e = true else eend e = true.
Definition closes (evs : list event) (j : nat) : Prop :=
  exists e, nth_error evs j = Some e /\ sty e <> 0 /\ Nat.odd (earlier evs j (sty e)) = true.
(** [i] is the event of the same type just before [j]. *)
Definition just_before (evs : list event) (i j : nat) (ty : Z) : Prop :=
  (i < j)%nat /\ (exists e, nth_error evs i = Some e /\ sty e = ty) /\
  forall k e, (i < k < j)%nat -> nth_error evs k = Some e -> sty e <> ty.

(** Any calls of one collator: event, id, locality and worker of each; refused
    events are passed over. *)
Definition feed (calls : list (event * Z * Z * Z)) : collator :=
  fold_left (fun c k => let '(e, eid, loc, w) := k in snd (collate c e eid loc w)) calls new_collator.
(** Segment [g] is made of an earlier start and a later end of one type, locality and worker. *)
Definition made_of (calls : list (event * Z * Z * Z)) (g : segment) : Prop :=
  exists i j ei ej a b loc w, (i < j)%nat /\ nth_error calls i = Some (ei, a, loc, w) /\ nth_error calls j = Some (ej, b, loc, w) /\
    sty ei = sty ej /\ estart ei = true /\ eend ej = true /\ g = mkSeg (sty ei) a b loc w (stamp ei) (stamp ej) true true.
