(** What the Array operations should do. *)
From Coq Require Import ZArith List Permutation.
From Verif Require Import Base ArrayModel.
Import ListNotations.
Open Scope nat_scope.

(** Ranks contributing to a reduction, and what makes it a complete one. *)
Fixpoint oleaves (t : otree) : list nat :=
  match t with OLeaf r => [r] | OIdent => [] | ONode a b => oleaves a ++ oleaves b end.
Definition all_ranks (n : nat) (t : otree) : Prop := Permutation (oleaves t) (seq 0 n).

(** Total number of records asked for. *)
Definition wanted {A} (args : list (arg A)) : nat := list_sum (map a_count args).

(** The metadata describes a segment of that many records. *)
Definition segment_is {A} (m : meta A) (d : list A) : Prop :=
  m_local m = length d /\ (m_data m = Some d \/ (m_data m = None /\ d = [])).

(** [d] with records [first .. first + length v - 1] replaced by [v]. *)
Definition replaced {A} (d d' v : list A) (first : nat) : Prop :=
  length d' = length d /\
  forall i, nth_error d' i = if andb (Nat.leb first i) (Nat.ltb i (first + length v)) then nth_error v (i - first) else nth_error d i.

(** The contract of serializer.h, for records of positive serialized size. *)
Definition serializer_contract {A} (m : manager A) : Prop :=
  forall a, length (s_ser m a) = s_size m a /\ 0 < s_size m a /\ forall rest, s_de m (s_ser m a ++ rest) = Some (a, s_size m a).
