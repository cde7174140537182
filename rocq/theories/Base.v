(** Shared vocabulary: outcomes of modelled code, and list helpers. *)
From Coq Require Import ZArith List Bool Lia.
Import ListNotations.

(** Outcome of a piece of modelled C++.  [Fail] covers everything the C++
    standard calls undefined behaviour, a failing [assert], and an exception;
    the tag only documents which.  Nothing is ever totalised to a default
    value instead. *)
Inductive err : Type :=
| Oob          (* access outside an object *)
| AssertFail   (* assert(...) evaluated to false *)
| NullDeref    (* null pointer dereferenced *)
| BadOp        (* switch reached a case the code declares illegal *)
| DivZero      (* division by zero, or NaN/inf converted to an integer *)
| Overflow     (* signed integer overflow *)
| OutOfFuel.   (* model only: the loop did not finish within the fuel *)

Inductive res (A : Type) : Type :=
| Ok (a : A)
| Fail (e : err).
Arguments Ok {A} a.
Arguments Fail {A} e.

Definition bind {A B} (x : res A) (f : A -> res B) : res B :=
  match x with Ok a => f a | Fail e => Fail e end.

Notation "'do' x <- a ; b" := (bind a (fun x => b))
  (at level 200, x pattern, a at level 100, b at level 200).

(** [assert(b)], live in every build type of the project. *)
Definition assert_ (b : bool) : res unit := if b then Ok tt else Fail AssertFail.

(** Fold with failure, for loops whose body can fail. *)
Fixpoint foldM {A S} (f : S -> A -> res S) (l : list A) (s : S) : res S :=
  match l with
  | [] => Ok s
  | a :: l' => do s' <- f s a; foldM f l' s'
  end.

(** Map with failure, left to right. *)
Fixpoint mapM {A B} (f : A -> res B) (l : list A) : res (list B) :=
  match l with
  | [] => Ok []
  | a :: l' => do b <- f a; do bs <- mapM f l'; Ok (b :: bs)
  end.

(** Array access: [nth_res l i] is [l[i]], failing outside [0, length l). *)
Definition nth_res {A} (l : list A) (i : nat) : res A :=
  match nth_error l i with Some a => Ok a | None => Fail Oob end.

(** Array store [l[i] := v], failing outside the array. *)
Fixpoint set_res {A} (l : list A) (i : nat) (v : A) : res (list A) :=
  match l, i with
  | [], _ => Fail Oob
  | _ :: l', O => Ok (v :: l')
  | a :: l', S i' => do r <- set_res l' i' v; Ok (a :: r)
  end.

(** The same with the integer subscripts C++ uses. *)
Definition nth_resZ {A} (l : list A) (i : Z) : res A :=
  if (i <? 0)%Z then Fail Oob else nth_res l (Z.to_nat i).

Definition set_resZ {A} (l : list A) (i : Z) (v : A) : res (list A) :=
  if (i <? 0)%Z then Fail Oob else set_res l (Z.to_nat i) v.

(** [zseq a n] is [a; a+1; ...; a+n-1]. *)
Definition zseq (a : Z) (n : nat) : list Z :=
  map (fun k => (a + Z.of_nat k)%Z) (seq 0 n).
