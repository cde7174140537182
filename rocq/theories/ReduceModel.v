(** Reduction operators used for counts and return codes. *)
From Coq Require Import ZArith List Bool.
From Verif Require Import Base ArrayRefModel.
Import ListNotations.
Open Scope Z_scope.

Definition int_min : Z := - 2 ^ 31.
Definition int_max : Z := 2 ^ 31 - 1.

(** Apply an element operation to two arrays of the same [count]; reading past
    the end of [rhs] is out of bounds. *)
Fixpoint zip_res (f : Z -> Z -> res Z) (lhs rhs : list Z) : res (list Z) :=
  match lhs, rhs with
  | [], _ => Ok []
  | _ :: _, [] => Fail Oob
  | a :: l, b :: r => do c <- f a b; do cs <- zip_res f l r; Ok (c :: cs)
  end.

(** reductionops.cc:27-32; [count] is the array length. *)
Definition int_sum_ident (count : nat) : list Z := repeat 0 count.
(** reductionops.cc:37-42; signed overflow is undefined behaviour. *)
Definition int_add (a b : Z) : res Z :=
  if (int_min <=? a + b) && (a + b <=? int_max) then Ok (a + b) else Fail Overflow.
Definition int_sum_op (lhs rhs : list Z) : res (list Z) := zip_res int_add lhs rhs.

(** reductionops.cc:47-52, 57-62; unsigned, wraps.  The loop counter is an
    [int], fine below 2^31 elements. *)
Definition size_sum_ident (count : nat) : list Z := repeat 0 count.
Definition size_sum_op (lhs rhs : list Z) : res (list Z) := zip_res (fun a b => Ok (u64 (a + b))) lhs rhs.

(** reductionops.cc:66-71, 75-80 *)
Definition int_max_ident (count : nat) : list Z := repeat int_min count.
Definition int_max_op (lhs rhs : list Z) : res (list Z) := zip_res (fun a b => Ok (Z.max a b)) lhs rhs.

(** How the runtime may combine contributions: any binary tree over the
    contributions, with identities mixed in anywhere. *)
Inductive rtree :=
| RLeaf (v : list Z)
| RIdent
| RNode (l r : rtree).

Fixpoint reduce (op : list Z -> list Z -> res (list Z)) (ident : list Z) (t : rtree) : res (list Z) :=
  match t with
  | RLeaf v => Ok v
  | RIdent => Ok ident
  | RNode l r => do a <- reduce op ident l; do b <- reduce op ident r; op a b
  end.
