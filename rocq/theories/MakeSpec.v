(** What the reference data of the tests have to be.  Of the code only the options and the
    records appear here. *)
From Coq Require Import Ascii String.
From Coq Require Import ZArith Reals List Bool.
From Verif Require Import Base BasicModel MakeModel.
Import ListNotations.
Open Scope R_scope.

(** A sequence of numbers rand() can return. *)
Definition sequence (rand : nat -> Z) : Prop := forall i, (0 <= rand i <= 2147483647)%Z.

(** The two distributions that are offered (makepoints.cc:62) and where their points are. *)
Inductive shape := Cube | Sphere.
Definition shape_name (s : shape) : string := match s with Cube => "cube" | Sphere => "sphere" end.
Definition inside (s : shape) (p : point) : Prop :=
  let '(x, y, z) := p in
  match s with
  | Cube => -1 <= 2 * x <= 1 /\ -1 <= 2 * y <= 1 /\ -1 <= 2 * z <= 1
  | Sphere => x ^ 2 + y ^ 2 + z ^ 2 = 1
  end.
(** Two points fit into a cube of this size. *)
Definition within (size : R) (p q : point) : Prop :=
  let '(x, y, z) := p in let '(u, v, w) := q in Rabs (x - u) <= size /\ Rabs (y - v) <= size /\ Rabs (z - w) <= size.
Definition side (s : shape) : R := match s with Cube => 1 | Sphere => 2 end.
(** Charges of absolute value between 1 and 2, all positive if there is one sign only. *)
Definition charge_ok (single : bool) (q : R) : Prop := 1 <= q <= 2 \/ (single = false /\ -2 <= q <= -1).

(** The numbers a position and a charge take, and the position made of the numbers from [i] on. *)
Definition numbers (s : shape) : nat := match s with Cube => 3 | Sphere => 2 end.
Definition signs (single : bool) : nat := if single then 1 else 2.
Definition unit_of (rand : nat -> Z) (i : nat) : R := IZR (rand i) / 2147483647.
Definition position_from (rand : nat -> Z) (s : shape) (i : nat) (p : point) : Prop :=
  let '(x, y, z) := p in
  match s with
  | Cube => x + 1 / 2 = unit_of rand i /\ y + 1 / 2 = unit_of rand (i + 1) /\ z + 1 / 2 = unit_of rand (i + 2)
  | Sphere =>
      z = 2 * unit_of rand i - 1 /\ x ^ 2 + y ^ 2 = 1 - z ^ 2 /\
      exists w, 0 <= w /\ x = w * cos (2 * decimal_pi * unit_of rand (i + 1)) /\ y = w * sin (2 * decimal_pi * unit_of rand (i + 1))
  end.

(** The last value of an option, if it was given. *)
Fixpoint last_data (d : string) (l : list opt) : string :=
  match l with [] => d | OData s :: l => last_data s l | _ :: l => last_data d l end.
Fixpoint last_kernel (d : string) (l : list opt) : string :=
  match l with [] => d | OKernel s :: l => last_kernel s l | _ :: l => last_kernel d l end.
Fixpoint last_single (d : bool) (l : list opt) : bool :=
  match l with [] => d | OSingle s :: l => last_single (if string_dec s "yes" then true else false) l | _ :: l => last_single d l end.
