(** What a simulation in time steps does to its particles. *)
From Coq Require Import Reals ZArith List Permutation.
From Verif Require Import LapModel FieldRunSpec StepModel.
Import ListNotations.
Open Scope R_scope.

Inductive along := X | Y | Z'.
Definition comp (c : along) (v : vec) : R := let '(x, y, z) := v in match c with X => x | Y => y | Z' => z end.
Definition coor (c : along) (p : pt) : R := match c with X => px p | Y => py p | Z' => pz p end.

Definition charges (l : list particle) : list charge := map (fun p => mkCharge (mass p) (position p)) l.
(** One particle after an evaluation: all is as it was but its acceleration, which has gained
    [f]. *)
Definition gains (f : vec) (p p' : particle) : Prop :=
  position p' = position p /\ mass p' = mass p /\ velocity p' = velocity p /\ number p' = number p /\
  forall c, comp c (acceleration p') = comp c (acceleration p) + comp c f.
(** All particles after an evaluation, in any order: each has gained the field of the others up
    to [eps]. *)
Definition evaluated (eps : R) (l l' : list particle) : Prop :=
  exists r, Permutation r l' /\ Forall2 (fun p p' => exists f, gains f p p' /\ dist3 f (field (charges l) (position p)) <= eps) l r.

(** [g 0 + ... + g (n - 1)] *)
Fixpoint sum_to (g : nat -> R) (n : nat) : R := match n with O => 0 | S k => sum_to g k + g k end.
(** A particle that gains [f j] in step [j] and keeps it *)
Definition driven (dt : R) (f : nat -> vec) (n : nat) (p p' : particle) : Prop :=
  mass p' = mass p /\ number p' = number p /\ forall c,
  comp c (acceleration p') = comp c (acceleration p) + sum_to (fun j => comp c (f j)) n /\
  comp c (velocity p') = comp c (velocity p) - dt * (INR n * comp c (acceleration p) + sum_to (fun j => (INR n - INR j) * comp c (f j)) n) /\
  coor c (position p') = coor c (position p) + INR n * dt * comp c (velocity p)
    - dt ^ 2 * (INR n ^ 2 / 2 * comp c (acceleration p) + sum_to (fun j => (INR n - INR j) ^ 2 / 2 * comp c (f j)) n).
(** A particle that is pulled by [f j] in step [j] only *)
Definition pulled (dt : R) (f : nat -> vec) (n : nat) (p p' : particle) : Prop :=
  forall c, comp c (velocity p') = comp c (velocity p) - dt * sum_to (fun j => comp c (f j)) n.

Definition tally {A} (f : A -> R) (l : list A) : R := fold_right (fun x v => f x + v) 0 l.
Definition momentum (c : along) (l : list particle) : R := tally (fun p => mass p * comp c (velocity p)) l.
Definition total_mass (l : list particle) : R := tally mass l.
