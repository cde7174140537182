(** The demo that moves particles in time steps.
    Models demo/stepping/stepping.cc without its command line, its output and the measurement of
    time, in exact arithmetic.  The evaluation of the accelerations is a parameter; what it does
    with Barnes-Hut and LaplaceCOMAcc is C90. *)
From Coq Require Import Reals ZArith List Permutation.
From Verif Require Import LapModel.
Import ListNotations.
Open Scope R_scope.

Definition vec : Type := (R * R * R)%type.
(** stepping.cc:34-40 *)
Record particle := mkParticle { position : pt; mass : R; velocity : vec; acceleration : vec; number : Z }.

(** A call of rand, over RAND_MAX *)
Definition unit_of (rand_max x : Z) : R := IZR x / IZR rand_max.
(** stepping.cc:159-169; [a], [b], [c] are what three calls of rand return *)
Definition pick_sphere_position (rand_max a b c : Z) : pt :=
  let r := unit_of rand_max a in
  let ctheta := 2 * unit_of rand_max b - 1 in
  let stheta := sqrt (1 - ctheta * ctheta) in
  let phi := 2 * (31415926535 / 10000000000) * unit_of rand_max c in
  mkPt (r * stheta * cos phi) (r * stheta * sin phi) (r * ctheta).
(** stepping.cc:172-175 *)
Definition pick_mass (rand_max a : Z) : R := unit_of rand_max a + 1.
(** stepping.cc:178-193: the particles from number [i] on and what is added to m_tot *)
Fixpoint set_sources (rand_max : Z) (rand : nat -> Z) (i count : nat) : list particle * R :=
  match count with
  | O => ([], 0)
  | S n =>
      let p := pick_sphere_position rand_max (rand (4 * i)%nat) (rand (4 * i + 1)%nat) (rand (4 * i + 2)%nat) in
      let m := pick_mass rand_max (rand (4 * i + 3)%nat) in
      let '(l, tot) := set_sources rand_max rand (i + 1)%nat n in
      (mkParticle p m (0, 0, 0) (0, 0, 0) (Z.of_nat i) :: l, m + tot)
  end.
(** stepping.cc:267 *)
Definition time_step (m_tot : R) : R := sqrt (1 / m_tot) / 200.

(** stepping.cc:233-235, one axis *)
Definition move (x v a dt : R) : R := x + (v * dt - 1 / 2 * a * dt * dt).
Definition speed_up (v a dt : R) : R := v - a * dt.
Definition update_particle (dt : R) (p : particle) : particle :=
  let '(vx, vy, vz) := velocity p in let '(ax, ay, az) := acceleration p in
  mkParticle (mkPt (move (px (position p)) vx ax dt) (move (py (position p)) vy ay dt) (move (pz (position p)) vz az dt)) (mass p)
    (speed_up vx ax dt, speed_up vy ay dt, speed_up vz az dt) (acceleration p) (number p).
(** stepping.cc:221-239, called by forEach once for every record (C25) *)
Definition update_particles (dt : R) (l : list particle) : list particle := map (update_particle dt) l.

(** stepping.cc:278-297: the particles after so many steps *)
Inductive stepping (evaluate : list particle -> list particle -> Prop) (dt : R) : nat -> list particle -> list particle -> Prop :=
| no_step : forall l, stepping evaluate dt 0 l l
| one_more : forall n l l' l'', stepping evaluate dt n l l' -> evaluate l' l'' -> stepping evaluate dt (S n) l (update_particles dt l'').

(** What an evaluation leaves: the records of the leaves in turn, every record with the
    acceleration that its leaf holds for it (targetlco.h:176-222). *)
Fixpoint with_accelerations (l : list particle) (a : list vec) : list particle :=
  match l, a with
  | p :: l', v :: a' => mkParticle (position p) (mass p) (velocity p) v (number p) :: with_accelerations l' a'
  | _, _ => l
  end.
