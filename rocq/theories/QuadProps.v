(** C83: how accurate the quadrature of the table of three digits is, before the waves within
    the boxes are cut off. *)
From Coq Require Import Reals ZArith List Lra.
From Coquelicot Require Import Coquelicot.
From Verif Require Import LapModel WaveModel WaveSpec QuadCell QuadTab QuadSum QuadPoint.
Open Scope R_scope.

(** laplace_table.cc:40-65, for all displacements that the lists of boxes allow: boxes of side
    one, the middles of which are two or three apart along the way and at most three across. *)
Theorem C83_quadrature x y z : Rabs x <= 4 -> Rabs y <= 4 -> 1 <= z <= 4 ->
  Rabs (quadrature case_3 (fun k a => cexp (exponent (len case_3 k) (mkPt x y z) a)) - / sqrt (x ^ 2 + y ^ 2 + z ^ 2)) <= 1 / 100.
Proof. intros Hx Hy Hz. rewrite quad3_waves. apply near3_sides; assumption. Qed.
Print Assumptions C83_quadrature.

(** Not three digits everywhere: at (0, 27/8, 1) it is more than 1/200 too large. *)
Theorem C83_three_digits_refuted : exists x y z, Rabs x <= 4 /\ Rabs y <= 4 /\ 1 <= z <= 4 /\
  quadrature case_3 (fun k a => cexp (exponent (len case_3 k) (mkPt x y z) a)) - / sqrt (x ^ 2 + y ^ 2 + z ^ 2) > 1 / 200.
Proof.
  exists 0, (27 / 8), 1. rewrite (Rabs_right 0), (Rabs_right (27 / 8)) by lra. rewrite quad3_waves. split; [lra|]. split; [lra|]. split; [lra|]. exact far3.
Qed.
Print Assumptions C83_three_digits_refuted.

(** Two boxes that are two apart along the way, three to one side and one to the other *)
Example C83_nonvacuous : Rabs (quadrature case_3 (fun k a => cexp (exponent (len case_3 k) (mkPt (-7 / 2) 1 (3 / 2)) a)) - / sqrt ((-7 / 2) ^ 2 + 1 ^ 2 + (3 / 2) ^ 2)) <= 1 / 100.
Proof. apply C83_quadrature; try lra; unfold Rabs; destruct (Rcase_abs _); lra. Qed.
