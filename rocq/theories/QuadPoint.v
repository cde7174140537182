(** The sum of the waves at one point, and at points on either side of the axis. *)
From Coq Require Import Reals ZArith List Lia Lra Psatz Bool.
From Coquelicot Require Import Coquelicot.
From Verif Require Import QuadBall QuadFun QuadCell QuadGrid QuadTab QuadRun.
Import ListNotations.
Open Scope R_scope.

Lemma waves1_even ts x y z : waves1 ts z x y = waves1 ts z (Rabs x) (Rabs y).
Proof.
  assert (A : forall l v, cos (l * v) = cos (l * Rabs v)).
  { intros l v. unfold Rabs. destruct (Rcase_abs v); [|reflexivity]. rewrite <- cos_neg. f_equal. ring. }
  unfold waves1. induction ts as [|t ts IH]; [reflexivity|]. cbn [fold_right]. rewrite IH. unfold wave1. rewrite (A (r_a t) x), (A (r_b t) y). reflexivity.
Qed.
Theorem near3_sides x y z : Rabs x <= 4 -> Rabs y <= 4 -> 1 <= z <= 4 -> Rabs (waves1 terms3 z x y - / sqrt (x ^ 2 + y ^ 2 + z ^ 2)) <= 1 / 100.
Proof.
  intros Hx Hy Hz. rewrite waves1_even. replace (x ^ 2) with (Rabs x ^ 2) by apply pow2_abs. replace (y ^ 2) with (Rabs y ^ 2) by apply pow2_abs.
  apply all_near3; [split; [apply Rabs_pos|exact Hx]|split; [apply Rabs_pos|exact Hy]|exact Hz].
Qed.

(** At one point of the grid *)
Definition bpoint (nx ny nz : Z) (Ts : list btab) : ball :=
  fold_right (fun T v => badd (bmul (bmul (tb_w T) (nth (Z.to_nat nz) (tb_e T) b0)) (bmul (fst (nth (Z.to_nat nx) (tb_ra T) (b0, b0))) (fst (nth (Z.to_nat ny) (tb_rb T) (b0, b0))))) v) (bofZ 0) Ts.
Lemma bpoint_ok nx ny nz Ts ts : List.Forall2 tab_ok Ts ts -> (0 <= nx <= 64)%Z -> (0 <= ny <= 64)%Z -> (0 <= nz <= 64)%Z -> within (bpoint nx ny nz Ts) (waves1 ts (g nz) (g nx) (g ny)).
Proof.
  intros F Hx Hy Hz. induction F as [|T t Ts ts H1 H2 IH]; [apply bofZ_ok|]. cbn [bpoint waves1 fold_right]. apply badd_ok; [|exact IH].
  destruct H1 as (_ & _ & Hw & _ & _ & H). pose proof (H nx Hx) as (_ & A & _). pose proof (H ny Hy) as (_ & _ & _ & B & _). pose proof (H nz Hz) as (E & _).
  unfold wave1. replace (r_w t * exp (- (r_l t * g nz)) * cos (r_a t * g nx) * cos (r_b t * g ny)) with (r_w t * exp (- (r_l t * g nz)) * (cos (r_a t * g nx) * cos (r_b t * g ny))) by ring.
  apply bmul_ok; apply bmul_ok; assumption.
Qed.
(** The error at (0, 27/8, 1) *)
Theorem far3 : waves1 terms3 1 0 (27 / 8) - / sqrt (0 ^ 2 + (27 / 8) ^ 2 + 1 ^ 2) > 1 / 200.
Proof.
  pose proof (bpoint_ok 0 54 16 tabs3 terms3 tabs3_ok ltac:(lia) ltac:(lia) ltac:(lia)) as W. apply within_int in W.
  assert (V : (mid (bpoint 0 54 16 tabs3) - rad (bpoint 0 54 16 tabs3) >= 77700000)%Z) by (vm_compute; discriminate).
  replace (g 0) with 0 in W by (unfold g; field). replace (g 54) with (27 / 8) in W by (unfold g; field). replace (g 16) with 1 in W by (unfold g; field).
  apply Z.ge_le, IZR_le in V. rewrite minus_IZR in V. unfold SC in W.
  assert (S : 3.52 <= sqrt (0 ^ 2 + (27 / 8) ^ 2 + 1 ^ 2)) by (rewrite <- (sqrt_square 3.52) by lra; apply sqrt_le_1_alt; lra).
  assert (/ sqrt (0 ^ 2 + (27 / 8) ^ 2 + 1 ^ 2) <= / 3.52) by (apply Rinv_le_contravar; lra). lra.
Qed.
