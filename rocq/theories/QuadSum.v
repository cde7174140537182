(** The quadrature of the table of three digits is the sum of the waves that was checked. *)
From Coq Require Import Reals ZArith List Lia Lra Psatz Bool.
From Coquelicot Require Import Coquelicot.
From Verif Require Import LapModel WaveModel WaveSpec WaveAlg QuadBall QuadFun QuadCell QuadGrid QuadTab QuadRun.
Import ListNotations.
Open Scope R_scope.

Lemma rt_ext f h n : (forall k, (k < n)%nat -> f k = h k) -> rtotal f n = rtotal h n.
Proof. induction n as [|n IH]; intros H; [reflexivity|]. cbn [rtotal]. rewrite IH, H by (intros; try apply H; lia). reflexivity. Qed.
Lemma rt_split f a b : rtotal f (a + b) = rtotal f a + rtotal (fun j => f (a + j)%nat) b.
Proof. induction b as [|b IH]; [rewrite Nat.add_0_r; cbn; ring|]. rewrite Nat.add_succ_r. cbn [rtotal]. rewrite IH. ring. Qed.
Lemma rt_head f n : rtotal f (S n) = f 0%nat + rtotal (fun j => f (S j)) n.
Proof. change (S n) with (1 + n)%nat. rewrite (rt_split f 1 n). cbn [rtotal]. rewrite Rplus_0_l. reflexivity. Qed.
Lemma rt_rev f n : rtotal f n = rtotal (fun j => f (n - S j)%nat) n.
Proof.
  revert f. induction n as [|n IH]; intros f; [reflexivity|]. rewrite rt_head, (IH (fun j => f (S j))). cbn [rtotal]. replace (S n - S n)%nat with 0%nat by lia. rewrite Rplus_comm. f_equal. apply rt_ext. intros k Hk. f_equal. lia.
Qed.
Lemma rt_plus f h n : rtotal (fun j => f j + h j) n = rtotal f n + rtotal h n.
Proof. induction n as [|n IH]; [cbn; ring|]. cbn [rtotal]. rewrite IH. ring. Qed.
Lemma rt_scal c f n : rtotal (fun j => c * f j) n = c * rtotal f n.
Proof. induction n as [|n IH]; [cbn; ring|]. cbn [rtotal]. rewrite IH. ring. Qed.

Section Circle.
Variables (l x y : R) (m : nat).
Hypothesis Hm : (1 <= m)%nat.
Let al (j : nat) : R := 2 * PI * INR j / INR (4 * m).
Let G (j : nat) : R := cos (l * (x * cos (al j) + y * sin (al j))).
Let H (j : nat) : R := cos (l * cos (al j) * x) * cos (l * sin (al j) * y).
Lemma mR : 0 < INR m. Proof. apply lt_0_INR. lia. Qed.
Lemma al_pi j : (j <= 2 * m)%nat -> al (2 * m - j) = PI - al j.
Proof. intros Hj. unfold al. rewrite minus_INR, !mult_INR by lia. pose proof mR. replace (INR 2) with 2 by (cbn; ring). replace (INR 4) with 4 by (cbn; ring). field. lra. Qed.
Lemma al_add j : al (2 * m + j) = al j + PI.
Proof. unfold al. rewrite plus_INR, !mult_INR. pose proof mR. replace (INR 2) with 2 by (cbn; ring). replace (INR 4) with 4 by (cbn; ring). field. lra. Qed.
Lemma G_half j : G (2 * m + j) = G j.
Proof. unfold G. rewrite al_add, neg_cos, neg_sin. rewrite <- cos_neg. f_equal. ring. Qed.
Lemma G_pair j : (j <= 2 * m)%nat -> G j + G (2 * m - j) = 2 * H j.
Proof.
  intros Hj. unfold G, H. rewrite al_pi by exact Hj. rewrite Rtrigo_facts.cos_pi_minus, Rtrigo_facts.sin_pi_minus. set (c := cos (al j)). set (s := sin (al j)).
  replace (l * (x * c + y * s)) with (l * s * y + l * c * x) by ring. replace (l * (x * - c + y * s)) with (l * s * y - l * c * x) by ring. rewrite cos_plus, cos_minus. ring.
Qed.
Lemma H_half j : (j <= 2 * m)%nat -> H (2 * m - j) = H j.
Proof. intros Hj. unfold H. rewrite al_pi by exact Hj. rewrite Rtrigo_facts.cos_pi_minus, Rtrigo_facts.sin_pi_minus. rewrite <- (cos_neg (l * - cos (al j) * x)). f_equal. f_equal. ring. Qed.
Lemma circle : rtotal (fun j => G (S j)) (4 * m) = 2 * (rtotal (fun j => H (S j)) m + rtotal H m).
Proof.
  replace (4 * m)%nat with (2 * m + 2 * m)%nat by lia. rewrite rt_split. rewrite (rt_ext (fun j => G (S (2 * m + j))) (fun j => G (S j))) by (intros k _; rewrite <- (G_half (S k)); f_equal; lia).
  assert (E : rtotal (fun j => G (S j)) (2 * m) = rtotal (fun j => H (S j)) (2 * m)).
  { assert (R : rtotal (fun j => G (S j)) (2 * m) = rtotal (fun j => G (2 * m - S j)%nat) (2 * m)).
    { rewrite <- (rt_rev G (2 * m)). pose proof (rt_head G (2 * m)) as T. cbn [rtotal] in T. assert (G (2 * m)%nat = G 0%nat) by (rewrite <- (G_half 0); f_equal; lia). lra. }
    assert (2 * rtotal (fun j => G (S j)) (2 * m) = 2 * rtotal (fun j => H (S j)) (2 * m)); [|lra].
    rewrite <- !rt_scal. transitivity (rtotal (fun j => G (S j)) (2 * m) + rtotal (fun j => G (2 * m - S j)%nat) (2 * m)); [rewrite <- R, rt_scal; ring|]. rewrite <- rt_plus. apply rt_ext. intros k Hk. apply G_pair. lia. }
  rewrite E. replace (2 * m)%nat with (m + m)%nat by lia. rewrite rt_split.
  assert (T : rtotal (fun j => H (S (m + j))) m = rtotal H m).
  { symmetry. rewrite rt_rev. apply rt_ext. intros k Hk. rewrite <- (H_half (S (m + k))) by lia. f_equal. lia. }
  rewrite T. ring.
Qed.
End Circle.

Lemma cexp_re lam x y z a : fst (cexp (exponent lam (mkPt x y z) a)) = exp (- (lam * z)) * cos (lam * (x * cos a + y * sin a)).
Proof. unfold cexp, exponent, cis, Cmult, RtoC. cbn [fst snd px py pz]. rewrite Rmult_0_l, Rminus_0_r. f_equal. f_equal. ring. Qed.
(** The waves of one length *)
Lemma one_length l w x y z m : (1 <= m)%nat ->
  w * (rtotal (fun j => fst (cexp (exponent l (mkPt x y z) (2 * PI * INR (S j) / INR (4 * m))))) (4 * m) / INR (4 * m)) =
  w * (2 * exp (- (l * z)) * (rtotal (fun j => cos (l * cos (2 * PI * INR (S j) / INR (4 * m)) * x) * cos (l * sin (2 * PI * INR (S j) / INR (4 * m)) * y)) m + rtotal (fun j => cos (l * cos (2 * PI * INR j / INR (4 * m)) * x) * cos (l * sin (2 * PI * INR j / INR (4 * m)) * y)) m)) / INR (4 * m).
Proof.
  intros Hm. rewrite (rt_ext _ (fun j => exp (- (l * z)) * cos (l * (x * cos (2 * PI * INR (S j) / INR (4 * m)) + y * sin (2 * PI * INR (S j) / INR (4 * m)))))) by (intros k _; apply cexp_re). rewrite rt_scal.
  rewrite (circle l x y m Hm). unfold Rdiv. ring.
Qed.
Lemma len_four l w x y z m M : (1 <= m)%nat -> M = Z.of_nat (4 * m) ->
  waves1 (rwaves l w M) z x y = w * (rtotal (fun j => fst (cexp (exponent l (mkPt x y z) (2 * PI * INR (S j) / INR (4 * m))))) (4 * m) / INR (4 * m)).
Proof.
  intros Hm ->. rewrite one_length by exact Hm. set (Hj := fun j : nat => cos (l * cos (2 * PI * INR j / INR (4 * m)) * x) * cos (l * sin (2 * PI * INR j / INR (4 * m)) * y)).
  change (waves1 (rwaves l w (Z.of_nat (4 * m))) z x y = w * (2 * exp (- (l * z)) * (rtotal (fun j => Hj (S j)) m + rtotal Hj m)) / INR (4 * m)).
  unfold rwaves, quarter. replace (Z.of_nat (4 * m) mod 4 =? 0)%Z with true by (symmetry; apply Z.eqb_eq; rewrite Nat2Z.inj_mul, Z.mul_comm; apply Z.mod_mul; lia).
  replace (Z.of_nat (4 * m) / 4)%Z with (Z.of_nat m) by (rewrite Nat2Z.inj_mul, Z.mul_comm, Z.div_mul by lia; reflexivity). rewrite Nat2Z.id, map_map. cbn [fst snd].
  assert (F : forall n f, waves1 (map f (seq 0 n)) z x y = rtotal (fun j => wave1 z x y (f j)) n).
  { clear. intros n f. induction n as [|n IH]; [reflexivity|]. rewrite seq_S, map_app. unfold waves1 in *. rewrite fold_right_app. cbn [fold_right map plus rtotal]. rewrite <- IH. generalize (map f (seq 0 n)). intros L. rewrite Rplus_0_r. induction L as [|t L IHL]; [cbn; ring|]. cbn [fold_right]. rewrite IHL. ring. }
  rewrite F. set (E := exp (- (l * z))). set (c := w / INR (4 * m)).
  assert (W : forall j mu, wave1 z x y (rwave l w (Z.of_nat (4 * m)) (Z.of_nat j) mu) = c * IZR mu * E * Hj j) by (intros j mu; unfold wave1, rwave, c, E, Hj; cbn [r_l r_w r_a r_b]; rewrite <- !INR_IZR_INZ; unfold Rdiv; ring).
  rewrite (rt_ext _ (fun j => c * E * (IZR (if ((Z.of_nat j =? 0) || (4 * Z.of_nat j =? Z.of_nat (4 * m)))%Z%bool then 2 else 4) * Hj j))) by (intros j _; rewrite W; ring). rewrite rt_scal. unfold Rdiv. replace (w * (2 * E * (rtotal (fun j => Hj (S j)) m + rtotal Hj m)) * / INR (4 * m)) with (c * E * (2 * (rtotal (fun j => Hj (S j)) m + rtotal Hj m))) by (unfold c, Rdiv; ring). f_equal.
  destruct m as [|m]; [lia|]. clear - Hj. set (f := fun j : nat => IZR (if ((Z.of_nat j =? 0) || (4 * Z.of_nat j =? Z.of_nat (4 * S m)))%Z%bool then 2 else 4) * Hj j).
  rewrite (rt_head f (S m)), (rt_head Hj m). cbn [rtotal]. rewrite (rt_ext (fun j => f (S j)) (fun j => 4 * Hj (S j))).
  - rewrite rt_scal. unfold f. rewrite (proj2 (Z.eqb_eq (4 * Z.of_nat (S m)) (Z.of_nat (4 * S m)))) by lia. rewrite orb_true_r. cbn [Z.of_nat Z.eqb orb]. ring.
  - intros k Hk. unfold f. replace (Z.of_nat (S k) =? 0)%Z with false by (symmetry; apply Z.eqb_neq; lia). replace (4 * Z.of_nat (S k) =? Z.of_nat (4 * S m))%Z with false by (symmetry; apply Z.eqb_neq; lia). reflexivity.
Qed.
Lemma len_two l w x y z : waves1 (rwaves l w 2) z x y = w * (rtotal (fun j => fst (cexp (exponent l (mkPt x y z) (2 * PI * INR (S j) / INR 2)))) 2 / INR 2).
Proof.
  cbn [rtotal]. rewrite !cexp_re. replace (2 * PI * INR 1 / INR 2) with PI by (cbn; field). replace (2 * PI * INR 2 / INR 2) with (2 * PI) by (cbn; field). rewrite cos_PI, sin_PI, cos_2PI, sin_2PI.
  change (rwaves l w 2) with [rwave l w 2 0 2]. unfold waves1, wave1, rwave. cbn [fold_right r_l r_w r_a r_b]. replace (2 * PI * 0 / 2) with 0 by field. rewrite cos_0, sin_0. replace (l * 0 * y) with 0 by ring. rewrite cos_0.
  replace (l * (x * -1 + y * 0)) with (- (l * 1 * x)) by ring. rewrite cos_neg. replace (l * (x * 1 + y * 0)) with (l * 1 * x) by ring. replace (INR 2) with 2 by (cbn; ring). field.
Qed.
Definition one (l w : R) (M : nat) (x y z : R) : R := w * (rtotal (fun j => fst (cexp (exponent l (mkPt x y z) (2 * PI * INR (S j) / INR M)))) M / INR M).
Theorem quad3_waves x y z : quadrature case_3 (fun n al => cexp (exponent (len case_3 n) (mkPt x y z) al)) = waves1 terms3 z x y.
Proof.
  change (rtotal (fun k => one (len case_3 k) (wgt case_3 k) (cnt case_3 k) x y z) 9 = waves1 terms3 z x y).
  assert (A : forall L L', waves1 (L ++ L') z x y = waves1 L z x y + waves1 L' z x y) by (intros L L'; unfold waves1; induction L as [|t L IH]; cbn [app fold_right]; [ring|rewrite IH; ring]).
  assert (F : forall k m M l w, (1 <= m)%nat -> cnt case_3 k = (4 * m)%nat -> M = Z.of_nat (4 * m) -> l = len case_3 k -> w = wgt case_3 k ->
    waves1 (rwaves l w M) z x y = one (len case_3 k) (wgt case_3 k) (cnt case_3 k) x y z) by (intros k m M l w Hm C HM -> ->; rewrite C; apply len_four; assumption).
  assert (T : forall k l w, cnt case_3 k = 2%nat -> l = len case_3 k -> w = wgt case_3 k ->
    waves1 (rwaves l w 2) z x y = one (len case_3 k) (wgt case_3 k) (cnt case_3 k) x y z) by (intros k l w C -> ->; rewrite C; apply len_two).
  unfold terms3, entries3. cbn [flat_map]. rewrite !A. change (waves1 [] z x y) with 0.
  rewrite (F 0%nat 1%nat), (F 1%nat 2%nat), (F 2%nat 3%nat), (F 3%nat 4%nat), (F 4%nat 5%nat), (F 5%nat 5%nat), (F 6%nat 6%nat), (F 7%nat 2%nat), (T 8%nat);
    try (unfold len, wgt, p10; cbn [q_lambda q_weight case_3 nth]; lra); try reflexivity; try lia.
  cbn [rtotal]. ring.
Qed.
