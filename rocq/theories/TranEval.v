(** S_to_M, S_to_L, M_to_T and L_to_T in terms of the solid harmonics. *)
From Coq Require Import Reals ZArith List Lia Lra Psatz.
From Coquelicot Require Import Coquelicot.
From Verif Require Import Base ListFacts LegSpec LegProofs LegAdd LapModel LapArrays LapProofs SolidProofs SolidAdd SolidPair SolidTrans SolidMtl TranModel TranArrays TranOps TranField TranMove TranMtl.
Import ListNotations.
Open Scope R_scope.

Definition tov (d : pt) : vec := mkVec (px d) (py d) (pz d).
Lemma tov_norm d : vnorm (tov d) = norm3 d.
Proof. reflexivity. Qed.
(** the scaled position that the code uses for the offset [d] from the centre *)
Definition scaled (scale : R) (d : pt) : vec := vscale scale (tov (eff d)).
Lemma scaled_norm scale d : 0 <= scale -> vnorm (scaled scale d) = scale * norm3 d.
Proof.
  intros Hs. apply vnorm_unique; [apply Rmult_le_pos; [exact Hs|apply norm3_nonneg]|]. unfold scaled, vscale, tov. cbn [vx vy vz]. rewrite <- (eff_norm d). pose proof (norm3_sq (eff d)). nra.
Qed.
Lemma scaled_polar scale d sgn : 0 <= scale -> sgn * sgn = 1 -> 0 < norm3 d -> exists ct e, angles sgn d = Ok (norm3 d, ct, e) /\ -1 <= ct <= 1 /\ fst e * fst e + snd e * snd e = 1 /\
  scaled scale d = polar (norm3 d * scale) ct (sqrt (1 - ct * ct)) (fst e, - (sgn * snd e)).
Proof.
  intros Hs Hg Hr. destruct (angles_ok sgn d Hg Hr) as (ct & e & A & B & U & Z & X & Y). exists ct, e. split; [exact A|]. split; [exact B|]. split; [exact U|].
  unfold scaled, vscale, tov, polar. cbn [vx vy vz fst snd]. rewrite X, Y, Z. apply vec_eq; cbn [vx vy vz]; ring.
Qed.
Lemma har_Q r ct e n m : -1 <= ct <= 1 -> fst e * fst e + snd e * snd e = 1 -> (m <= n)%nat ->
  har (polar r ct (sqrt (1 - ct * ct)) e) n (n + m) = (RtoC (r ^ n * Q ct n m * ratio n m) * cp e m)%C.
Proof.
  intros B U Hm. rewrite har_polar; [|rewrite sqrt_sqrt by nra; ring|exact U|exact Hm]. f_equal. f_equal. unfold Q, ratio. replace (- sqrt (1 - ct * ct)) with (-1 * sqrt (1 - ct * ct)) by ring. rewrite Rpow_mult_distr. ring.
Qed.

Lemma rsum_sumlt f n : sumlt f n = rsum f n.
Proof. induction n as [|n IH]; [reflexivity|]. cbn [sumlt rsum]. rewrite IH. reflexivity. Qed.
Lemma pot_prr p fr ct (e : C) c r : -1 <= ct <= 1 -> fst e * fst e + snd e * snd e = 1 -> r <> 0 ->
  pot p fr (cpow e) (Q ct) c = rsum (fun n => prr (c n) (polar r ct (sqrt (1 - ct * ct)) (Cconj e)) n * (fr n / r ^ n)) (S p).
Proof.
  intros B U Hr. unfold pot. rewrite rsum_sumlt. apply rsum_ext. intros n Hn. rewrite rsum_sumlt. unfold prr. rewrite Rmult_comm, <- rsum_scal. apply rsum_ext. intros m Hm.
  rewrite har_Q; [|exact B|unfold Cconj; cbn [fst snd]; lra|lia]. unfold pterm. rewrite conj_mul, conj_RtoC, cp_conj, conj_conj, cpow_cp, cmul_C. unfold creal.
  set (z := cp e m). set (w := (c n m : C)). set (h := Q ct n m). set (k := ratio n m). unfold Cmult, RtoC. cbn [fst snd]. field. apply pow_nonzero, Hr.
Qed.

(** L_to_T and M_to_T *)
Lemma eval_l p sqf d scale c M : LapProofs.table p sqf -> coefs p c M -> 0 < norm3 d -> 0 < scale -> lap_l_to_t p sqf d scale M = Ok (val p c (scaled scale d)).
Proof.
  intros HT HM Hd Hs. destruct (scaled_polar scale d 1 ltac:(lra) ltac:(ring) Hd) as (ct & e & A & B & U & E). rewrite (l_to_t_ok p sqf d scale c M _ _ _ HT HM A B). f_equal.
  assert (P : 0 < norm3 d * scale) by (apply Rmult_lt_0_compat; assumption).
  rewrite (pot_prr p _ ct e c (norm3 d * scale) B U) by lra. unfold val. apply rsum_ext. intros n Hn. rewrite E. rewrite Rmult_1_l. change (fst e, - snd e) with (Cconj e). field. apply pow_nonzero. lra.
Qed.
Lemma eval_m p sqf d scale c M : LapProofs.table p sqf -> coefs p c M -> 0 < norm3 d -> 0 < scale ->
  lap_m_to_t p sqf d scale M = Ok (scale * rsum (fun n => prr (c n) (scaled scale d) n / vnorm (scaled scale d) ^ (2 * n + 1)) (S p)).
Proof.
  intros HT HM Hd Hs. destruct (scaled_polar scale d 1 ltac:(lra) ltac:(ring) Hd) as (ct & e & A & B & U & E). rewrite (m_to_t_ok p sqf d scale c M _ _ _ HT HM A B Hd) by lra. f_equal.
  assert (P : 0 < norm3 d * scale) by (apply Rmult_lt_0_compat; assumption).
  rewrite (pot_prr p _ ct e c (norm3 d * scale) B U) by lra. rewrite <- rsum_scal. apply rsum_ext. intros n Hn. rewrite scaled_norm by lra. rewrite E. rewrite Rmult_1_l. change (fst e, - snd e) with (Cconj e). rewrite (Rmult_comm scale (norm3 d)).
  set (r := norm3 d) in *. replace ((r * scale) ^ (2 * n + 1)) with ((r * scale) ^ n * (r * scale) ^ n * (r * scale)) by (replace (2 * n + 1)%nat with (n + n + 1)%nat by lia; rewrite !pow_add, pow_1; reflexivity).
  field. repeat split; try lra. apply pow_nonzero. lra.
Qed.

(** S_to_M and S_to_L *)
Lemma src_m p sqf d q scale c M : LapProofs.table p sqf -> coefs p c M -> 0 < norm3 d -> 0 < scale ->
  exists M', lap_s_to_m p sqf d q scale M = Ok M' /\ coefs p (fun n m => (c n m : C) + RtoC q * har (scaled scale d) n (n + m))%C M'.
Proof.
  intros HT HM Hd Hs. destruct (scaled_polar scale d (-1) ltac:(lra) ltac:(ring) Hd) as (ct & e & A & B & U & E). destruct (s_to_m_ok p sqf d q scale c M _ _ _ HT HM A B) as (M' & E' & H). exists M'. split; [exact E'|].
  revert H. apply coefs_ext. intros n m Bn. rewrite E. replace (fst e, - (-1 * snd e)) with e by (destruct e; cbn [fst snd]; f_equal; ring). rewrite har_Q; [|exact B|exact U|lia].
  unfold term. rewrite cadd_C, cscale_R, cpow_cp. fold (ratio n m). set (z := cp e m). set (w := (c n m : C)). set (h := Q ct n m). set (k := ratio n m). f_equal. ceq.
Qed.
Lemma src_l p sqf d q scale c M : LapProofs.table p sqf -> coefs p c M -> 0 < norm3 d -> 0 < scale ->
  exists M', lap_s_to_l p sqf d q scale M = Ok M' /\ coefs p (fun n m => (c n m : C) + RtoC (q * (scale / vnorm (scaled scale d) ^ (2 * n + 1))) * har (scaled scale d) n (n + m))%C M'.
Proof.
  intros HT HM Hd Hs. destruct (scaled_polar scale d (-1) ltac:(lra) ltac:(ring) Hd) as (ct & e & A & B & U & E). destruct (s_to_l_ok p sqf d q scale c M _ _ _ HT HM A B Hd) as (M' & E' & H); [lra|]. exists M'. split; [exact E'|].
  revert H. apply coefs_ext. intros n m Bn. rewrite scaled_norm by lra. rewrite E. replace (fst e, - (-1 * snd e)) with e by (destruct e; cbn [fst snd]; f_equal; ring). rewrite har_Q; [|exact B|exact U|lia].
  unfold term. rewrite cadd_C, cscale_R, cpow_cp. fold (ratio n m). f_equal. rewrite (Rmult_comm scale (norm3 d)).
  set (r := norm3 d) in *. assert (P : 0 < r * scale) by (apply Rmult_lt_0_compat; assumption). replace ((r * scale) ^ (2 * n + 1)) with ((r * scale) ^ n * (r * scale) ^ n * (r * scale)) by (replace (2 * n + 1)%nat with (n + n + 1)%nat by lia; rewrite !pow_add, pow_1; reflexivity).
  rewrite Cmult_comm, Cmult_assoc, <- RtoC_mult. f_equal. f_equal. field. repeat split; try lra. apply pow_nonzero. lra.
Qed.

Lemma S_to_M_mom p sqf scale c l : LapProofs.table p sqf -> 0 < scale -> (forall s, In s l -> cpos s <> c) ->
  exists M, S_to_M p sqf scale c l = Ok M /\ coefs p (mom (map (fun s => (cq s, scaled scale (point_sub (cpos s) c))) l)) M.
Proof.
  intros HT Hs Hl. unfold S_to_M.
  assert (G : forall M0 c0, coefs p c0 M0 -> exists M, foldM (fun M s => lap_s_to_m p sqf (point_sub (cpos s) c) (cq s) scale M) l M0 = Ok M /\
    coefs p (fun n m => (c0 n m : C) + mom (map (fun s => (cq s, scaled scale (point_sub (cpos s) c))) l) n m)%C M).
  { induction l as [|s l IH]; intros M0 c0 H0.
    - exists M0. split; [reflexivity|]. revert H0. apply coefs_ext. intros n m _. unfold mom. cbn [map fold_right]. symmetry. apply Cplus_0_r.
    - cbn [foldM]. assert (Hd : 0 < norm3 (point_sub (cpos s) c)) by (rewrite norm3_dist; apply dist_pos, Hl; left; reflexivity).
      destruct (src_m p sqf (point_sub (cpos s) c) (cq s) scale c0 M0 HT H0 Hd Hs) as (M1 & E1 & H1). rewrite E1. cbn [bind].
      destruct (IH (fun s' I => Hl s' (or_intror I)) M1 _ H1) as (M2 & E2 & H2). exists M2. split; [exact E2|]. revert H2. apply coefs_ext. intros n m _. cbn [map mom fold_right fst snd].
      rewrite <- Cplus_assoc. reflexivity. }
  destruct (G (new_expansion p) _ (new_coefs p)) as (M & E & H). exists M. split; [exact E|]. revert H. apply coefs_ext. intros n m _. change ((0, 0) : C) with (RtoC 0). apply Cplus_0_l.
Qed.

(** the coefficients of a local expansion of charges outside *)
Definition outer (scale : R) (l : list (R * vec)) (n m : nat) : C :=
  fold_right (fun s v => (RtoC (fst s * (scale / vnorm (snd s) ^ (2 * n + 1))) * har (snd s) n (n + m) + v)%C) (RtoC 0) l.
Lemma S_to_L_outer p sqf scale c l : LapProofs.table p sqf -> 0 < scale -> (forall s, In s l -> cpos s <> c) ->
  exists M, S_to_L p sqf scale c l = Ok M /\ coefs p (outer scale (map (fun s => (cq s, scaled scale (point_sub (cpos s) c))) l)) M.
Proof.
  intros HT Hs Hl. unfold S_to_L.
  assert (G : forall M0 c0, coefs p c0 M0 -> exists M, foldM (fun M s => lap_s_to_l p sqf (point_sub (cpos s) c) (cq s) scale M) l M0 = Ok M /\
    coefs p (fun n m => (c0 n m : C) + outer scale (map (fun s => (cq s, scaled scale (point_sub (cpos s) c))) l) n m)%C M).
  { induction l as [|s l IH]; intros M0 c0 H0.
    - exists M0. split; [reflexivity|]. revert H0. apply coefs_ext. intros n m _. unfold outer. cbn [map fold_right]. symmetry. apply Cplus_0_r.
    - cbn [foldM]. assert (Hd : 0 < norm3 (point_sub (cpos s) c)) by (rewrite norm3_dist; apply dist_pos, Hl; left; reflexivity).
      destruct (src_l p sqf (point_sub (cpos s) c) (cq s) scale c0 M0 HT H0 Hd Hs) as (M1 & E1 & H1). rewrite E1. cbn [bind].
      destruct (IH (fun s' I => Hl s' (or_intror I)) M1 _ H1) as (M2 & E2 & H2). exists M2. split; [exact E2|]. revert H2. apply coefs_ext. intros n m _. cbn [map outer fold_right fst snd].
      rewrite <- Cplus_assoc. reflexivity. }
  destruct (G (new_expansion p) _ (new_coefs p)) as (M & E & H). exists M. split; [exact E|]. revert H. apply coefs_ext. intros n m _. change ((0, 0) : C) with (RtoC 0). apply Cplus_0_l.
Qed.
Lemma outer_real scale l p : reals p (outer scale l).
Proof.
  intros n _. induction l as [|s l IH]; [reflexivity|]. cbn [outer fold_right]. fold (outer scale l n 0). pose proof (har_real (snd s) n) as Hr. set (h := har (snd s) n (n + 0)) in *. set (o := outer scale l n 0) in *. unfold Cplus, Cmult, RtoC. cbn [fst snd]. rewrite Hr, IH. ring.
Qed.
Lemma prr_sym x y n : prr (fun m => har x n (n + m)) y n = prr (fun m => har y n (n + m)) x n.
Proof. unfold prr. apply rsum_ext. intros m _. unfold Cmult, Cconj. cbn [fst snd]. ring. Qed.
Lemma val_outer p scale l t a r : 0 <= scale -> 0 <= r -> r < a -> (forall s, In s l -> a <= vnorm (snd s)) -> vnorm t <= r ->
  Rabs (val p (outer scale l) t - direct scale (zvec 0) l t) <= weight l * (scale * ((r / a) ^ S p / (a - r))).
Proof.
  intros Hs Hr0 Hr Hl Ht. induction l as [|s l IH].
  - cbn [direct weight fold_right]. rewrite (val_ext p _ (fun _ _ => RtoC 0)) by reflexivity. rewrite val_zero, Rminus_0_r, Rabs_R0, Rmult_0_l. lra.
  - specialize (IH (fun s' I => Hl s' (or_intror I))). specialize (Hl s (or_introl eq_refl)). cbn [direct weight fold_right]. fold (direct scale (zvec 0) l t). fold (weight l).
    rewrite (val_ext p _ (fun n m => (RtoC (fst s * (scale / vnorm (snd s) ^ (2 * n + 1))) * har (snd s) n (n + m) + outer scale l n m)%C)) by reflexivity. rewrite val_plus.
    assert (E : val p (fun n m => (RtoC (fst s * (scale / vnorm (snd s) ^ (2 * n + 1))) * har (snd s) n (n + m))%C) t =
      scale * fst s * rsum (fun n => prr (fun m => har t n (n + m)) (snd s) n / vnorm (snd s) ^ (2 * n + 1)) (S p)).
    { unfold val. rewrite <- rsum_scal. apply rsum_ext. intros n _. rewrite prr_scal, prr_sym. unfold Rdiv. ring. }
    rewrite E. assert (Lt : vnorm t < vnorm (snd s)) by lra. pose proof (inverse_tail (snd s) t p Lt) as T. set (A := rsum _ _) in *.
    replace (vsub (vadd (zvec 0) (snd s)) t) with (vsub (snd s) t) by (apply vec_eq; unfold vsub, vadd, zvec; cbn [vx vy vz]; ring). set (B := / vnorm (vsub (snd s) t)) in *.
    replace (scale * fst s * A + val p (outer scale l) t - (scale * (fst s * B) + direct scale (zvec 0) l t)) with (- (fst s * scale * (B - A)) + (val p (outer scale l) t - direct scale (zvec 0) l t)) by ring.
    eapply Rle_trans; [apply Rabs_triang|]. rewrite Rmult_plus_distr_r. apply Rplus_le_compat; [|exact IH]. rewrite Rabs_Ropp, !Rabs_mult, (Rabs_pos_eq scale Hs), Rmult_assoc. apply Rmult_le_compat_l; [apply Rabs_pos|]. apply Rmult_le_compat_l; [exact Hs|].
    eapply Rle_trans; [exact T|]. pose proof (vnorm_pos t). unfold Rdiv at 1 3. apply Rmult_le_compat; [apply pow_le, Rmult_le_pos; [lra|left; apply Rinv_0_lt_compat; lra]|left; apply Rinv_0_lt_compat; lra| |].
    + apply pow_incr. split; [apply Rmult_le_pos; [lra|left; apply Rinv_0_lt_compat; lra]|]. unfold Rdiv. apply Rmult_le_compat; [lra|left; apply Rinv_0_lt_compat; lra|lra|apply Rinv_le_contravar; lra].
    + apply Rinv_le_contravar; lra.
Qed.
(** the value of a multipole expansion outside *)
Lemma m_outside p scale l x a : 0 <= scale -> 0 <= a -> a < vnorm x -> (forall s, In s l -> vnorm (snd s) <= a) ->
  Rabs (scale * rsum (fun n => prr (mom l n) x n / vnorm x ^ (2 * n + 1)) (S p) - direct scale (zvec 0) l x) <= weight l * (scale * ((a / vnorm x) ^ S p / (vnorm x - a))).
Proof.
  intros Hs Ha Hx Hl. induction l as [|s l IH].
  - cbn [direct weight fold_right]. rewrite (rsum_ext _ (fun _ => 0)); [rewrite rsum_zero, Rmult_0_r, Rminus_0_r, Rabs_R0, Rmult_0_l; lra|]. intros n _. transitivity (prr (fun _ => RtoC 0) x n / vnorm x ^ (2 * n + 1)); [reflexivity|]. rewrite prr_zero. unfold Rdiv. ring.
  - specialize (IH (fun s' I => Hl s' (or_intror I))). specialize (Hl s (or_introl eq_refl)). cbn [direct weight fold_right]. fold (direct scale (zvec 0) l x). fold (weight l).
    assert (E : rsum (fun n => prr (mom (s :: l) n) x n / vnorm x ^ (2 * n + 1)) (S p) = fst s * rsum (fun n => prr (fun m => har (snd s) n (n + m)) x n / vnorm x ^ (2 * n + 1)) (S p) + rsum (fun n => prr (mom l n) x n / vnorm x ^ (2 * n + 1)) (S p)).
    { rewrite <- rsum_scal, <- rsum_plus. apply rsum_ext. intros n _. transitivity (prr (fun m => (RtoC (fst s) * har (snd s) n (n + m) + mom l n m)%C) x n / vnorm x ^ (2 * n + 1)); [reflexivity|]. rewrite prr_plus, prr_scal. unfold Rdiv. ring. }
    rewrite E. pose proof (inverse_tail x (snd s) p ltac:(lra)) as T. set (A := rsum (fun n => prr (fun m => har (snd s) n (n + m)) x n / vnorm x ^ (2 * n + 1)) (S p)) in *.
    replace (vnorm (vsub (vadd (zvec 0) (snd s)) x)) with (vnorm (vsub x (snd s))) by (rewrite <- vopp_norm; f_equal; apply vec_eq; unfold vsub, vadd, zvec, vopp, vscale; cbn [vx vy vz]; ring). set (B := / vnorm (vsub x (snd s))) in *. set (Z := rsum (fun n => prr (mom l n) x n / vnorm x ^ (2 * n + 1)) (S p)) in *.
    replace (scale * (fst s * A + Z) - (scale * (fst s * B) + direct scale (zvec 0) l x)) with (- (fst s * scale * (B - A)) + (scale * Z - direct scale (zvec 0) l x)) by ring.
    eapply Rle_trans; [apply Rabs_triang|]. rewrite Rmult_plus_distr_r. apply Rplus_le_compat; [|exact IH]. rewrite Rabs_Ropp, !Rabs_mult, (Rabs_pos_eq scale Hs), Rmult_assoc. apply Rmult_le_compat_l; [apply Rabs_pos|]. apply Rmult_le_compat_l; [exact Hs|].
    eapply Rle_trans; [exact T|]. pose proof (vnorm_pos (snd s)). apply (tail_mono (vnorm (snd s)) a (vnorm x) (S p)); lra.
Qed.
