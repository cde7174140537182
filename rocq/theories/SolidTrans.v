(** Solid harmonics: their sums against the inverse distance, and the conversion of a multipole
    expansion into a local one. *)
From Coq Require Import Reals List Lia Lra Psatz.
From Coquelicot Require Import Coquelicot.
From Verif Require Import LegSpec LegProofs LegAdd LegGen SolidProofs SolidAdd SolidPair.
Open Scope C_scope.

Definition vnorm (x : vec) : R := sqrt (vx x * vx x + vy x * vy x + vz x * vz x).
Definition vscale (a : R) (x : vec) : vec := mkVec (a * vx x) (a * vy x) (a * vz x).
Definition vsub (x y : vec) : vec := mkVec (vx x - vx y) (vy x - vy y) (vz x - vz y).
Lemma vnorm_sq x : (vnorm x * vnorm x = vx x * vx x + vy x * vy x + vz x * vz x)%R.
Proof. apply sqrt_sqrt. nra. Qed.
Lemma vnorm_pos x : (0 <= vnorm x)%R.
Proof. apply sqrt_pos. Qed.
Lemma vnorm_unique x r : (0 <= r)%R -> (r * r = vx x * vx x + vy x * vy x + vz x * vz x)%R -> vnorm x = r.
Proof. intros H E. unfold vnorm. rewrite <- E. apply sqrt_square, H. Qed.

Lemma gco_scale a x n : forall k, gco (vscale a x) n k = RtoC (a ^ n) * gco x n k.
Proof.
  assert (X : xi (vscale a x) = RtoC a * xi x) by (unfold xi, vscale; cbn [vx vy]; ceq). assert (Xc : Cconj (xi (vscale a x)) = RtoC a * Cconj (xi x)) by (rewrite X; ceq).
  induction n as [|n IH]; intros k; [cbn [gco pow]; destruct k; ring|]. cbn [gco]. rewrite Xc, X, IH.
  assert (A : sh (gco (vscale a x) n) k = RtoC (a ^ n) * sh (gco x n) k) by (destruct k; cbn [sh]; [ring|apply IH]).
  assert (B : sh (sh (gco (vscale a x) n)) k = RtoC (a ^ n) * sh (sh (gco x n)) k) by (destruct k as [|[|k]]; cbn [sh]; [ring|ring|apply IH]).
  rewrite A, B. cbn [vscale vz pow]. rewrite !RtoC_mult. ring.
Qed.
Lemma har_scale a x n k : har (vscale a x) n k = RtoC (a ^ n) * har x n k.
Proof. unfold har. rewrite gco_scale. ring. Qed.

Lemma polar_of x : exists r ct st e, (0 <= r)%R /\ (ct * ct + st * st = 1)%R /\ (fst e * fst e + snd e * snd e = 1)%R /\ x = polar r ct st e.
Proof.
  destruct x as [a b z]. set (r := sqrt (a * a + b * b + z * z)). assert (R2 : (r * r = a * a + b * b + z * z)%R) by (apply sqrt_sqrt; nra). assert (R0 : (0 <= r)%R) by apply sqrt_pos.
  set (q := sqrt (a * a + b * b)). assert (Q2 : (q * q = a * a + b * b)%R) by (apply sqrt_sqrt; nra). assert (Q0 : (0 <= q)%R) by apply sqrt_pos.
  destruct (Req_EM_T q 0) as [Z|N].
  - assert (a = 0 /\ b = 0)%R as [-> ->] by (rewrite Z in Q2; split; nra). destruct (Rle_dec 0 z).
    + exists z, 1%R, 0%R, (RtoC 1). cbn [fst snd RtoC]. repeat split; try lra. unfold polar. f_equal; ring.
    + exists (- z)%R, (-1)%R, 0%R, (RtoC 1). cbn [fst snd RtoC]. repeat split; try lra. unfold polar. f_equal; ring.
  - assert (P : (0 < r)%R) by (destruct (Req_EM_T r 0) as [E|]; [exfalso; rewrite E in R2; apply N; nra|lra]).
    exists r, (z / r)%R, (q / r)%R, ((a / q)%R, (- (b / q))%R). cbn [fst snd]. split; [exact R0|]. split; [|split].
    + transitivity ((z * z + q * q) / (r * r))%R; [field; lra|]. rewrite Q2, R2. field. nra.
    + transitivity ((a * a + b * b) / (q * q))%R; [field; lra|]. rewrite Q2. field. nra.
    + unfold polar. cbn [fst snd]. f_equal; field; lra.
Qed.
Lemma polar_norm r ct st e : (0 <= r)%R -> (ct * ct + st * st = 1)%R -> (fst e * fst e + snd e * snd e = 1)%R -> vnorm (polar r ct st e) = r.
Proof. intros H U V. apply vnorm_unique; [exact H|]. unfold polar. cbn [vx vy vz]. transitivity (r * r * (ct * ct + st * st * (fst e * fst e + snd e * snd e)))%R; [rewrite V, Rmult_1_r, U; ring|ring]. Qed.

Lemma prr_polar r ct st e r' ct' st' e' n : (ct * ct + st * st = 1)%R -> (fst e * fst e + snd e * snd e = 1)%R -> (ct' * ct' + st' * st' = 1)%R -> (fst e' * fst e' + snd e' * snd e' = 1)%R ->
  prr (fun m => har (polar r ct st e) n (n + m)) (polar r' ct' st' e') n = ((r * r') ^ n * D n 0 (ct * ct' + st * st' * fst (e * Cconj e')%C))%R.
Proof.
  intros U V U' V'. set (f := e * Cconj e'). assert (Nf : (fst f * fst f + snd f * snd f = 1)%R).
  { unfold f, Cmult, Cconj. cbn [fst snd]. transitivity ((fst e * fst e + snd e * snd e) * (fst e' * fst e' + snd e' * snd e'))%R; [ring|rewrite V, V'; ring]. }
  rewrite <- (addition ct ct' (st * st' * fst f) (fun m => (st * st') ^ m * fst (cp f m))%R n).
  - rewrite rsum_f, <- rsum_scal. apply rsum_ext. intros m Hm. rewrite !har_polar by (assumption || lia).
    transitivity (eps m * fst (RtoC (r ^ n * ((-1) ^ m * st ^ m * D n m ct) * (sqrt (INR (fact (n - m))) / sqrt (INR (fact (n + m)))) * (r' ^ n * ((-1) ^ m * st' ^ m * D n m ct') * (sqrt (INR (fact (n - m))) / sqrt (INR (fact (n + m)))))) * cp f m)%C)%R.
    + do 2 f_equal. unfold f. rewrite cp_mul, <- cp_conj, conj_mul, conj_RtoC, !RtoC_mult. ring.
    + assert (Wn : (sqrt (INR (fact (n - m))) / sqrt (INR (fact (n + m))) * (sqrt (INR (fact (n - m))) / sqrt (INR (fact (n + m)))) = w n m)%R).
      { pose proof (INR_fact_lt_0 (n - m)) as F1. pose proof (INR_fact_lt_0 (n + m)) as F2. pose proof (sqrt_lt_R0 _ F2). transitivity (sqrt (INR (fact (n - m))) * sqrt (INR (fact (n - m))) / (sqrt (INR (fact (n + m))) * sqrt (INR (fact (n + m)))))%R; [field; lra|]. rewrite !sqrt_sqrt by lra. reflexivity. }
      rewrite <- Wn. unfold Cmult at 1. unfold RtoC. cbn [fst snd]. rewrite !Rpow_mult_distr. pose proof (sgn_sq m) as Sg. set (g := ((-1) ^ m)%R) in *. set (k := (sqrt (INR (fact (n - m))) / sqrt (INR (fact (n + m))))%R).
      transitivity (eps m * (r ^ n * r' ^ n * (g * g) * st ^ m * st' ^ m * D n m ct * D n m ct' * k * k * fst (cp f m)))%R; [ring|rewrite Sg; ring].
  - cbn [pow cp]. unfold RtoC. cbn [fst]. ring.
  - cbn [pow cp]. unfold Cmult, RtoC. cbn [fst snd]. ring.
  - intros m. replace (1 - ct * ct)%R with (st * st)%R by lra. replace (1 - ct' * ct')%R with (st' * st')%R by lra. cbn [pow cp]. unfold Cmult. cbn [fst snd]. generalize (cp f m). intros g.
    transitivity ((st * st') * (st * st') * (st * st') ^ m * (2 * fst f * (fst g * fst f - snd g * snd f) - fst g * (fst f * fst f + snd f * snd f)))%R; [ring|rewrite Nf; ring].
Qed.

(** the square sum *)
Lemma har_energy x n : prr (fun m => har x n (n + m)) x n = (vnorm x ^ n * vnorm x ^ n)%R.
Proof.
  destruct (polar_of x) as (r & ct & st & e & R0 & U & V & ->). rewrite prr_polar, polar_norm by assumption.
  assert (E : fst (e * Cconj e) = 1%R) by (unfold Cmult, Cconj; cbn [fst snd]; rewrite <- V; ring). rewrite E, Rmult_1_r, U, (proj1 (D_one n)), Rpow_mult_distr. ring.
Qed.

Lemma inverse_tail x y K : (vnorm y < vnorm x)%R ->
  (Rabs (/ vnorm (vsub x y) - rsum (fun n => prr (fun m => har y n (n + m)) x n / vnorm x ^ (2 * n + 1)) (S K)) <= (vnorm y / vnorm x) ^ S K / (vnorm x - vnorm y))%R.
Proof.
  destruct (polar_of x) as (r & ct & st & e & R0 & U & V & ->). destruct (polar_of y) as (r' & ct' & st' & e' & R0' & U' & V' & ->). rewrite !polar_norm by assumption. intros L.
  set (c := (ct' * ct + st' * st * fst (e' * Cconj e)%C)%R). set (t := (r' / r)%R).
  assert (Hf : (-1 <= fst (e' * Cconj e)%C <= 1)%R).
  { unfold Cmult, Cconj. cbn [fst snd]. pose proof (Rle_0_sqr (fst e' - fst e)). pose proof (Rle_0_sqr (snd e' - snd e)). pose proof (Rle_0_sqr (fst e' + fst e)). pose proof (Rle_0_sqr (snd e' + snd e)). unfold Rsqr in *. split; lra. }
  assert (Hc : (-1 <= c <= 1)%R).
  { unfold c. set (f := fst (e' * Cconj e)%C) in *. assert (Hs : (Rabs (st' * st * f) <= Rabs (st' * st))%R) by (rewrite Rabs_mult; pose proof (Rabs_pos (st' * st)); assert (Rabs f <= 1)%R by (apply Rabs_le; lra); nra).
    assert (Rabs (st' * st) <= (st' * st' + st * st) / 2)%R by (apply Rabs_le; pose proof (Rle_0_sqr (st' - st)); pose proof (Rle_0_sqr (st' + st)); unfold Rsqr in *; lra).
    assert (Rabs (ct' * ct) <= (ct' * ct' + ct * ct) / 2)%R by (apply Rabs_le; pose proof (Rle_0_sqr (ct' - ct)); pose proof (Rle_0_sqr (ct' + ct)); unfold Rsqr in *; lra).
    apply Rabs_le_between. eapply Rle_trans; [apply Rabs_triang|]. lra. }
  assert (Ht : (0 <= t < 1)%R) by (unfold t; split; [apply Rmult_le_pos; [lra|left; apply Rinv_0_lt_compat; lra]|]; apply Rmult_lt_reg_r with r; [lra|]; unfold Rdiv; rewrite Rmult_assoc, Rinv_l by lra; lra).
  pose proof (tail c Hc t K Ht) as T. cbn beta zeta in T. pose proof (q_pos c Hc t ltac:(apply Rabs_def1; lra)) as Qp. cbn beta zeta in Qp.
  assert (N : vnorm (vsub (polar r ct st e) (polar r' ct' st' e')) = (r * sqrt (1 - 2 * c * t + t * t))%R).
  { apply vnorm_unique; [apply Rmult_le_pos; [lra|apply sqrt_pos]|]. transitivity (r * r * (sqrt (1 - 2 * c * t + t * t) * sqrt (1 - 2 * c * t + t * t)))%R; [ring|]. rewrite sqrt_sqrt by lra.
    unfold t. transitivity (r * r - 2 * r * r' * c + r' * r')%R; [field; lra|]. unfold vsub, polar, c, Cmult, Cconj. cbn [vx vy vz fst snd].
    transitivity (r * r * (ct * ct + st * st * (fst e * fst e + snd e * snd e)) + r' * r' * (ct' * ct' + st' * st' * (fst e' * fst e' + snd e' * snd e')) - 2 * r * r' * (ct' * ct + st' * st * (fst e' * fst e - snd e' * - snd e)))%R; [rewrite V, V', !Rmult_1_r, U, U'; ring|ring]. }
  rewrite N. rewrite rsum_f in T. pose proof (sqrt_lt_R0 _ Qp) as Sp.
  replace (rsum _ (S K)) with (/ r * rsum (fun n => D n 0 c * t ^ n) (S K))%R.
  - replace (/ (r * sqrt (1 - 2 * c * t + t * t)) - / r * rsum (fun n => D n 0 c * t ^ n) (S K))%R with (/ r * (/ sqrt (1 - 2 * c * t + t * t) - rsum (fun n => D n 0 c * t ^ n) (S K)))%R by (field; lra).
    rewrite Rabs_mult, (Rabs_pos_eq (/ r)) by (left; apply Rinv_0_lt_compat; lra). fold t. replace (t ^ S K / (r - r'))%R with (/ r * (t ^ S K / (1 - t)))%R by (replace (1 - t)%R with ((r - r') / r)%R by (unfold t; field; lra); set (tp := (t ^ S K)%R); field; lra).
    apply Rmult_le_compat_l; [left; apply Rinv_0_lt_compat; lra|exact T].
  - rewrite <- rsum_scal. apply rsum_ext. intros n _. rewrite prr_polar by assumption. fold c. unfold t, Rdiv. rewrite !Rpow_mult_distr, pow_inv, pow_add. replace (2 * n)%nat with (n + n)%nat by lia. rewrite pow_add. pose proof (pow_lt r n ltac:(lra)). field. lra.
Qed.

Lemma har_zvec rho n m : (0 <= rho)%R -> har (zvec rho) n (n + m) = if Nat.eqb m 0 then RtoC (rho ^ n) else 0.
Proof.
  intros _. rewrite har_hr, hr_z. destruct (Nat.eqb_spec m 0) as [->|N].
  - rewrite Nat.add_0_r, Nat.eqb_refl, <- RtoC_mult. f_equal. unfold nf. replace (2 * n - n)%nat with n by lia. pose proof (INR_fact_lt_0 n). rewrite sqrt_square by lra. field. lra.
  - destruct (Nat.eqb_spec (n + m) n); [lia|ring].
Qed.
Lemma prr_zvec c rho n : (0 <= rho)%R -> prr c (zvec rho) n = (rho ^ n * fst (c 0%nat))%R.
Proof.
  intros H. unfold prr. rewrite rsum_shift. rewrite har_zvec by exact H. cbn [Nat.eqb eps]. rewrite (rsum_ext _ (fun _ => 0%R)).
  - rewrite rsum_zero. unfold Cmult, Cconj, RtoC. cbn [fst snd]. ring.
  - intros k _. rewrite har_zvec by exact H. cbn [Nat.eqb]. unfold Cmult, Cconj, RtoC. cbn [fst snd]. ring.
Qed.

(** ** from a multipole to a local expansion *)
Lemma csum_about (f : nat -> C) n j : csum f (S (n + j)) = f n + csum (fun i => f (n - S i)%nat) n + csum (fun i => f (n + S i)%nat) j.
Proof.
  replace (S (n + j)) with (n + S j)%nat by lia. rewrite csum_split, (csum_shift (fun k => f (n + k)%nat)), Nat.add_0_r.
  assert (E : csum f n = csum (fun i => f (n - S i)%nat) n) by (destruct n as [|n]; [reflexivity|]; rewrite csum_rev; apply csum_ext; intros; f_equal; lia). rewrite E. ring.
Qed.
Lemma csum_cut (f : nat -> C) a b : (forall i, (a <= i < b)%nat -> f i = 0) -> csum f b = csum f (Nat.min a b).
Proof.
  intros Z. destruct (Nat.le_ge_cases b a); [rewrite Nat.min_r by assumption; reflexivity|]. rewrite Nat.min_l by assumption. replace b with (a + (b - a))%nat at 1 by lia. rewrite csum_split, (csum_zero (fun k => f (a + k)%nat)) by (intros; apply Z; lia). ring.
Qed.

Definition blk (n j : nat) (y : vec) (k : nat) : C := if Nat.leb k n then RtoC ((-1) ^ k * sb (n + j) (n - k) * sb (n + j) (n + k)) * har y n (n + k) else 0.
Definition core (n j : nat) (y t : vec) : R := prr (blk n j y) t j.

Lemma sb_centre n j k : (k <= n)%nat -> (k <= j)%nat -> (sb (n + j) (n - k) * sb (n + j) (n + k) = INR (fact (n + j)) / (nf n (n + k) * nf j (j - k)))%R.
Proof.
  intros Hn Hj. unfold sb, nf. replace (2 * n - (n + k))%nat with (n - k)%nat by lia. replace (2 * j - (j - k))%nat with (j + k)%nat by lia. replace (n + j - (n - k))%nat with (j + k)%nat by lia. replace (n + j - (n + k))%nat with (j - k)%nat by lia.
  pose proof (INR_fact_lt_0 (n - k)). pose proof (INR_fact_lt_0 (n + k)). pose proof (INR_fact_lt_0 (j - k)). pose proof (INR_fact_lt_0 (j + k)). pose proof (INR_fact_lt_0 (n + j)).
  assert (P1 : (0 < INR (fact (n - k)) * INR (fact (j + k)))%R) by nra. assert (P2 : (0 < INR (fact (n + k)) * INR (fact (j - k)))%R) by nra. assert (P3 : (0 < INR (fact (n + k)) * INR (fact (n - k)))%R) by nra. assert (P4 : (0 < INR (fact (j - k)) * INR (fact (j + k)))%R) by nra.
  rewrite <- !sqrt_mult by (try (left; apply Rdiv_lt_0_compat; assumption); lra).
  replace (INR (fact (n + j)) / (INR (fact (n - k)) * INR (fact (j + k))) * (INR (fact (n + j)) / (INR (fact (n + k)) * INR (fact (j - k)))))%R
    with (INR (fact (n + j)) * INR (fact (n + j)) / (INR (fact (n + k)) * INR (fact (n - k)) * (INR (fact (j - k)) * INR (fact (j + k)))))%R by (field; lra).
  rewrite sqrt_div, sqrt_square by nra. reflexivity.
Qed.

Lemma core_hr n j y t : RtoC (INR (fact (n + j))) * csum (fun l => hr y n l * hr t j (n + j - l)) (S (n + j)) = RtoC (core n j y t).
Proof.
  unfold core, prr. rewrite csum_about, RtoC_rsum, csum_shift.
  rewrite (csum_cut (fun i => hr y n (n - S i) * _) j n) by (intros i Hi; rewrite (hr_high t) by lia; ring). rewrite (csum_cut (fun i => hr y n (n + S i) * _) n j) by (intros i Hi; rewrite (hr_high y) by lia; ring).
  rewrite (csum_cut (fun i => RtoC (eps (S i) * _)) n j) by (intros i Hi; unfold blk; destruct (Nat.leb_spec (S i) n); [lia|]; apply injective_projections; unfold Cmult, RtoC; cbn [fst snd]; ring).
  rewrite (Nat.min_comm j n), <- Cplus_assoc, <- csum_plus, Cmult_plus_distr_l, <- csum_scal.
  assert (T : forall k, (k <= n)%nat -> (k <= j)%nat -> RtoC (INR (fact (n + j))) * (hr y n (n + k) * hr t j (j - k)) = blk n j y k * Cconj (har t j (j + k))).
  { intros k Hn Hj. unfold blk. destruct (Nat.leb_spec k n); [|lia]. rewrite Rmult_assoc, sb_centre by assumption. assert (E : har t j (j - k) = RtoC ((-1) ^ k) * Cconj (har t j (j + k))) by (apply har_sym; exact Hj).
    rewrite RtoC_mult. transitivity (RtoC (INR (fact (n + j)) / (nf n (n + k) * nf j (j - k))) * har y n (n + k) * har t j (j - k)); [|rewrite E; ring]. rewrite !har_hr. pose proof (nf_pos n (n + k)). pose proof (nf_pos j (j - k)).
    transitivity (hr y n (n + k) * hr t j (j - k) * RtoC (INR (fact (n + j)) / (nf n (n + k) * nf j (j - k)) * nf n (n + k) * nf j (j - k))); [|rewrite !RtoC_mult; ring].
    replace (INR (fact (n + j)) / (nf n (n + k) * nf j (j - k)) * nf n (n + k) * nf j (j - k))%R with (INR (fact (n + j))) by (field; lra). ring. }
  f_equal.
  - replace (hr y n n * hr t j (n + j - n)) with (hr y n (n + 0) * hr t j (j - 0)) by (f_equal; f_equal; lia). rewrite T by lia. cbn [eps]. rewrite Rmult_1_l. apply re_real.
    unfold blk. cbn [Nat.leb pow]. pose proof (har_real y n) as H1. pose proof (har_real t j) as H2. destruct (har y n (n + 0)) as [a b], (har t j (j + 0)) as [a' b']. cbn [snd] in *. subst. unfold Cmult, Cconj, RtoC. cbn [fst snd]. ring.
  - apply csum_ext. intros i Hi. cbn [eps]. rewrite <- re_double, <- (T (S i)) by lia. rewrite Cmult_plus_distr_l, Cplus_comm. replace (n + j - (n + S i))%nat with (j - S i)%nat by lia. replace (n + j - (n - S i))%nat with (j + S i)%nat by lia. f_equal.
    rewrite !conj_mul, conj_RtoC. f_equal.
    assert (C1 : forall x m k, (k <= m)%nat -> hr x m (m - k) = RtoC ((-1) ^ k) * Cconj (hr x m (m + k))).
    { intros x m k Hk. unfold hr. rewrite (gco_sym x m (m - k) (m + k)) by lia. rewrite conj_mul, conj_RtoC. replace ((-1) ^ (m + (m + k)))%R with ((-1) ^ k)%R; [ring|]. replace (m + (m + k))%nat with (2 * m + k)%nat by lia. rewrite pow_add, pow_mult. replace ((-1) ^ 2)%R with 1%R by ring. rewrite pow1. ring. }
    rewrite (C1 y n) by lia. rewrite (C1 t j) by lia. rewrite conj_mul, conj_conj, conj_RtoC. pose proof (sgn_sq (S i)) as Sg. 
    transitivity (RtoC ((-1) ^ S i) * Cconj (hr y n (n + S i)) * hr t j (j + S i)); ring.
Qed.

Lemma core_sum N y t : rsum (fun n => core n (N - n) y t) (S N) = fst (har (vadd y t) N N).
Proof.
  apply RtoC_inj. rewrite RtoC_rsum. pose proof (har_real (vadd y t) N) as Hr. rewrite Nat.add_0_r in Hr. rewrite <- re_real by exact Hr. rewrite har_hr, hr_add by lia.
  assert (E : nf N N = INR (fact N)) by (unfold nf; replace (2 * N - N)%nat with N by lia; apply sqrt_square; pose proof (INR_fact_lt_0 N); lra). rewrite E, Cmult_comm, <- csum_scal. apply csum_ext. intros n Hn.
  rewrite <- core_hr. replace (n + (N - n))%nat with N by lia. reflexivity.
Qed.

Definition vopp (x : vec) : vec := vscale (-1) x.
Lemma core_opp_l n j y t : core n j (vopp y) t = ((-1) ^ n * core n j y t)%R.
Proof.
  unfold core, prr. rewrite <- rsum_scal. apply rsum_ext. intros k _. unfold blk, vopp. destruct (Nat.leb k n); [rewrite har_scale|]; unfold Cmult, Cconj, RtoC; cbn [fst snd]; ring.
Qed.
Lemma core_opp_r n j y t : core n j y (vopp t) = ((-1) ^ j * core n j y t)%R.
Proof.
  unfold core, prr. rewrite <- rsum_scal. apply rsum_ext. intros k _. unfold vopp. rewrite har_scale. generalize (blk n j y k). intros b. unfold Cmult, Cconj, RtoC; cbn [fst snd]; ring.
Qed.

(** size of one block *)
Lemma sb_sq n k : (sb n k * sb n k = INR (fact n) / (INR (fact k) * INR (fact (n - k))))%R.
Proof. apply sqrt_sqrt. pose proof (INR_fact_lt_0 n). pose proof (INR_fact_lt_0 k). pose proof (INR_fact_lt_0 (n - k)). left. apply Rdiv_lt_0_compat; nra. Qed.
Lemma sb_centre_le n j k : (k <= n)%nat -> (k <= j)%nat -> (sb (n + j) (n - k) * sb (n + j) (n + k) <= Binomial.C (n + j) n)%R.
Proof.
  induction k as [|k IH]; intros Hn Hj.
  - rewrite Nat.sub_0_r, Nat.add_0_r, sb_sq. right. reflexivity.
  - eapply Rle_trans; [|apply IH; lia]. rewrite !sb_centre by lia. pose proof (nf_pos n (n + k)). pose proof (nf_pos n (n + S k)). pose proof (nf_pos j (j - k)). pose proof (nf_pos j (j - S k)). pose proof (INR_fact_lt_0 (n + j)).
    unfold Rdiv. apply Rmult_le_compat_l; [lra|]. apply Rinv_le_contravar; [nra|].
    assert (A : forall m, (S k <= m)%nat -> (INR (fact (m - k)) * INR (fact (m + k)) <= INR (fact (m - S k)) * INR (fact (m + S k)))%R).
    { intros m Hm. replace (m - k)%nat with (S (m - S k)) by lia. rewrite Nat.add_succ_r, !fact_S_INR. pose proof (INR_fact_lt_0 (m - S k)). pose proof (INR_fact_lt_0 (m + k)). rewrite plus_INR. rewrite minus_INR by lia. rewrite S_INR. pose proof (pos_INR k). pose proof (pos_INR m).
      assert (0 < INR (fact (m - S k)) * INR (fact (m + k)))%R by nra. nra. }
    apply Rmult_le_compat; try lra; unfold nf; apply sqrt_le_1_alt.
    + replace (2 * n - (n + k))%nat with (n - k)%nat by lia. replace (2 * n - (n + S k))%nat with (n - S k)%nat by lia. pose proof (A n Hn). lra.
    + replace (2 * j - (j - k))%nat with (j + k)%nat by lia. replace (2 * j - (j - S k))%nat with (j + S k)%nat by lia. pose proof (A j Hj). lra.
Qed.

Lemma fst_mul_le (a b : C) (g h : R) : (0 < g)%R -> (0 < h)%R -> (Rabs (fst (a * Cconj b)%C) <= (fst (a * Cconj a)%C * (h / g) + fst (b * Cconj b)%C * (g / h)) / 2)%R.
Proof.
  intros Hg Hh. destruct a as [a1 a2], b as [b1 b2]. unfold Cmult, Cconj. cbn [fst snd]. set (k := (h / g)%R). assert (Hk : (0 < k)%R) by (apply Rdiv_lt_0_compat; assumption). replace (g / h)%R with (/ k)%R by (unfold k; field; lra).
  assert (K : (k * / k = 1)%R) by (field; lra). assert (0 < / k)%R by (apply Rinv_0_lt_compat; exact Hk).
  assert (Q : forall u v, (2 * Rabs (u * v) <= u * u * k + v * v * / k)%R).
  { intros u v. assert (0 <= (u * k - v) * (u * k - v) * / k)%R by (apply Rmult_le_pos; [apply Rle_0_sqr|lra]). assert (0 <= (u * k + v) * (u * k + v) * / k)%R by (apply Rmult_le_pos; [apply Rle_0_sqr|lra]).
    assert (E1 : ((u * k - v) * (u * k - v) * / k = u * u * k - 2 * (u * v) + v * v * / k)%R) by (transitivity (u * u * k * (k * / k) - 2 * (u * v) * (k * / k) + v * v * / k)%R; [ring|rewrite K; ring]).
    assert (E2 : ((u * k + v) * (u * k + v) * / k = u * u * k + 2 * (u * v) + v * v * / k)%R) by (transitivity (u * u * k * (k * / k) + 2 * (u * v) * (k * / k) + v * v * / k)%R; [ring|rewrite K; ring]).
    assert (Rabs (u * v) <= (u * u * k + v * v * / k) / 2)%R by (apply Rabs_le; lra). lra. }
  replace (a1 * b1 - a2 * - b2)%R with (a1 * b1 + a2 * b2)%R by ring. pose proof (Rabs_triang (a1 * b1) (a2 * b2)). pose proof (Q a1 b1). pose proof (Q a2 b2). lra.
Qed.

Lemma eps_pos m : (0 < eps m)%R.
Proof. destruct m; cbn; lra. Qed.
Lemma self_pos (a : C) : (0 <= fst (a * Cconj a)%C)%R.
Proof. destruct a. unfold Cmult, Cconj. cbn [fst snd]. nra. Qed.

Lemma core_bound n j y t a b : (vnorm y <= a)%R -> (vnorm t <= b)%R -> (0 < a)%R -> (0 < b)%R -> (Rabs (core n j y t) <= Binomial.C (n + j) n * (a ^ n * b ^ j))%R.
Proof.
  intros Ha Hb Pa Pb. pose proof (pow_lt a n Pa) as An. pose proof (pow_lt b j Pb) as Bj. set (g := (a ^ n)%R) in *. set (h := (b ^ j)%R) in *.
  assert (Bp : (0 <= Binomial.C (n + j) n)%R) by (unfold Binomial.C; left; apply Rdiv_lt_0_compat; [apply INR_fact_lt_0|apply Rmult_lt_0_compat; apply INR_fact_lt_0]).
  set (hy := fun m => if Nat.leb m n then har y n (n + m) else RtoC 0).
  assert (T : forall m, (m <= j)%nat -> (Rabs (eps m * fst (blk n j y m * Cconj (har t j (j + m)))%C) <= Binomial.C (n + j) n * (eps m * (fst (hy m * Cconj (hy m))%C * (h / g) + fst (har t j (j + m) * Cconj (har t j (j + m)))%C * (g / h)) / 2))%R).
  { intros m Hm. pose proof (eps_pos m) as Ep. unfold blk, hy. destruct (Nat.leb_spec m n) as [L|L].
    - replace (fst (RtoC ((-1) ^ m * sb (n + j) (n - m) * sb (n + j) (n + m)) * har y n (n + m) * Cconj (har t j (j + m)))%C)
        with ((-1) ^ m * (sb (n + j) (n - m) * sb (n + j) (n + m)) * fst (har y n (n + m) * Cconj (har t j (j + m)))%C)%R by (unfold Cmult, Cconj, RtoC; cbn [fst snd]; ring).
      rewrite !Rabs_mult, pow_1_abs, (Rabs_pos_eq (eps m)) by lra. rewrite <- (Rabs_mult (sb _ _)), (Rabs_pos_eq (sb _ _ * sb _ _)) by (left; apply Rmult_lt_0_compat; apply sb_pos).
      pose proof (fst_mul_le (har y n (n + m)) (har t j (j + m)) g h An Bj) as F. pose proof (sb_centre_le n j m L Hm) as Sl. assert (0 < sb (n + j) (n - m) * sb (n + j) (n + m))%R by (apply Rmult_lt_0_compat; apply sb_pos).
      pose proof (Rabs_pos (fst (har y n (n + m) * Cconj (har t j (j + m)))%C)) as Fp. set (F1 := Rabs (fst (har y n (n + m) * Cconj (har t j (j + m)))%C)) in *. set (F2 := ((fst (har y n (n + m) * Cconj (har y n (n + m)))%C * (h / g) + fst (har t j (j + m) * Cconj (har t j (j + m)))%C * (g / h)) / 2)%R) in *.
      apply Rle_trans with (Binomial.C (n + j) n * (eps m * F2))%R; [|right; unfold F2; field; lra]. apply Rle_trans with (Binomial.C (n + j) n * (eps m * F1))%R; [|apply Rmult_le_compat_l; [exact Bp|apply Rmult_le_compat_l; lra]].
      replace (eps m * (1 * (sb (n + j) (n - m) * sb (n + j) (n + m)) * F1))%R with (sb (n + j) (n - m) * sb (n + j) (n + m) * (eps m * F1))%R by ring. apply Rmult_le_compat_r; [apply Rmult_le_pos; lra|exact Sl].
    - replace (fst (RtoC 0 * Cconj (har t j (j + m)))%C) with 0%R by (unfold Cmult, Cconj, RtoC; cbn [fst snd]; ring). rewrite Rmult_0_r, Rabs_R0. pose proof (self_pos (har t j (j + m))). pose proof (self_pos (RtoC 0)).
      assert (0 < h / g)%R by (apply Rdiv_lt_0_compat; assumption). assert (0 < g / h)%R by (apply Rdiv_lt_0_compat; assumption). apply Rmult_le_pos; [exact Bp|]. apply Rmult_le_pos; [|lra]. apply Rmult_le_pos; [lra|]. nra. }
  unfold core, prr. eapply Rle_trans; [apply rsum_abs|]. eapply Rle_trans; [apply rsum_le; intros m Hm; apply T; lia|]. rewrite rsum_scal. apply Rmult_le_compat_l; [exact Bp|].
  assert (E1 : (rsum (fun m => eps m * fst (hy m * Cconj (hy m))%C) (S j) <= g * g)%R).
  { apply Rle_trans with (prr (fun m => har y n (n + m)) y n).
    - unfold prr. assert (Cut : forall a b f, (forall i, 0 <= f i)%R -> (rsum f (Nat.min a b) <= rsum f a)%R).
      { intros a' b' f Pf. assert (Mn : forall d k, (rsum f k <= rsum f (k + d))%R) by (induction d as [|d IHd]; intros k; [rewrite Nat.add_0_r; lra|]; rewrite Nat.add_succ_r; cbn [rsum]; pose proof (IHd k); pose proof (Pf (k + d)%nat); lra). pose proof (Mn (a' - Nat.min a' b')%nat (Nat.min a' b')) as Q. replace (Nat.min a' b' + (a' - Nat.min a' b'))%nat with a' in Q by lia. exact Q. }
      apply Rle_trans with (rsum (fun m => eps m * fst (har y n (n + m) * Cconj (har y n (n + m)))%C)%R (Nat.min (S n) (S j))); [|apply Cut; intros i; pose proof (eps_pos i); pose proof (self_pos (har y n (n + i))); nra].
      right. transitivity (rsum (fun m => eps m * fst (hy m * Cconj (hy m))%C)%R (Nat.min (S n) (S j))).
      + destruct (Nat.le_ge_cases (S j) (S n)); [rewrite Nat.min_r by assumption; reflexivity|]. rewrite Nat.min_l by assumption. assert (Sp : forall f d k, (forall i, (k <= i)%nat -> f i = 0%R) -> rsum f (k + d) = rsum f k) by (intros f d k Z; induction d as [|d IHd]; [rewrite Nat.add_0_r; reflexivity|]; rewrite Nat.add_succ_r; cbn [rsum]; rewrite IHd, Z by lia; ring).
        replace (S j) with (S n + (j - n))%nat by lia. apply Sp. intros i Hi. unfold hy. destruct (Nat.leb_spec i n); [lia|]. unfold Cmult, Cconj, RtoC. cbn [fst snd]. ring.
      + apply rsum_ext. intros m Hm. unfold hy. destruct (Nat.leb_spec m n); [reflexivity|lia].
    - rewrite har_energy. pose proof (vnorm_pos y). assert (0 <= vnorm y ^ n)%R by (apply pow_le; lra). assert (vnorm y ^ n <= g)%R by (apply pow_incr; lra). nra. }
  assert (E2 : (rsum (fun m => eps m * fst (har t j (j + m) * Cconj (har t j (j + m)))%C) (S j) <= h * h)%R).
  { change (prr (fun m => har t j (j + m)) t j <= h * h)%R. rewrite har_energy. pose proof (vnorm_pos t). assert (0 <= vnorm t ^ j)%R by (apply pow_le; lra). assert (vnorm t ^ j <= h)%R by (apply pow_incr; lra). nra. }
  assert (0 < h / g)%R by (apply Rdiv_lt_0_compat; assumption). assert (0 < g / h)%R by (apply Rdiv_lt_0_compat; assumption).
  rewrite (rsum_ext _ (fun m => h / g / 2 * (eps m * fst (hy m * Cconj (hy m))%C) + g / h / 2 * (eps m * fst (har t j (j + m) * Cconj (har t j (j + m)))%C))%R) by (intros; field; lra).
  rewrite rsum_plus, !rsum_scal. apply Rle_trans with (h / g / 2 * (g * g) + g / h / 2 * (h * h))%R; [|right; field; lra].
  apply Rplus_le_compat; (apply Rmult_le_compat_l; [lra|assumption]).
Qed.
