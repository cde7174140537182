(** Barnes-Hut with its own acceptance test: how near an accepted box may be, and what the
    expansion of one charge gives along a line through the centre. *)
From Coq Require Import Reals Qreals ZArith QArith List Bool Arith Lia Lra Psatz.
From Verif Require Import Base IndexModel RefineModel LookupModel TreeModel DagModel DagSpec DagProofs MethodModel GeomModel GeomSpec MacModel MacSpec MacProofs MacProps LegSpec LegProofs LapModel LapSpec LapArrays LapProofs TranModel TranSpec PotModel PotSpec PotFacts PotBoxes RunModel RunProofs RunTrees.
Import ListNotations.
Open Scope R_scope.

Lemma triangle a b c : dist a c <= dist a b + dist b c.
Proof.
  unfold dist. set (x1 := px a - px b). set (y1 := py a - py b). set (z1 := pz a - pz b). set (x2 := px b - px c). set (y2 := py b - py c). set (z2 := pz b - pz c).
  replace (px a - px c) with (x1 + x2) by (unfold x1, x2; ring). replace (py a - py c) with (y1 + y2) by (unfold y1, y2; ring). replace (pz a - pz c) with (z1 + z2) by (unfold z1, z2; ring). clearbody x1 y1 z1 x2 y2 z2. clear a b c.
  set (u := x1 ^ 2 + y1 ^ 2 + z1 ^ 2). set (v := x2 ^ 2 + y2 ^ 2 + z2 ^ 2). assert (G : forall x y z, 0 <= x ^ 2 + y ^ 2 + z ^ 2) by (intros x y z; pose proof (pow2_ge_0 x); pose proof (pow2_ge_0 y); pose proof (pow2_ge_0 z); lra). assert (U : 0 <= u) by apply G. assert (V : 0 <= v) by apply G.
  pose proof (sqrt_pos u) as SU. pose proof (sqrt_pos v) as SV. pose proof (sqrt_sqrt u U) as QU. pose proof (sqrt_sqrt v V) as QV.
  set (w := x1 * x2 + y1 * y2 + z1 * z2). assert (W : w <= sqrt u * sqrt v).
  { destruct (Rle_dec w 0) as [|Nw]; [pose proof (Rmult_le_pos _ _ SU SV); lra|]. apply Rsqr_incr_0; [|left; apply Rnot_le_lt, Nw|apply Rmult_le_pos; assumption]. unfold Rsqr. replace (sqrt u * sqrt v * (sqrt u * sqrt v)) with (u * v) by (transitivity ((sqrt u * sqrt u) * (sqrt v * sqrt v)); [rewrite QU, QV; reflexivity|ring]). unfold u, v, w.
    pose proof (pow2_ge_0 (x1 * y2 - y1 * x2)) as Q1. pose proof (pow2_ge_0 (x1 * z2 - z1 * x2)) as Q2. pose proof (pow2_ge_0 (y1 * z2 - z1 * y2)) as Q3. ring_simplify in Q1. ring_simplify in Q2. ring_simplify in Q3. ring_simplify. lra. }
  apply Rsqr_incr_0; [|apply sqrt_pos|lra]. unfold Rsqr. rewrite sqrt_sqrt by apply G. replace ((x1 + x2) ^ 2 + (y1 + y2) ^ 2 + (z1 + z2) ^ 2) with (u + 2 * w + v) by (unfold u, v, w; ring). nra.
Qed.

(** ** The boxes of the rational geometry *)
Lemma real_center d i c : center_from_index d i = Ok c -> real c = middle (real (dlow d)) (Q2R (dsize d)) i.
Proof.
  intros H. unfold center_from_index, corner in H. destruct (size_from_level d (ilevel i)) as [s|] eqn:E; [|discriminate]. cbn [bind] in H. injection H as <-. apply size_ok in E. destruct E as [L ->].
  assert (P : 0 < IZR (2 ^ ilevel i)) by (apply IZR_lt, Z.pow_pos_nonneg; lia). assert (N : ~ (inject_Z (2 ^ ilevel i) == 0)%Q) by (intros Z; apply Qeq_eqR in Z; rewrite Q2R_Z in Z; replace (Q2R 0) with 0 in Z by (unfold Q2R; cbn; lra); lra).
  unfold real, middle, side. cbn [coord GeomModel.px GeomModel.py GeomModel.pz LapModel.px LapModel.py LapModel.pz]. rewrite !Q2R_plus, !Q2R_mult, !Q2R_plus, !Q2R_div, !Q2R_Z by exact N. rewrite pow2_R by exact L. replace (Q2R (1 # 2)) with (1 / 2) by (unfold Q2R; cbn; lra). f_equal; field; lra.
Qed.
Lemma real_size d l s : size_from_level d l = Ok s -> Q2R s = side (Q2R (dsize d)) l.
Proof.
  intros E. apply size_ok in E. destruct E as [L ->]. assert (P : 0 < IZR (2 ^ l)) by (apply IZR_lt, Z.pow_pos_nonneg; lia). assert (N : ~ (inject_Z (2 ^ l) == 0)%Q) by (intros Z; apply Qeq_eqR in Z; rewrite Q2R_Z in Z; replace (Q2R 0) with 0 in Z by (unfold Q2R; cbn; lra); lra).
  rewrite Q2R_div, Q2R_Z by exact N. unfold side. rewrite pow2_R by exact L. reflexivity.
Qed.
Lemma real_dist p q : sqrt (Q2R (square_dist p q)) = dist (real q) (real p).
Proof. unfold square_dist, dist, real. cbn [coord LapModel.px LapModel.py LapModel.pz]. rewrite !Q2R_plus, !Q2R_mult, !Q2R_minus. f_equal. ring. Qed.
Lemma real_cube d i c s p : center_from_index d i = Ok c -> size_from_level d (ilevel i) = Ok s -> in_cube c s p -> inside (real (dlow d)) (Q2R (dsize d)) i (real p).
Proof.
  intros Hc Hs H. unfold inside. rewrite <- (real_center d i c Hc), <- (real_size d _ s Hs). unfold real. cbn [coord LapModel.px LapModel.py LapModel.pz].
  assert (G : forall a, Rabs (Q2R (coord a p) - Q2R (coord a c)) <= Q2R s / 2).
  { intros a. destruct (H a) as [A B]. apply Qle_Rle in A, B. rewrite Q2R_minus, Q2R_mult in A. rewrite Q2R_plus, Q2R_mult in B. replace (Q2R (1 # 2)) with (1 / 2) in A, B by (unfold Q2R; cbn; lra). apply Rabs_le. lra. }
  exact (Logic.conj (G AX) (Logic.conj (G AY) (G AZ))).
Qed.

(** A point of a target box no more than [2 ^ k] times as large as the accepted box is seen
    from its centre at least at the accepted distance less the diagonal of the target box. *)
Lemma accepted_far theta d c q k t : (0 < dsize d)%Q -> (0 < theta)%Q -> bh_accept theta d c q = true -> (length c <= length q + k)%nat ->
  inside (real (dlow d)) (Q2R (dsize d)) (idx_of q) t ->
  (1 / Q2R theta - sqrt 3 * 2 ^ k) * side (Q2R (dsize d)) (ilevel (idx_of c)) <= dist (middle (real (dlow d)) (Q2R (dsize d)) (idx_of c)) t.
Proof.
  intros Hd Ht H Hk It. unfold bh_accept, can_use in H. destruct (center_from_index d (idx_of q)) as [tc|] eqn:E1; [|discriminate]. cbn [bind] in H. destruct (size_from_level d (ilevel (idx_of q))) as [ts|] eqn:E2; [|discriminate]. cbn [bind] in H. destruct (center_from_index d (idx_of c)) as [sc|] eqn:E3; [|discriminate]. cbn [bind] in H. destruct (size_from_level d (ilevel (idx_of c))) as [sz|] eqn:E4; [|discriminate]. cbn [bind] in H.
  assert (Hd0 : (0 <= dsize d)%Q) by (apply Qlt_le_weak, Hd). assert (Ps : (0 <= sz)%Q) by (eapply size_pos; eassumption). assert (Pt : (0 <= ts)%Q) by (eapply size_pos; eassumption).
  apply mac_angle in H; [|exact Ps]. destruct H as [H0 H]. pose proof (nearest_in sc tc ts Pt) as In. apply (real_cube d (idx_of q) tc ts _ E1 E2) in In. set (n := nearest sc tc ts) in *. rewrite real_dist, (real_center d _ _ E3), (real_size d _ _ E4) in H.
  assert (D0 : 0 < dist (middle (real (dlow d)) (Q2R (dsize d)) (idx_of c)) (real n)) by (rewrite <- (real_center d _ _ E3), <- real_dist; apply sqrt_lt_R0, H0).
  apply Q2R_pos in Hd, Ht. pose proof (inside_radius _ _ _ _ Hd In) as R1. pose proof (inside_radius _ _ _ _ Hd It) as R2. unfold radius in R1, R2. set (sq := side (Q2R (dsize d)) (ilevel (idx_of q))) in *. set (sc' := side (Q2R (dsize d)) (ilevel (idx_of c))) in *. set (mc := middle _ _ (idx_of c)) in *. set (mq := middle _ _ (idx_of q)) in *.
  pose proof (triangle mc t (real n)) as T1. pose proof (triangle t mq (real n)) as T2. rewrite (dist_sym t mq) in T2.
  assert (Sq : sq <= 2 ^ k * sc').
  { unfold sq, sc', side. rewrite !idx_level. rewrite <- !pow_powerRZ. pose proof (pow_lt 2 (length q) ltac:(lra)) as P1. pose proof (pow_lt 2 (length c) ltac:(lra)) as P2. assert (L : 2 ^ length c <= 2 ^ k * 2 ^ length q) by (rewrite <- pow_add; apply Rle_pow; [lra|lia]).
    apply Rmult_le_reg_r with (2 ^ length q * 2 ^ length c); [apply Rmult_lt_0_compat; assumption|]. replace (Q2R (dsize d) / 2 ^ length q * (2 ^ length q * 2 ^ length c)) with (Q2R (dsize d) * 2 ^ length c) by (field; lra). replace (2 ^ k * (Q2R (dsize d) / 2 ^ length c) * (2 ^ length q * 2 ^ length c)) with (Q2R (dsize d) * (2 ^ k * 2 ^ length q)) by (field; lra). apply Rmult_le_compat_l; lra. }
  assert (F : 1 / Q2R theta * sc' <= dist mc (real n)).
  { apply Rmult_le_reg_l with (Q2R theta); [exact Ht|]. replace (Q2R theta * (1 / Q2R theta * sc')) with sc' by (field; lra). left. apply (Rmult_lt_compat_r _ _ _ D0) in H. unfold Rdiv in H. rewrite Rmult_assoc, Rinv_l, Rmult_1_r in H by lra. exact H. }
  pose proof (sqrt_pos 3) as S3. assert (G : sqrt 3 * sq <= sqrt 3 * (2 ^ k * sc')) by (apply Rmult_le_compat_l; assumption). lra.
Qed.

(** ** One charge on a line with the target and the centre *)
Lemma geometric a r p : 0 < a < r -> sumlt (fun n => a ^ n / r ^ S n) (S p) = (1 - (a / r) ^ S p) / (r - a).
Proof.
  intros H. induction p as [|p IH]; [cbn [sumlt pow]; field; lra|]. change (sumlt ?f (S (S p))) with (sumlt f (S p) + f (S p)). rewrite IH. assert (E : forall k, (a / r) ^ k = a ^ k / r ^ k) by (intros k; unfold Rdiv; rewrite Rpow_mult_distr, pow_inv; reflexivity). rewrite !E. change (a ^ S (S p)) with (a * a ^ S p). change (r ^ S (S p)) with (r * r ^ S p). pose proof (pow_lt r (S p) ltac:(lra)). field. lra.
Qed.
Lemma on_line p sqf scale c s t a r (d := point_sub (cpos s) c) (u := point_sub t c) : generate_sqf p = Ok sqf -> scale <> 0 -> regular c (cpos s) -> regular c t -> norm3 d = a -> norm3 u = r -> 0 < a < r -> dot d u = a * r ->
  exists M, S_to_M p sqf scale c [s] = Ok M /\ M_to_T p sqf scale c M t 0 = Ok (cq s * (1 - (a / r) ^ S p) / (r - a)).
Proof.
  intros HT Hs Rs Rt Ea Er Har Ed. apply table_ok in HT. assert (Hd : 0 < norm3 d) by lra. assert (Hu : 0 < norm3 u) by lra.
  destruct (sources_ok p (fun M s => lap_s_to_m p sqf (point_sub (cpos s) c) (cq s) scale M) (fun r n => (r * scale) ^ n) c [s]) with (c := fun _ _ : nat => (0, 0)) (M := new_expansion p) as (M & c' & E & HM & V).
  - intros M c0 s0 b e HM _ Hb Ha. apply s_to_m_ok; assumption.
  - intros s0 [<-|[]]. exact Hd.
  - apply new_coefs.
  - exists M. split; [exact E|]. destruct (angles_ok 1 u ltac:(ring) Hu) as (b & eb & Au & Bb & _). unfold M_to_T. fold u.
    rewrite (m_to_t_ok p sqf u scale c' M (norm3 u) b eb HT HM Au Bb Hu Hs). cbn [bind]. f_equal. rewrite Rplus_0_l.
    rewrite (V u b eb _ Hu Au), pot_zero, Rplus_0_l. cbn [fold_right]. cbv zeta. fold d. rewrite Rplus_0_r.
    assert (Eff : forall x, regular c x -> eff (point_sub x c) = point_sub x c).
    { intros x Rx. assert (Px : place c x = x) by (apply (place_seen c x); [destruct Rx as [Rx _]; pose proof tiny_pos as Tp; eapply Rlt_trans; [|exact Rx]; apply Rinv_0_lt_compat, pow_lt; lra|exact Rx]). unfold place, shift in Px. destruct x as [x y z], (eff _) as [x' y' z'], c as [cx cy cz]. unfold point_sub. cbn in *. injection Px as P1 P2 P3. f_equal; lra. }
    unfold d, u in Ed, Ea, Er |- *. rewrite (Eff _ Rs), (Eff _ Rt), Ed, Ea, Er. replace (a * r / (a * r)) with 1 by (field; lra).
    unfold contrib. replace (cq s * (1 - (a / r) ^ S p) / (r - a)) with (cq s * ((1 - (a / r) ^ S p) / (r - a))) by (unfold Rdiv; ring). rewrite <- geometric by exact Har. rewrite <- sumlt_scal. apply sumlt_ext. intros n _. rewrite (proj1 (D_one n)), !Rpow_mult_distr. simpl pow. field. repeat split; try (apply pow_nonzero); lra.
Qed.
