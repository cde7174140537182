(** Checking on one cell that a sum of waves is close to the inverse of the distance. *)
From Coq Require Import Reals ZArith List Lia Lra Psatz Bool.
From Coquelicot Require Import Coquelicot.
From Verif Require Import QuadBall QuadFun.
Import ListNotations.
Open Scope R_scope.

(** ** Lists of numbers *)
Definition outer (u v : list ball) : list ball := flat_map (fun a => map (bmul a) v) u.
Definition outerR (u v : list R) : list R := flat_map (fun a => map (Rmult a) v) u.
Fixpoint ladd (u v : list ball) : list ball := match u, v with a :: u, b :: v => badd a b :: ladd u v | _, _ => [] end.
Fixpoint laddR (u v : list R) : list R := match u, v with a :: u, b :: v => a + b :: laddR u v | _, _ => [] end.
Fixpoint accum (A Y : list (list ball)) : list ball := match A, Y with a :: A, y :: Y => ladd (outer a y) (accum A Y) | _, _ => repeat (bofZ 0) 27 end.
Fixpoint accumR (A Y : list (list R)) : list R := match A, Y with a :: A, y :: Y => laddR (outerR a y) (accumR A Y) | _, _ => repeat 0 27 end.
Fixpoint dot (u v : list R) : R := match u, v with a :: u, b :: v => a * b + dot u v | _, _ => 0 end.
Definition holds := List.Forall2 within.
Fixpoint mags (l : list ball) : Z := match l with [] => 0%Z | b :: l => (bmag b + mags l)%Z end.

Lemma holds_map a x v y : within a x -> holds v y -> holds (map (bmul a) v) (map (Rmult x) y).
Proof. intros H V. induction V as [|b z v y H1 H2 IH]; [constructor|]. cbn [map]. constructor; [apply bmul_ok; assumption|exact IH]. Qed.
Lemma outer_ok u x v y : holds u x -> holds v y -> holds (outer u v) (outerR x y).
Proof. intros U V. induction U as [|a z u x H1 H2 IH]; [constructor|]. cbn [outer outerR flat_map]. apply Forall2_app; [apply holds_map; assumption|exact IH]. Qed.
Lemma ladd_ok u x v y : holds u x -> holds v y -> holds (ladd u v) (laddR x y).
Proof. intros U. revert v y. induction U as [|a z u x H1 H2 IH]; intros v y V; [constructor|]. destruct V as [|b t v y V1 V2]; [constructor|]. cbn [ladd laddR]. constructor; [apply badd_ok; assumption|apply IH, V2]. Qed.
Lemma accum_ok A X B Y : List.Forall2 holds A X -> List.Forall2 holds B Y -> holds (accum A B) (accumR X Y).
Proof.
  intros U. revert B Y. assert (Z : holds (repeat (bofZ 0) 27) (repeat 0 27)) by (cbn [repeat]; repeat (constructor; [apply bofZ_ok|]); constructor).
  induction U as [|a x A X H1 H2 IH]; intros B Y V; [exact Z|]. destruct V as [|b y B Y V1 V2]; [exact Z|]. cbn [accum accumR]. apply ladd_ok; [apply outer_ok; assumption|apply IH, V2].
Qed.
Lemma dot_app u v m n : length u = length m -> dot (u ++ v) (m ++ n) = dot u m + dot v n.
Proof. revert m. induction u as [|a u IH]; intros [|b m] H; cbn in H; try discriminate; [cbn; ring|]. cbn [app dot]. rewrite IH by lia. ring. Qed.
Lemma dot_scale a b v n : dot (map (Rmult a) v) (map (Rmult b) n) = a * b * dot v n.
Proof. revert n. induction v as [|x v IH]; intros [|y n]; cbn [map dot]; try ring. rewrite IH. ring. Qed.
Lemma dot_outer u v m n : length u = length m -> length v = length n -> dot (outerR u v) (outerR m n) = dot u m * dot v n.
Proof.
  intros H K. revert m H. induction u as [|a u IH]; intros [|b m] H; cbn in H; try discriminate; [cbn; ring|]. cbn [outerR flat_map dot]. rewrite dot_app by (rewrite !map_length; exact K). fold (outerR u v) (outerR m n). rewrite dot_scale, IH by lia. ring.
Qed.
Lemma dot_ladd u v m : length u = length v -> dot (laddR u v) m = dot u m + dot v m.
Proof. revert v m. induction u as [|a u IH]; intros [|b v] m H; cbn in H; try discriminate; [cbn; ring|]. destruct m as [|c m]; cbn [laddR dot]; [ring|]. rewrite IH by lia. ring. Qed.
Lemma outerR_length u v : length (outerR u v) = (length u * length v)%nat.
Proof. induction u as [|a u IH]; [reflexivity|]. cbn [outerR flat_map length]. rewrite app_length, map_length. fold (outerR u v). rewrite IH. lia. Qed.
Lemma laddR_length u v : length u = length v -> length (laddR u v) = length u.
Proof. revert v. induction u as [|a u IH]; intros [|b v] H; cbn in *; try discriminate; [reflexivity|]. rewrite IH; lia. Qed.
Lemma dot_zeros n m : dot (repeat 0 n) m = 0.
Proof. revert m. induction n as [|n IH]; intros [|b m]; cbn [repeat dot]; try ring. rewrite IH. ring. Qed.

Definition mono (u : R) : list R := [1; u; u ^ 2].
Definition mono3 (z x y : R) : list R := outerR (outerR (mono z) (mono x)) (mono y).
Lemma mono3_small z x y : Rabs z <= 1 -> Rabs x <= 1 -> Rabs y <= 1 -> List.Forall (fun v => Rabs v <= 1) (mono3 z x y).
Proof.
  intros Hz Hx Hy. assert (M : forall u, Rabs u <= 1 -> List.Forall (fun v => Rabs v <= 1) (mono u)).
  { intros u H. unfold mono. pose proof (Rabs_pos u). apply List.Forall_cons; [rewrite Rabs_R1; lra|]. apply List.Forall_cons; [exact H|]. apply List.Forall_cons; [|apply List.Forall_nil]. rewrite <- RPow_abs. nra. }
  assert (O : forall a b, List.Forall (fun v => Rabs v <= 1) a -> List.Forall (fun v => Rabs v <= 1) b -> List.Forall (fun v => Rabs v <= 1) (outerR a b)).
  { intros a b Ha Hb. apply List.Forall_forall. intros v Hv. apply in_flat_map in Hv. destruct Hv as (p & Hp & Hv). apply in_map_iff in Hv. destruct Hv as (q & <- & Hq).
    rewrite List.Forall_forall in Ha, Hb. specialize (Ha p Hp). specialize (Hb q Hq). cbn beta in *. rewrite Rabs_mult. pose proof (Rabs_pos p). pose proof (Rabs_pos q). nra. }
  unfold mono3. apply O; [apply O|]; apply M; assumption.
Qed.
Lemma dot_mags l x m : holds l x -> List.Forall (fun v => Rabs v <= 1) m -> Rabs (dot x m) * IZR SC <= IZR (mags l).
Proof.
  intros H. revert m. pose proof SCR as PS. induction H as [|b y l x H1 H2 IH]; intros m Hm.
  - cbn [dot mags]. rewrite Rabs_R0. lra.
  - cbn [mags]. rewrite plus_IZR. pose proof (bmag_ok _ _ H1) as B. destruct m as [|c m].
    + cbn [dot]. rewrite Rabs_R0. specialize (IH [] ltac:(constructor)). destruct x as [|? x]; cbn [dot] in IH; rewrite Rabs_R0 in IH; pose proof (Rabs_pos y); nra.
    + inversion Hm as [|? ? Hc Hm']; subst. specialize (IH m Hm'). cbn [dot].
      assert (Rabs (y * c + dot x m) <= Rabs y + Rabs (dot x m)) by (eapply Rle_trans; [apply Rabs_triang|]; apply Rplus_le_compat_r; rewrite Rabs_mult; pose proof (Rabs_pos y); pose proof (Rabs_pos c); nra). nra.
Qed.

(** ** The waves: weight * exp (- lambda z) * cos (a x) * cos (b y) *)
Record rterm := RT { r_l : R; r_w : R; r_a : R; r_b : R }.
Definition wave1 (z x y : R) (t : rterm) : R := r_w t * exp (- (r_l t * z)) * cos (r_a t * x) * cos (r_b t * y).
Definition waves1 (l : list rterm) (z x y : R) : R := fold_right (fun t v => wave1 z x y t + v) 0 l.
Definition plain (t : rterm) : Prop := 0 <= r_l t <= 8 /\ 0 <= r_w t /\ 0 <= r_a t <= 8 /\ 0 <= r_b t <= 8.

(** The cell is given by its middle and half its side in 16ths. *)
Definition g (n : Z) : R := IZR n / 16.
Definition zco (nz nh : Z) (t : rterm) : list R := let E := r_w t * exp (- (r_l t * g nz)) in let u := r_l t * g nh in [E; - (u * E); u * (u * E) / 2].
Definition xco (a : R) (n nh : Z) : list R := let v := a * g nh in [cos (a * g n); - (v * sin (a * g n)); - (v * (v * cos (a * g n)) / 2)].
Definition cub (v : R) : R := v * (v * v) / 6.
Definition remw (nz nh : Z) (t : rterm) : R :=
  r_w t * exp (- (r_l t * g (nz - nh))) * (cub (r_l t * g nh) + (1 + cub (r_l t * g nh)) * (cub (r_a t * g nh) + (1 + cub (r_a t * g nh)) * cub (r_b t * g nh))).

Lemma xco_ok a n nh x : 0 <= a -> (0 <= nh)%Z -> Rabs x <= 1 -> Rabs (cos (a * (g n + g nh * x)) - dot (xco a n nh) (mono x)) <= cub (a * g nh).
Proof.
  intros Ha Hn Hx. assert (G : 0 <= g nh) by (unfold g; apply IZR_le in Hn; lra). pose proof (taylor2_cos (a * g n) (a * g nh * x)) as T. unfold xco, mono, cub. cbn [dot].
  replace (a * (g n + g nh * x)) with (a * g n + a * g nh * x) by ring. set (v := a * g nh) in *. assert (V : 0 <= v) by (unfold v; nra).
  replace (cos (a * g n) * 1 + (- (v * sin (a * g n)) * x + (- (v * (v * cos (a * g n)) / 2) * x ^ 2 + 0))) with (cos (a * g n) - sin (a * g n) * (v * x) - cos (a * g n) / 2 * (v * x) ^ 2) by field.
  eapply Rle_trans; [exact T|]. rewrite Rabs_mult, (Rabs_right v) by lra. pose proof (Rabs_pos x). assert (v * Rabs x <= v) by nra. assert ((v * Rabs x) ^ 3 <= v ^ 3) by (apply pow_incr; nra). unfold Rdiv. nra.
Qed.
Lemma zco_ok nz nh t z : plain t -> (0 <= nh)%Z -> Rabs z <= 1 -> Rabs (r_w t * exp (- (r_l t * (g nz + g nh * z))) - dot (zco nz nh t) (mono z)) <= r_w t * exp (- (r_l t * g (nz - nh))) * cub (r_l t * g nh).
Proof.
  intros (Hl & Hw & _) Hn Hz. assert (G : 0 <= g nh) by (unfold g; apply IZR_le in Hn; lra). unfold zco, mono, cub. cbn [dot]. set (u := r_l t * g nh) in *. assert (U : 0 <= u) by (unfold u; nra).
  replace (- (r_l t * (g nz + g nh * z))) with (- (r_l t * g nz) + - (u * z)) by (unfold u; ring). rewrite exp_plus. set (E := exp (- (r_l t * g nz))).
  replace (- (r_l t * g (nz - nh))) with (- (r_l t * g nz) + u) by (unfold u, g; rewrite minus_IZR; field). rewrite exp_plus. fold E. assert (PE : 0 < E) by apply exp_pos.
  replace (r_w t * (E * exp (- (u * z))) - (r_w t * E * 1 + (- (u * (r_w t * E)) * z + (u * (u * (r_w t * E)) / 2 * z ^ 2 + 0)))) with (r_w t * E * (exp (- (u * z)) - (1 + - (u * z) + (- (u * z)) ^ 2 / 2))) by field.
  rewrite Rabs_mult, (Rabs_right (r_w t * E)) by nra. rewrite (Rmult_assoc (r_w t)), (Rmult_assoc (r_w t)). apply Rmult_le_compat_l; [exact Hw|]. rewrite (Rmult_assoc E). apply Rmult_le_compat_l; [lra|].
  eapply Rle_trans; [apply taylor2_exp|]. assert (A : Rabs (- (u * z)) <= u) by (rewrite Rabs_Ropp, Rabs_mult, (Rabs_right u) by lra; nra). pose proof (Rabs_pos (- (u * z))) as A0.
  assert (Rabs (- (u * z)) ^ 3 <= u ^ 3) by (apply pow_incr; lra). assert (exp (Rabs (- (u * z))) <= exp u) by (destruct (Rle_lt_or_eq_dec _ _ A) as [L|L]; [left; apply exp_increasing, L|rewrite L; right; reflexivity]).
  pose proof (exp_pos (Rabs (- (u * z)))). rewrite (Rmult_comm (exp u)). apply Rmult_le_compat; [|lra| |assumption]; [pose proof (pow_le _ 3 A0); lra|lra].
Qed.
Lemma wave_rem nz nx ny nh t z x y : plain t -> (0 <= nh)%Z -> Rabs z <= 1 -> Rabs x <= 1 -> Rabs y <= 1 ->
  Rabs (wave1 (g nz + g nh * z) (g nx + g nh * x) (g ny + g nh * y) t - dot (zco nz nh t) (mono z) * dot (xco (r_a t) nx nh) (mono x) * dot (xco (r_b t) ny nh) (mono y)) <= remw nz nh t.
Proof.
  intros P Hn Hz Hx Hy. pose proof P as (Hl & Hw & Ha & Hb). pose proof (zco_ok nz nh t z P Hn Hz) as Z. pose proof (xco_ok (r_a t) nx nh x ltac:(lra) Hn Hx) as X. pose proof (xco_ok (r_b t) ny nh y ltac:(lra) Hn Hy) as Y.
  unfold wave1, remw. set (f := r_w t * exp (- (r_l t * (g nz + g nh * z)))) in *. set (h := cos (r_a t * (g nx + g nh * x))) in *. set (k := cos (r_b t * (g ny + g nh * y))) in *.
  set (fp := dot (zco nz nh t) (mono z)) in *. set (hp := dot (xco (r_a t) nx nh) (mono x)) in *. set (kp := dot (xco (r_b t) ny nh) (mono y)) in *. set (W := r_w t * exp (- (r_l t * g (nz - nh)))) in *.
  assert (G : 0 <= g nh) by (unfold g; apply IZR_le in Hn; lra).
  assert (F : Rabs f <= W).
  { unfold f, W. rewrite Rabs_mult, (Rabs_right (r_w t)), (Rabs_right (exp _)) by (try (apply Rle_ge; left; apply exp_pos); lra). apply Rmult_le_compat_l; [exact Hw|]. apply Rabs_le_between in Hz.
    assert (L : - (r_l t * (g nz + g nh * z)) <= - (r_l t * g (nz - nh))). { replace (g (nz - nh)) with (g nz - g nh) by (unfold g; rewrite minus_IZR; field). assert (g nz - g nh <= g nz + g nh * z) by nra. nra. }
    destruct (Rle_lt_or_eq_dec _ _ L) as [L'|L']; [left; apply exp_increasing, L'|rewrite L'; right; reflexivity]. }
  assert (H1 : Rabs h <= 1) by (apply Rabs_le_between; apply COS_bound). assert (K1 : Rabs k <= 1) by (apply Rabs_le_between; apply COS_bound).
  set (cz := cub (r_l t * g nh)) in *. set (cx := cub (r_a t * g nh)) in *. set (cy := cub (r_b t * g nh)) in *.
  assert (PW : 0 <= W) by (pose proof (Rabs_pos f); lra). assert (PX : 0 <= cx) by (pose proof (Rabs_pos (h - hp)); lra). assert (PY : 0 <= cy) by (pose proof (Rabs_pos (k - kp)); lra).
  assert (HP : Rabs hp <= 1 + cx) by (replace hp with (h - (h - hp)) by ring; eapply Rle_trans; [apply Rabs_triang|]; rewrite Rabs_Ropp; lra).
  assert (PZ : 0 <= cz).
  { unfold cz, cub. assert (U : 0 <= r_l t * g nh) by nra. pose proof (Rmult_le_pos _ _ U (Rmult_le_pos _ _ U U)). lra. }
  assert (FP : Rabs fp <= W * (1 + cz)) by (replace fp with (f - (f - fp)) by ring; eapply Rle_trans; [apply Rabs_triang|]; rewrite Rabs_Ropp; lra).
  replace (f * h * k - fp * hp * kp) with ((f - fp) * (h * k) + fp * ((h - hp) * k + hp * (k - kp))) by ring.
  eapply Rle_trans; [apply Rabs_triang|]. rewrite !Rabs_mult. rewrite Rmult_plus_distr_l, <- (Rmult_assoc W (1 + cz)).
  pose proof (Rabs_pos h). pose proof (Rabs_pos k). pose proof (Rabs_pos hp). pose proof (Rabs_pos (f - fp)). pose proof (Rabs_pos fp).
  apply Rplus_le_compat; [rewrite <- (Rmult_1_r (W * cz)); apply Rmult_le_compat; [lra|apply Rmult_le_pos; lra|exact Z|]; nra|].
  apply Rmult_le_compat; [lra|apply Rabs_pos|exact FP|]. eapply Rle_trans; [apply Rabs_triang|]. rewrite !Rabs_mult. pose proof (Rabs_pos (h - hp)). pose proof (Rabs_pos (k - kp)).
  apply Rplus_le_compat; [rewrite <- (Rmult_1_r cx); apply Rmult_le_compat; assumption|apply Rmult_le_compat; assumption].
Qed.

(** ** The inverse of the distance *)
Lemma sqrt_near u : -1 <= u -> Rabs (sqrt (1 + u) - 1) * (1 + sqrt (1 + u)) = Rabs u.
Proof.
  intros H. pose proof (sqrt_pos (1 + u)) as P. pose proof (sqrt_sqrt (1 + u) ltac:(lra)) as S. rewrite <- (Rabs_right (1 + sqrt (1 + u))) by lra. rewrite <- Rabs_mult. f_equal. nra.
Qed.
Lemma inv_near t T : Rabs t <= T -> T <= 3 / 10 -> Rabs (/ sqrt (1 + t) - (1 - t / 2 + 3 / 8 * t ^ 2)) <= 9 / 20 * T ^ 3.
Proof.
  intros Ht HT. apply Rabs_le_between in Ht. set (P := 1 - t / 2 + 3 / 8 * t ^ 2). set (r := sqrt (1 + t)). assert (Pr : 0 < r) by (apply sqrt_lt_R0; lra). pose proof (sqrt_sqrt (1 + t) ltac:(lra)) as S. fold r in S.
  assert (PP : 0 < P) by (unfold P; nra). set (u := t ^ 3 * (5 / 8 - 15 / 64 * t + 9 / 64 * t ^ 2)). assert (E : P * P * (1 + t) = 1 + u) by (unfold P, u; field).
  assert (Q : sqrt (1 + u) = P * r). { rewrite <- E, <- S. replace (P * P * (r * r)) with ((P * r) * (P * r)) by ring. apply sqrt_square. nra. }
  assert (R7 : 7 / 10 <= r * r) by lra. assert (R8 : 83 / 100 <= r) by nra. assert (T3 : Rabs t ^ 3 <= T ^ 3) by (apply pow_incr; split; [apply Rabs_pos|apply Rabs_le_between; lra]).
  assert (U : Rabs u <= T ^ 3 * (71 / 100)). { unfold u. rewrite Rabs_mult, <- RPow_abs. apply Rmult_le_compat; [apply pow_le, Rabs_pos|apply Rabs_pos|exact T3|]. apply Rabs_le_between. split; nra. }
  assert (T0 : T ^ 3 <= (3 / 10) ^ 3) by (apply pow_incr; lra). assert (U1 : -1 <= u) by (apply Rabs_le_between in U; lra). pose proof (sqrt_near u U1) as N. rewrite Q in N.
  assert (L : 97 / 100 <= P * r). { rewrite <- Q. rewrite <- (sqrt_square (97 / 100)) by lra. apply sqrt_le_1_alt. apply Rabs_le_between in U. lra. }
  assert (D : Rabs (P * r - 1) <= T ^ 3 * (71 / 197)). { pose proof (Rabs_pos (P * r - 1)). nra. }
  replace (/ r - P) with (- ((P * r - 1) * / r)) by (field; lra). rewrite Rabs_Ropp, Rabs_mult, (Rabs_right (/ r)) by (apply Rle_ge; left; apply Rinv_0_lt_compat; exact Pr).
  assert (I : / r <= 100 / 83) by (rewrite <- (Rinv_inv (100 / 83)); apply Rinv_le_contravar; lra). assert (0 <= T ^ 3) by (apply pow_le; lra). pose proof (Rabs_pos (P * r - 1)). assert (0 < / r) by (apply Rinv_0_lt_compat; exact Pr).
  eapply Rle_trans; [apply Rmult_le_compat; [assumption|lra|exact D|exact I]|]. lra.
Qed.
Definition dsq (nx ny nz : Z) : Z := (nx * nx + ny * ny + nz * nz)%Z.
(** The coefficients in the order of [mono3]: z, x, y *)
Definition icoR (nx ny nz nh : Z) : list R :=
  let S := IZR (dsq nx ny nz) in let X := IZR nx in let Y := IZR ny in let W := IZR nz in let h := IZR nh in
  [1; - (Y * h / S); h * h * (3 * Y * Y - S) / (2 * S * S);
   - (X * h / S); 3 * X * Y * h * h / (S * S); 0;
   h * h * (3 * X * X - S) / (2 * S * S); 0; 0;
   - (W * h / S); 3 * W * Y * h * h / (S * S); 0;
   3 * W * X * h * h / (S * S); 0; 0; 0; 0; 0;
   h * h * (3 * W * W - S) / (2 * S * S); 0; 0; 0; 0; 0; 0; 0; 0].
Definition remi (nx ny nz nh : Z) : R :=
  let S := IZR (dsq nx ny nz) in let a := 2 * IZR nh * (IZR nx + IZR ny + IZR nz) / S in let d := 3 * IZR nh * IZR nh / S in
  9 / 20 * (a + d) ^ 3 + 3 / 8 * (2 * a * d + d * d).
Lemma ico_ok nx ny nz nh z x y : (0 <= nx)%Z -> (0 <= ny)%Z -> (0 < nz)%Z -> (0 <= nh)%Z ->
  2 * IZR nh * (IZR nx + IZR ny + IZR nz) / IZR (dsq nx ny nz) + 3 * IZR nh * IZR nh / IZR (dsq nx ny nz) <= 3 / 10 -> Rabs z <= 1 -> Rabs x <= 1 -> Rabs y <= 1 ->
  Rabs (/ sqrt ((g nx + g nh * x) ^ 2 + (g ny + g nh * y) ^ 2 + (g nz + g nh * z) ^ 2) - dot (map (Rmult (16 * / sqrt (IZR (dsq nx ny nz)))) (icoR nx ny nz nh)) (mono3 z x y))
    <= 16 * / sqrt (IZR (dsq nx ny nz)) * remi nx ny nz nh.
Proof.
  intros H1 H2 H3 H4 HT Hz Hx Hy. assert (PS : 0 < IZR (dsq nx ny nz)) by (apply IZR_lt; unfold dsq; nia). unfold remi. apply IZR_le in H1, H2, H4. apply IZR_lt in H3.
  assert (SE : IZR (dsq nx ny nz) = IZR nx * IZR nx + IZR ny * IZR ny + IZR nz * IZR nz) by (unfold dsq; rewrite !plus_IZR, !mult_IZR; reflexivity).
  set (S := IZR (dsq nx ny nz)) in *. set (X := IZR nx) in *. set (Y := IZR ny) in *. set (W := IZR nz) in *. set (h := IZR nh) in *. cbv zeta.
  set (a := 2 * h * (X + Y + W) / S) in *. set (d := 3 * h * h / S) in *. set (al := 2 * h * (X * x + Y * y + W * z) / S). set (de := h * h * (x * x + y * y + z * z) / S). set (t := al + de).
  assert (IS : 0 < / S) by (apply Rinv_0_lt_compat; exact PS). pose proof (proj1 (Rabs_le_between _ _) Hz) as Bz. pose proof (proj1 (Rabs_le_between _ _) Hx) as Bx. pose proof (proj1 (Rabs_le_between _ _) Hy) as By.
  assert (Aa : Rabs al <= a).
  { unfold al, a, Rdiv. rewrite Rabs_mult, (Rabs_right (/ S)) by lra. apply Rmult_le_compat_r; [lra|]. rewrite Rabs_mult, (Rabs_right (2 * h)) by lra. apply Rmult_le_compat_l; [lra|]. apply Rabs_le_between. split; nra. }
  assert (Ad : 0 <= de <= d).
  { unfold de, d, Rdiv. assert (0 <= h * h) by nra. assert (0 <= x * x <= 1) by nra. assert (0 <= y * y <= 1) by nra. assert (0 <= z * z <= 1) by nra. split; [apply Rmult_le_pos; [nra|lra]|]. apply Rmult_le_compat_r; [lra|]. nra. }
  assert (At : Rabs t <= a + d) by (unfold t; eapply Rle_trans; [apply Rabs_triang|]; rewrite (Rabs_right de) by lra; lra).
  pose proof (inv_near t (a + d) At ltac:(lra)) as N. pose proof (proj1 (Rabs_le_between _ _) At) as Bt. pose proof (Rabs_pos al) as A0.
  assert (Q : sqrt ((g nx + g nh * x) ^ 2 + (g ny + g nh * y) ^ 2 + (g nz + g nh * z) ^ 2) = sqrt S * sqrt (1 + t) / 16).
  { replace ((g nx + g nh * x) ^ 2 + (g ny + g nh * y) ^ 2 + (g nz + g nh * z) ^ 2) with (S * (1 + t) / (16 * 16)).
    - rewrite sqrt_div_alt by lra. rewrite sqrt_mult_alt by lra. rewrite sqrt_square by lra. reflexivity.
    - unfold t, al, de, g. fold X Y W h. rewrite (Rmult_plus_distr_l S), Rmult_1_r. replace (S * (2 * h * (X * x + Y * y + W * z) / S + h * h * (x * x + y * y + z * z) / S)) with (2 * h * (X * x + Y * y + W * z) + h * h * (x * x + y * y + z * z)) by (field; lra). rewrite SE. field. }
  rewrite Q. set (q := sqrt S) in *. assert (Pq : 0 < q) by (apply sqrt_lt_R0; exact PS). assert (Pt : 0 < sqrt (1 + t)) by (apply sqrt_lt_R0; lra).
  replace (/ (q * sqrt (1 + t) / 16)) with (16 * / q * / sqrt (1 + t)) by (field; lra).
  assert (DM : forall c l m, dot (map (Rmult c) l) m = c * dot l m) by (intros c l; induction l as [|e l IH]; intros [|b m]; cbn [map dot]; try ring; rewrite IH; ring). rewrite DM, <- Rmult_minus_distr_l.
  rewrite Rabs_mult. assert (P16 : 0 < 16 * / q) by (apply Rmult_lt_0_compat; [lra|apply Rinv_0_lt_compat; exact Pq]). rewrite (Rabs_right (16 * / q)) by lra. apply Rmult_le_compat_l; [lra|].
  assert (D : dot (icoR nx ny nz nh) (mono3 z x y) = 1 - t / 2 + 3 / 8 * al ^ 2).
  { unfold icoR, mono3, mono, outerR, t, al, de. fold S X Y W h. cbv zeta. cbn [flat_map map app dot]. field. lra. }
  assert (E2 : t ^ 2 = al ^ 2 + (2 * al * de + de * de)) by (unfold t; ring). clearbody t.
  rewrite D. replace (/ sqrt (1 + t) - (1 - t / 2 + 3 / 8 * al ^ 2)) with ((/ sqrt (1 + t) - (1 - t / 2 + 3 / 8 * t ^ 2)) + 3 / 8 * (2 * al * de + de * de)) by (rewrite E2; ring).
  eapply Rle_trans; [apply Rabs_triang|]. apply Rplus_le_compat; [exact N|]. rewrite Rabs_mult, (Rabs_right (3 / 8)) by lra. apply Rmult_le_compat_l; [lra|].
  eapply Rle_trans; [apply Rabs_triang|]. rewrite !Rabs_mult, (Rabs_right 2), (Rabs_right de) by lra. apply Rplus_le_compat; [|nra]. apply Rmult_le_compat; nra.
Qed.
