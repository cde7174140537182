(** How far the field of the centre-of-mass expansion of positive charges is from their field. *)
From Coq Require Import Reals List Lra Lia Psatz Permutation.
From Coquelicot Require Import Coquelicot.
From Verif Require Import Base ComModel ComSpec ComProofs ComTaylor ComRunMath AccModel AccSpec AccProofs.
Import ListNotations.
Open Scope R_scope.

(** ** Taylor's formula of third order *)
Lemma taylor3 f f1 f2 f3 : (forall e, 0 <= e <= 1 -> is_derive f e (f1 e)) -> (forall e, 0 <= e <= 1 -> is_derive f1 e (f2 e)) -> (forall e, 0 <= e <= 1 -> is_derive f2 e (f3 e)) ->
  exists c : R, 0 < c < 1 /\ f 1 = f 0 + f1 0 + f2 0 / 2 + f3 c / 6.
Proof.
  intros H0 H1 H2. set (K := f 1 - f 0 - f1 0 - f2 0 / 2).
  destruct (MVT_cor2 (fun e => f e + (1 - e) * f1 e + (1 - e) ^ 2 / 2 * f2 e + K * (1 - e) ^ 3) (fun e => (1 - e) ^ 2 / 2 * f3 e - 3 * K * (1 - e) ^ 2) 0 1 Rlt_0_1) as (c & E & Hc).
  - intros e He. apply is_derive_Reals. specialize (H0 e He). specialize (H1 e He). specialize (H2 e He). auto_derive.
    + repeat split; eexists; eassumption.
    + assert (D0 : Derive (fun x : R => f x) e = f1 e) by (apply is_derive_unique, H0). assert (D1 : Derive (fun x : R => f1 x) e = f2 e) by (apply is_derive_unique, H1). assert (D2 : Derive (fun x : R => f2 x) e = f3 e) by (apply is_derive_unique, H2). rewrite D0, D1, D2. field.
  - exists c. split; [exact Hc|]. assert (P : 0 < (1 - c) ^ 2) by (apply pow_lt; lra).
    assert (Z : (1 - c) ^ 2 * (f3 c / 2 - 3 * K) = 0). { replace ((1 - c) ^ 2 * (f3 c / 2 - 3 * K)) with ((1 - c) ^ 2 / 2 * f3 c - 3 * K * (1 - c) ^ 2) by field. unfold K in *. cbn [pow] in E |- *. lra. }
    apply Rmult_integral in Z. destruct Z as [Z|Z]; [lra|]. unfold K in Z. lra.
Qed.

(** ** One charge *)
(** The component along [n] of the field of a charge, its offset from the centre scaled with
    [e]: [a0] and [a1] are the components of the target's and of the charge's offset, [p] their
    product, [A] and [d] their squares. *)
Lemma derive_q (q : R -> R) a0 a1 p d e : is_derive q e (- (p - e * d) / q e) -> q e <> 0 ->
  is_derive (fun e => (a0 - e * a1) / q e ^ 3) e (- a1 / q e ^ 3 + 3 * (a0 - e * a1) * (p - e * d) / q e ^ 5) /\
  is_derive (fun e => - a1 / q e ^ 3 + 3 * (a0 - e * a1) * (p - e * d) / q e ^ 5) e ((- 6 * a1 * (p - e * d) - 3 * (a0 - e * a1) * d) / q e ^ 5 + 15 * (a0 - e * a1) * (p - e * d) ^ 2 / q e ^ 7) /\
  is_derive (fun e => (- 6 * a1 * (p - e * d) - 3 * (a0 - e * a1) * d) / q e ^ 5 + 15 * (a0 - e * a1) * (p - e * d) ^ 2 / q e ^ 7) e
    (9 * a1 * d / q e ^ 5 - 45 * (a1 * (p - e * d) ^ 2 + (a0 - e * a1) * (p - e * d) * d) / q e ^ 7 + 105 * (a0 - e * a1) * (p - e * d) ^ 3 / q e ^ 9).
Proof.
  intros Dq Hq. assert (Ex : ex_derive q e) by (eexists; exact Dq). assert (Dv : Derive (fun x : R => q x) e = - (p - e * d) / q e) by (apply is_derive_unique, Dq).
  assert (P : forall k, q e ^ k <> 0) by (intros k; apply pow_nonzero, Hq).
  split; [|split]; (auto_derive; [repeat split; auto; first [exact (P 3%nat)|exact (P 5%nat)|exact (P 7%nat)|exact (P 9%nat)]|rewrite ?Dv; cbn [Init.Nat.pred pow INR]; field; exact Hq]).
Qed.
Section One.
Context (a0 a1 p A d : R).
Definition w (e : R) : R := A - 2 * e * p + e * e * d.
Definition h0 (e : R) : R := (a0 - e * a1) / sqrt (w e) ^ 3.
Definition h1 (e : R) : R := - a1 / sqrt (w e) ^ 3 + 3 * (a0 - e * a1) * (p - e * d) / sqrt (w e) ^ 5.
Definition h2 (e : R) : R := (- 6 * a1 * (p - e * d) - 3 * (a0 - e * a1) * d) / sqrt (w e) ^ 5 + 15 * (a0 - e * a1) * (p - e * d) ^ 2 / sqrt (w e) ^ 7.
Definition h3 (e : R) : R := 9 * a1 * d / sqrt (w e) ^ 5 - 45 * (a1 * (p - e * d) ^ 2 + (a0 - e * a1) * (p - e * d) * d) / sqrt (w e) ^ 7 + 105 * (a0 - e * a1) * (p - e * d) ^ 3 / sqrt (w e) ^ 9.
Lemma derive_h e : 0 < w e -> is_derive h0 e (h1 e) /\ is_derive h1 e (h2 e) /\ is_derive h2 e (h3 e).
Proof.
  intros H. assert (Hq : 0 < sqrt (w e)) by (apply sqrt_lt_R0; exact H).
  assert (Dw : is_derive (fun e => sqrt (w e)) e (- (p - e * d) / sqrt (w e))).
  { unfold w in *. assert (Z : A + - (2 * e * p) + e * e * d = A - 2 * e * p + e * e * d) by ring. auto_derive; rewrite ?Z; [exact H|]. field. lra. }
  exact (derive_q (fun e => sqrt (w e)) a0 a1 p d e Dw ltac:(lra)).
Qed.
End One.
(** The third derivative, for vectors: the target's offset (rx, ry, rz), the charge's offset
    (dx, dy, dz), and the direction (nx, ny, nz) whose component is taken. *)
Lemma third_bound nx ny nz rx ry rz dx dy dz e m :
  let a0 := nx * rx + ny * ry + nz * rz in let a1 := nx * dx + ny * dy + nz * dz in
  let p := rx * dx + ry * dy + rz * dz in let A := rx * rx + ry * ry + rz * rz in let d := dx * dx + dy * dy + dz * dz in
  0 < m -> m * m <= w p A d e -> Rabs (h3 a0 a1 p A d e) <= 24 * sqrt d ^ 3 / m ^ 5 * sqrt (nx * nx + ny * ny + nz * nz).
Proof.
  intros a0 a1 p A d Hm Hw. set (W := w p A d e) in *. assert (HW : 0 < W) by nra.
  set (ux := rx - e * dx). set (uy := ry - e * dy). set (uz := rz - e * dz).
  set (a := a0 - e * a1). set (b := p - e * d).
  assert (EW : W = ux * ux + uy * uy + uz * uz) by (unfold W, w, A, p, d, ux, uy, uz; ring).
  assert (Ea : a = nx * ux + ny * uy + nz * uz) by (unfold a, a0, a1, ux, uy, uz; ring).
  assert (Eb : b = ux * dx + uy * dy + uz * dz) by (unfold b, p, d, ux, uy, uz; ring).
  set (q := sqrt W). assert (Hq : 0 < q) by (apply sqrt_lt_R0, HW). assert (Eq : q * q = W) by (apply sqrt_sqrt; lra). assert (Mq : m <= q) by (apply Rsqr_incr_0_var; [unfold Rsqr; lra|lra]).
  assert (D0 : 0 <= d) by (unfold d; nra). set (D := sqrt d). assert (PD : 0 <= D) by apply sqrt_pos. assert (ED : D * D = d) by (apply sqrt_sqrt, D0).
  set (N2 := nx * nx + ny * ny + nz * nz). assert (N0 : 0 <= N2) by (unfold N2; nra). set (N := sqrt N2). assert (PN : 0 <= N) by apply sqrt_pos. assert (EN : N * N = N2) by (apply sqrt_sqrt, N0).
  set (al := 9 * d * (W * W) - 45 * (b * b) * W). set (be := 105 * (b * b * b) - 45 * b * d * W).
  assert (E3 : h3 a0 a1 p A d e = (al * a1 + be * a) / q ^ 9). { unfold h3. fold W q a b. unfold al, be. rewrite <- Eq. field. lra. }
  set (vx := al * dx + be * ux). set (vy := al * dy + be * uy). set (vz := al * dz + be * uz).
  assert (EV : al * a1 + be * a = nx * vx + ny * vy + nz * vz) by (rewrite Ea; unfold a1, vx, vy, vz; ring).
  assert (C : b * b <= d * W). { rewrite Eb, EW. unfold d. pose proof (cauchy3 ux uy uz dx dy dz). lra. }
  assert (V2 : vx * vx + vy * vy + vz * vz <= 576 * (d * d * d) * (W * W * W * W)).
  { replace (vx * vx + vy * vy + vz * vz) with (al * al * d + 2 * al * be * b + be * be * W) by (rewrite Eb, EW; unfold vx, vy, vz, d; ring).
    set (y := b * b) in *. set (z := d * W) in *. assert (Y0 : 0 <= y) by (unfold y; nra).
    replace (al * al * d + 2 * al * be * b + be * be * W) with (W * (81 * (z * z * z) + 405 * y * (z * z) - 1485 * (y * y) * z + 1575 * (y * y * y))) by (unfold al, be, y, z; ring).
    replace (576 * (d * d * d) * (W * W * W * W)) with (W * (576 * (z * z * z))) by (unfold z; ring). apply Rmult_le_compat_l; [lra|].
    assert (Q : 0 <= (z - y) * (495 * (z * z) + 90 * y * z + 1575 * (y * y))) by (apply Rmult_le_pos; [lra|]; assert (0 <= y * z) by (apply Rmult_le_pos; lra); nra). lra. }
  assert (B : Rabs (nx * vx + ny * vy + nz * vz) <= N * (24 * (D * D * D) * (W * W))).
  { apply Rsqr_incr_0_var; [|apply Rmult_le_pos; [exact PN|]; repeat apply Rmult_le_pos; lra]. rewrite <- Rsqr_abs. unfold Rsqr. eapply Rle_trans; [apply cauchy3|]. fold N2. rewrite <- EN.
    replace (N * (24 * (D * D * D) * (W * W)) * (N * (24 * (D * D * D) * (W * W)))) with (N * N * (576 * ((D * D) * (D * D) * (D * D)) * (W * W * W * W))) by ring. rewrite ED. apply Rmult_le_compat_l; [nra|exact V2]. }
  rewrite E3, EV. assert (P9 : 0 < q ^ 9) by (apply pow_lt, Hq). unfold Rdiv at 1. rewrite Rabs_mult, (Rabs_right (/ _)) by (left; apply Rinv_0_lt_compat, P9).
  apply Rle_trans with (N * (24 * (D * D * D) * (W * W)) * / q ^ 9); [apply Rmult_le_compat_r; [left; apply Rinv_0_lt_compat, P9|exact B]|].
  rewrite <- Eq. replace (N * (24 * (D * D * D) * (q * q * (q * q))) * / q ^ 9) with (24 * D ^ 3 * N * / q ^ 5) by (field; lra).
  replace (24 * D ^ 3 / m ^ 5 * N) with (24 * D ^ 3 * N * / m ^ 5) by (unfold Rdiv; ring). apply Rmult_le_compat_l; [repeat apply Rmult_le_pos; try lra; apply pow_le, PD|]. apply Rinv_le_contravar; [apply pow_lt, Hm|apply pow_incr; lra].
Qed.
Definition rem (a0 a1 p A d : R) : R := h0 a0 a1 p A d 1 - h0 a0 a1 p A d 0 - h1 a0 a1 p A d 0 - h2 a0 a1 p A d 0 / 2.
Lemma rem_bound nx ny nz rx ry rz dx dy dz m :
  let a0 := nx * rx + ny * ry + nz * rz in let a1 := nx * dx + ny * dy + nz * dz in
  let p := rx * dx + ry * dy + rz * dz in let A := rx * rx + ry * ry + rz * rz in let d := dx * dx + dy * dy + dz * dz in
  0 < m -> (forall e, 0 <= e <= 1 -> m * m <= w p A d e) -> Rabs (rem a0 a1 p A d) <= 4 * sqrt d ^ 3 / m ^ 5 * sqrt (nx * nx + ny * ny + nz * nz).
Proof.
  intros a0 a1 p A d Hm Hw.
  destruct (taylor3 (h0 a0 a1 p A d) (h1 a0 a1 p A d) (h2 a0 a1 p A d) (h3 a0 a1 p A d)) as (c & Hc & Et).
  - intros e He. apply derive_h. specialize (Hw e He). nra.
  - intros e He. apply derive_h. specialize (Hw e He). nra.
  - intros e He. apply derive_h. specialize (Hw e He). nra.
  - unfold rem. rewrite Et. replace (h0 a0 a1 p A d 0 + h1 a0 a1 p A d 0 + h2 a0 a1 p A d 0 / 2 + h3 a0 a1 p A d c / 6 - h0 a0 a1 p A d 0 - h1 a0 a1 p A d 0 - h2 a0 a1 p A d 0 / 2) with (/ 6 * h3 a0 a1 p A d c) by field.
    rewrite Rabs_mult, Rabs_right by lra. pose proof (third_bound nx ny nz rx ry rz dx dy dz c m Hm (Hw c ltac:(lra))) as B. cbv zeta in B. fold a0 a1 p A d in B. unfold Rdiv in *. lra.
Qed.

(** ** Several charges *)
Lemma second_unique f a b : second_order f a -> second_order f b -> a = b.
Proof.
  intros (f1 & f2 & (d & Hd & D1) & D2 & ->) (f1' & f2' & (d' & Hd' & D1') & D2' & ->).
  assert (E : forall e, Rabs e < Rmin d d' -> f1 e = f1' e).
  { intros e He. eapply uniqueness_limite; [apply D1|apply D1']; (eapply Rlt_le_trans; [exact He|]); [apply Rmin_l|apply Rmin_r]. }
  assert (Hm : 0 < Rmin d d') by (apply Rmin_glb_lt; assumption). rewrite (E 0) by (rewrite Rabs_R0; exact Hm).
  assert (E2 : f2 = f2').
  { eapply uniqueness_limite; [exact D2|]. apply is_derive_Reals. apply is_derive_Reals in D2'. eapply is_derive_ext_loc; [|exact D2']. exists (mkposreal _ Hm). intros e He. symmetry. apply E. unfold ball in He. cbn in He. unfold AbsRing_ball, abs, minus, plus, opp in He. cbn in He. rewrite Ropp_0, Rplus_0_r in He. exact He. }
  rewrite E2. reflexivity.
Qed.
Lemma moment_minus f g l : moment (fun s => f s - g s) l = moment f l - moment g l.
Proof. induction l as [|s l IH]; [rewrite !moment_nil; ring|]. rewrite !moment_cons, IH. ring. Qed.
Section Target.
Context (l : list source) (x y z m : R) (F : List.Forall (fun s => 0 < charge s) l) (Ne : l <> []) (Hm : 0 < m).
Context (Hs : forall s e, In s l -> 0 <= e <= 1 -> m * m <= scaled_dist2 l x y z e s).
Local Notation rx := (x - centre sx l).
Local Notation ry := (y - centre sy l).
Local Notation rz := (z - centre sz l).
Local Notation A := (rx * rx + ry * ry + rz * rz).
Local Notation p s := (rx * dev sx l s + ry * dev sy l s + rz * dev sz l s).

Lemma total_ne : total l <> 0.
Proof. destruct (total_pos l F) as [E|P]; [contradiction|lra]. Qed.
Lemma w_scaled s e : w (p s) A (dist2 l s) e = scaled_dist2 l x y z e s.
Proof. unfold w, scaled_dist2, dist2. ring. Qed.
Lemma A_far : m * m <= A.
Proof. destruct l as [|s k] eqn:El; [contradiction|]. rewrite <- El in *. pose proof (Hs s 0 ltac:(rewrite El; left; reflexivity) ltac:(lra)) as H. rewrite <- w_scaled in H. unfold w in H. lra. Qed.

(** What the expansion adds to a component, as a sum over the charges. *)
Lemma second_sum c v a : second_order (scaled_field c v l x y z) a ->
  a = moment (fun s => h0 (v - centre c l) (dev c l s) (p s) A (dist2 l s) 0 + h1 (v - centre c l) (dev c l s) (p s) A (dist2 l s) 0 + h2 (v - centre c l) (dev c l s) (p s) A (dist2 l s) 0 / 2) l.
Proof.
  intros H. pose proof A_far as HA. assert (PA : 0 < A) by nra. assert (Pq : 0 < sqrt A) by (apply sqrt_lt_R0, PA). assert (Sq : sqrt A * sqrt A = A) by (apply sqrt_sqrt; lra).
  eapply second_unique; [exact H|]. set (r := v - centre c l).
  exists (fun e => moment (f1 A r (fun s => p s) (dist2 l) (dev c l) e) l), (moment (f2 A r (fun s => p s) (dist2 l) (dev c l)) l). split; [|split].
  - destruct (derive_fsum A r (fun s => p s) (dist2 l) (dev c l) PA (dist2_nonneg l) l) as (dd & Hd & D). exists dd. split; [exact Hd|]. intros e He.
    apply is_derive_Reals. apply (is_derive_ext (fun e => moment (f0 A r (fun s => p s) (dist2 l) (dev c l) e) l)); [|apply D; exact He].
    intros t. apply moment_ext. intros s. rewrite scaled_P. unfold f0, r, P, Ar, pr. f_equal. ring.
  - apply is_derive_Reals. apply derive_fsum1. exact PA.
  - unfold scaled_field.
    rewrite (moment_ext (fun s => (v - (centre c l + 0 * dev c l s)) / (scaled_dist2 l x y z 0 s * sqrt (scaled_dist2 l x y z 0 s))) (fun s => h0 r (dev c l s) (p s) A (dist2 l s) 0)).
    2: { intros s. rewrite <- w_scaled. unfold h0. replace (w (p s) A (dist2 l s) 0) with A by (unfold w; ring). unfold r. rewrite <- Sq at 1. field. lra. }
    rewrite (moment_ext (f1 A r (fun s => p s) (dist2 l) (dev c l) 0) (fun s => h1 r (dev c l s) (p s) A (dist2 l s) 0)).
    2: { intros s. unfold f1, h1, P. replace (w (p s) A (dist2 l s) 0) with A by (unfold w; ring). replace (A - 2 * 0 * p s + 0 * 0 * dist2 l s) with A by ring. generalize dependent (sqrt A). intros q Pq Sq. rewrite <- Sq. field. lra. }
    rewrite (moment_ext (f2 A r (fun s => p s) (dist2 l) (dev c l)) (fun s => h2 r (dev c l s) (p s) A (dist2 l s) 0)).
    2: { intros s. unfold f2, h2. replace (w (p s) A (dist2 l s) 0) with A by (unfold w; ring). generalize dependent (sqrt A). intros q Pq Sq. rewrite <- Sq. field. lra. }
    rewrite (moment_ext (fun s => _ + _ + _ / 2) (fun s => h0 r (dev c l s) (p s) A (dist2 l s) 0 + (h1 r (dev c l s) (p s) A (dist2 l s) 0 + / 2 * h2 r (dev c l s) (p s) A (dist2 l s) 0))) by (intros; field).
    rewrite !moment_add, moment_scal. field.
Qed.

Lemma field_one c v : scaled_field c v l x y z 1 = moment (fun s => h0 (v - centre c l) (dev c l s) (p s) A (dist2 l s) 1) l.
Proof.
  apply moment_ext_in. intros s I. pose proof (Hs s 1 I ltac:(lra)) as H. rewrite <- w_scaled in *. unfold h0. set (W := w (p s) A (dist2 l s) 1) in *. assert (P : 0 < W) by nra. assert (Pq : 0 < sqrt W) by (apply sqrt_lt_R0, P). assert (Sq : sqrt W * sqrt W = W) by (apply sqrt_sqrt; lra).
  rewrite <- Sq at 1. field. lra.
Qed.
Theorem acc_error e : expansion_of l e -> exists ax ay az, acc_M_to_T e x y z = Ok (ax, ay, az) /\
  sqrt ((ax - scaled_field sx x l x y z 1) ^ 2 + (ay - scaled_field sy y l x y z 1) ^ 2 + (az - scaled_field sz z l x y z 1) ^ 2) <= 4 / m ^ 5 * moment (fun s => sqrt (dist2 l s) ^ 3) l.
Proof.
  intros Ex. pose proof total_ne as Ht. pose proof A_far as HA. assert (PA : 0 < A) by nra. rewrite (expansion_eq l e _ Ex (acc_group l (or_intror Ht))).
  destruct (acc_taylor l x y z Ht PA) as (ax & ay & az & E & Sx & Sy & Sz). exists ax, ay, az. split; [exact E|].
  apply second_sum in Sx. apply second_sum in Sy. apply second_sum in Sz. rewrite !field_one.
  set (Ex_ := ax - _). set (Ey_ := ay - _). set (Ez_ := az - _).
  assert (Rx : forall c v a, a = moment (fun s => h0 (v - centre c l) (dev c l s) (p s) A (dist2 l s) 0 + h1 (v - centre c l) (dev c l s) (p s) A (dist2 l s) 0 + h2 (v - centre c l) (dev c l s) (p s) A (dist2 l s) 0 / 2) l ->
    a - moment (fun s => h0 (v - centre c l) (dev c l s) (p s) A (dist2 l s) 1) l = moment (fun s => - rem (v - centre c l) (dev c l s) (p s) A (dist2 l s)) l).
  { intros c v a ->. rewrite <- moment_minus. apply moment_ext. intros s. unfold rem. ring. }
  assert (X : Ex_ * Ex_ + Ey_ * Ey_ + Ez_ * Ez_ = moment (fun s => - rem (Ex_ * rx + Ey_ * ry + Ez_ * rz) (Ex_ * dev sx l s + Ey_ * dev sy l s + Ez_ * dev sz l s) (p s) A (dist2 l s)) l).
  { rewrite (moment_ext (fun s => - rem (Ex_ * rx + Ey_ * ry + Ez_ * rz) _ _ _ _) (fun s => Ex_ * - rem rx (dev sx l s) (p s) A (dist2 l s) + (Ey_ * - rem ry (dev sy l s) (p s) A (dist2 l s) + Ez_ * - rem rz (dev sz l s) (p s) A (dist2 l s))))
      by (intros s; unfold rem, h0, h1, h2; unfold Rdiv; ring).
    rewrite !moment_add, !moment_scal, <- (Rx sx x ax Sx), <- (Rx sy y ay Sy), <- (Rx sz z az Sz). fold Ex_ Ey_ Ez_. ring. }
  replace (Ex_ ^ 2 + Ey_ ^ 2 + Ez_ ^ 2) with (Ex_ * Ex_ + Ey_ * Ey_ + Ez_ * Ez_) by ring. set (n2 := Ex_ * Ex_ + Ey_ * Ey_ + Ez_ * Ez_) in *. assert (N0 : 0 <= n2) by (unfold n2; nra).
  set (B := 4 / m ^ 5 * moment (fun s => sqrt (dist2 l s) ^ 3) l).
  assert (U : n2 <= sqrt n2 * B).
  { rewrite X at 1. eapply Rle_trans; [apply Rle_abs|]. unfold B. rewrite <- !moment_scal. apply moment_bound; [exact F|]. intros s I. rewrite Rabs_Ropp.
    pose proof (rem_bound Ex_ Ey_ Ez_ rx ry rz (dev sx l s) (dev sy l s) (dev sz l s) m Hm) as K. cbv zeta in K. fold n2 in K. change (dev sx l s * dev sx l s + dev sy l s * dev sy l s + dev sz l s * dev sz l s) with (dist2 l s) in K.
    eapply Rle_trans; [apply K; intros e' He; rewrite w_scaled; apply Hs; assumption|]. right. unfold Rdiv. ring. }
  destruct (Rle_lt_or_eq_dec 0 (sqrt n2) (sqrt_pos _)) as [P|Z].
  - apply Rmult_le_reg_l with (sqrt n2); [exact P|]. rewrite sqrt_sqrt by exact N0. exact U.
  - rewrite <- Z. unfold B. apply Rmult_le_pos; [left; apply Rdiv_lt_0_compat; [lra|apply pow_lt, Hm]|]. rewrite <- (Rmult_0_l (total l)), <- moment_const. apply moment_mono; [exact F|]. intros s _. apply pow_le, sqrt_pos.
Qed.
End Target.
