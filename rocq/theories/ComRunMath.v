(** How far the centre-of-mass expansion of positive charges is from their potential. *)
From Coq Require Import Reals List Lra Lia Psatz Permutation.
From Verif Require Import Base ComModel ComSpec ComProofs.
Import ListNotations.
Open Scope R_scope.

Lemma abs_between x y : Rabs x <= y -> - y <= x <= y.
Proof. unfold Rabs. destruct (Rcase_abs x); lra. Qed.

(** ** One charge *)
(** [p] is the product of the target's and the charge's offsets from the centre, [r] and [a]
    are the target's distances from the centre and from the charge, [d] the charge's distance
    from the centre. *)
Lemma one_term r a d p m : 0 < m -> m <= r -> m <= a -> 0 <= d -> a * a = r * r - 2 * p + d * d -> Rabs p <= r * d ->
  Rabs (/ r + p / (r * r * r) - (3 * (p * p) - d * d * (r * r)) / (2 * (r * r) * (r * r) * r) - / a) <= 4 * (d * d) / (m * m * m).
Proof.
  intros Hm Hr Ha Hd Ea Hp. assert (Pr : 0 < r) by lra. assert (Pa : 0 < a) by lra.
  assert (Hra : Rabs (r - a) <= d).
  { assert (A : (r - a) * (r - a) <= d * d). { assert (P2 : p * p <= r * d * (r * d)) by (apply abs_between in Hp; nra). assert (K : r * r - p <= r * a) by (destruct (Rle_lt_dec (r * r - p) 0) as [N|N]; [nra|apply Rsqr_incr_0_var; [unfold Rsqr; nra|nra]]). nra. }
    apply Rsqr_incr_0_var; [|exact Hd]. rewrite <- Rsqr_abs. exact A. }
  assert (F1 : Rabs (/ a - / r - p / (r * r * r)) <= 3 * (d * d) / (m * m * m)).
  { assert (E : / a - / r - p / (r * r * r) = (p * ((r - a) * (2 * r + a)) - d * d * (r * r)) / (a * (r * r * r) * (r + a))).
    { assert (E0 : / a - / r = (2 * p - d * d) / (a * r * (r + a))) by (replace (2 * p - d * d) with (r * r - a * a) by lra; field; lra). rewrite E0.
      assert (E1 : (2 * p - d * d) / (a * r * (r + a)) - p / (r * r * r) = ((2 * p - d * d) * (r * r) - p * (a * (r + a))) / (a * (r * r * r) * (r + a))) by (field; lra).
      rewrite E1. f_equal. ring. }
    rewrite E. unfold Rdiv at 1. rewrite Rabs_mult. assert (Pd : 0 < a * (r * r * r) * (r + a)) by (repeat apply Rmult_lt_0_compat; lra).
    rewrite (Rabs_right (/ _)) by (left; apply Rinv_0_lt_compat, Pd).
    assert (N : Rabs (p * ((r - a) * (2 * r + a)) - d * d * (r * r)) <= d * d * r * (3 * r + a)).
    { eapply Rle_trans; [apply Rabs_triang|]. rewrite Rabs_Ropp, !Rabs_mult, (Rabs_right d), (Rabs_right r), (Rabs_right (2 * r + a)) by lra.
      assert (X : Rabs p * (Rabs (r - a) * (2 * r + a)) <= r * d * (d * (2 * r + a))).
      { apply Rmult_le_compat; [apply Rabs_pos| |exact Hp|apply Rmult_le_compat_r; [lra|exact Hra]]. apply Rmult_le_pos; [apply Rabs_pos|lra]. }
      nra. }
    apply Rle_trans with (d * d * r * (3 * r + 3 * a) * / (a * (r * r * r) * (r + a))).
    - apply Rmult_le_compat_r; [left; apply Rinv_0_lt_compat, Pd|]. assert (0 <= d * d * r) by (apply Rmult_le_pos; nra). nra.
    - replace (d * d * r * (3 * r + 3 * a) * / (a * (r * r * r) * (r + a))) with (3 * (d * d) * / (a * (r * r))) by (field; lra).
      unfold Rdiv. apply Rmult_le_compat_l; [nra|]. apply Rinv_le_contravar; [repeat apply Rmult_lt_0_compat; lra|].
      assert (m * m <= r * r) by nra. nra. }
  assert (F2 : Rabs ((3 * (p * p) - d * d * (r * r)) / (2 * (r * r) * (r * r) * r)) <= d * d / (m * m * m)).
  { assert (Pd : 0 < 2 * (r * r) * (r * r) * r) by (repeat apply Rmult_lt_0_compat; lra).
    assert (P2 : p * p <= r * d * (r * d)) by (apply abs_between in Hp; nra).
    unfold Rdiv at 1. rewrite Rabs_mult, (Rabs_right (/ _)) by (left; apply Rinv_0_lt_compat, Pd).
    apply Rle_trans with (2 * (d * d) * (r * r) * / (2 * (r * r) * (r * r) * r)).
    - apply Rmult_le_compat_r; [left; apply Rinv_0_lt_compat, Pd|]. apply Rabs_le. split; nra.
    - replace (2 * (d * d) * (r * r) * / (2 * (r * r) * (r * r) * r)) with (d * d * / (r * r * r)) by (field; lra).
      apply Rmult_le_compat_l; [nra|]. apply Rinv_le_contravar; [repeat apply Rmult_lt_0_compat; lra|].
      assert (m * m <= r * r) by nra. nra. }
  replace (/ r + p / (r * r * r) - (3 * (p * p) - d * d * (r * r)) / (2 * (r * r) * (r * r) * r) - / a) with
    (- (/ a - / r - p / (r * r * r)) + - ((3 * (p * p) - d * d * (r * r)) / (2 * (r * r) * (r * r) * r))) by ring.
  eapply Rle_trans; [apply Rabs_triang|]. rewrite !Rabs_Ropp. lra.
Qed.

(** ** Several charges *)
Lemma moment_mono f g l : Forall (fun s => 0 < charge s) l -> (forall s, In s l -> f s <= g s) -> moment f l <= moment g l.
Proof.
  intros F H. induction l as [|s l IH]; rewrite ?moment_nil, ?moment_cons; [lra|]. inversion F; subst.
  pose proof (H s (or_introl eq_refl)). specialize (IH ltac:(assumption) ltac:(intros; apply H; right; assumption)). nra.
Qed.
Lemma moment_bound f g l : Forall (fun s => 0 < charge s) l -> (forall s, In s l -> Rabs (f s) <= g s) -> Rabs (moment f l) <= moment g l.
Proof.
  intros F H. apply Rabs_le. split.
  - replace (- moment g l) with ((-1) * moment g l) by ring. rewrite <- moment_scal. apply moment_mono; [exact F|]. intros s I. specialize (H s I). apply abs_between in H. lra.
  - apply moment_mono; [exact F|]. intros s I. specialize (H s I). apply abs_between in H. lra.
Qed.
Lemma moment_ext_in f g l : (forall s, In s l -> f s = g s) -> moment f l = moment g l.
Proof. intros H. induction l as [|s l IH]; [reflexivity|]. rewrite !moment_cons, IH, H; auto using in_eq. intros; apply H; right; assumption. Qed.
Lemma dev_zero c l : total l <> 0 -> moment (dev c l) l = 0.
Proof.
  intros H. unfold dev. rewrite (moment_ext _ (fun s => c s + (- centre c l))) by (intros; ring). rewrite moment_add, moment_const. unfold centre. field. exact H.
Qed.

(** The distance of a target from a source. *)
Definition apart (x y z : R) (s : source) : R := sqrt ((x - sx s) ^ 2 + (y - sy s) ^ 2 + (z - sz s) ^ 2).
Definition centre_apart (x y z : R) (l : list source) : R := sqrt ((x - centre sx l) ^ 2 + (y - centre sy l) ^ 2 + (z - centre sz l) ^ 2).

Lemma cauchy3 a b c u v w : (a * u + b * v + c * w) * (a * u + b * v + c * w) <= (a * a + b * b + c * c) * (u * u + v * v + w * w).
Proof. pose proof (Rle_0_sqr (a * v - b * u)). pose proof (Rle_0_sqr (a * w - c * u)). pose proof (Rle_0_sqr (b * w - c * v)). unfold Rsqr in *. nra. Qed.

Theorem com_error l e x y z m : Forall (fun s => 0 < charge s) l -> l <> [] -> expansion_of l e -> 0 < m -> m <= centre_apart x y z l -> (forall s, In s l -> m <= apart x y z s) ->
  Rabs (M_to_T e x y z - moment (fun s => / apart x y z s) l) <= 4 / (m * m * m) * moment (dist2 l) l.
Proof.
  intros F Ne X Hm Hr Ha. destruct (total_pos l F) as [E|Pt]; [contradiction|].
  destruct X as (E1&E2&E3&E4&E5&E6&E7&E8&E9&E10). unfold M_to_T. rewrite E1, E2, E3, E4, E5, E6, E7, E8, E9, E10.
  set (dx := x - centre sx l). set (dy := y - centre sy l). set (dz := z - centre sz l). cbv zeta.
  set (r := centre_apart x y z l) in *. assert (Er : sqrt (dx * dx + dy * dy + dz * dz) = r) by (unfold r, centre_apart, dx, dy, dz; f_equal; ring). rewrite Er.
  assert (Er2 : dx * dx + dy * dy + dz * dz = r * r) by (rewrite <- Er, sqrt_sqrt; [reflexivity|nra]). rewrite Er2.
  pose (p := fun s => dx * dev sx l s + dy * dev sy l s + dz * dev sz l s).
  assert (Q : quad_diag sx l * dx * dx + 2 * quad sx sy l * dx * dy + 2 * quad sx sz l * dx * dz + quad_diag sy l * dy * dy + 2 * quad sy sz l * dy * dz + quad_diag sz l * dz * dz =
              moment (fun s => 3 * (p s * p s) - dist2 l s * (r * r)) l).
  { unfold quad_diag, quad. rewrite (moment_ext (fun s => 3 * (p s * p s) - dist2 l s * (r * r))
      (fun s => dx * dx * (3 * dev sx l s * dev sx l s - dist2 l s) + (2 * dx * dy * (3 * dev sx l s * dev sy l s) + (2 * dx * dz * (3 * dev sx l s * dev sz l s) + (dy * dy * (3 * dev sy l s * dev sy l s - dist2 l s) + (2 * dy * dz * (3 * dev sy l s * dev sz l s) + dz * dz * (3 * dev sz l s * dev sz l s - dist2 l s)))))))
      by (intros s; unfold p; rewrite <- Er2; ring).
    rewrite !moment_add, !moment_scal. ring. }
  rewrite Q. assert (P0 : moment p l = 0). { unfold p. rewrite (moment_ext _ (fun s => dx * dev sx l s + (dy * dev sy l s + dz * dev sz l s))) by (intros; ring). rewrite !moment_add, !moment_scal, !dev_zero by lra. ring. }
  assert (Pr : 0 < r) by lra.
  replace (total l / r + moment (fun s => 3 * (p s * p s) - dist2 l s * (r * r)) l * (-1 / (2 * (r * r) * (r * r) * r)) - moment (fun s => / apart x y z s) l) with
    (moment (fun s => / r + p s / (r * r * r) - (3 * (p s * p s) - dist2 l s * (r * r)) / (2 * (r * r) * (r * r) * r) - / apart x y z s) l).
  2:{ rewrite (moment_ext _ (fun s => / r + (/ (r * r * r) * p s + ((-1 / (2 * (r * r) * (r * r) * r)) * (3 * (p s * p s) - dist2 l s * (r * r)) + (-1) * / apart x y z s)))) by (intros; unfold Rdiv; ring).
      rewrite !moment_add, !moment_scal, moment_const, P0. unfold Rdiv. ring. }
  rewrite <- moment_scal. apply moment_bound; [exact F|]. intros s I.
  assert (D0 : 0 <= dist2 l s) by (unfold dist2; nra). rewrite <- (sqrt_sqrt (dist2 l s) D0). set (d := sqrt (dist2 l s)). assert (Pd : 0 <= d) by apply sqrt_pos. assert (Ed : d * d = dist2 l s) by (apply sqrt_sqrt, D0).
  replace (4 / (m * m * m) * (d * d)) with (4 * (d * d) / (m * m * m)) by (unfold Rdiv; ring).
  apply one_term; [exact Hm|exact Hr|apply Ha, I|exact Pd| |].
  - unfold apart. rewrite sqrt_sqrt by (apply Rplus_le_le_0_compat; [apply Rplus_le_le_0_compat|]; apply pow2_ge_0). rewrite Ed, <- Er2. unfold p, dist2, dev, dx, dy, dz. ring.
  - apply Rsqr_incr_0_var; [|nra]. rewrite <- Rsqr_abs. unfold Rsqr. replace (r * d * (r * d)) with (r * r * (d * d)) by ring. rewrite Ed, <- Er2. unfold p, dist2. apply cauchy3.
Qed.

(** ** Charges in a box *)
(** All charges within the distance [b] of a point: so is their centre, and what they spread
    around it is bounded. *)
Lemma second_about u c l : total l <> 0 -> moment (fun s => (c s - u) * (c s - u)) l = total l * ((centre c l - u) * (centre c l - u)) + moment (fun s => dev c l s * dev c l s) l.
Proof. intros H. unfold dev. rewrite !moment_prod. unfold centre. field. exact H. Qed.
Lemma spread l u v w b : Forall (fun s => 0 < charge s) l -> l <> [] -> (forall s, In s l -> (sx s - u) ^ 2 + (sy s - v) ^ 2 + (sz s - w) ^ 2 <= b) ->
  moment (dist2 l) l <= total l * b /\ (centre sx l - u) ^ 2 + (centre sy l - v) ^ 2 + (centre sz l - w) ^ 2 <= b.
Proof.
  intros F Ne H. destruct (total_pos l F) as [E|Pt]; [contradiction|].
  assert (A : moment (fun s => (sx s - u) ^ 2 + (sy s - v) ^ 2 + (sz s - w) ^ 2) l <= total l * b).
  { eapply Rle_trans; [apply (moment_mono _ (fun _ => b) l F H)|]. rewrite moment_const. lra. }
  assert (B : moment (fun s => (sx s - u) ^ 2 + (sy s - v) ^ 2 + (sz s - w) ^ 2) l = total l * ((centre sx l - u) ^ 2 + (centre sy l - v) ^ 2 + (centre sz l - w) ^ 2) + moment (dist2 l) l).
  { unfold dist2. rewrite (moment_ext _ (fun s => (sx s - u) * (sx s - u) + (sy s - v) * (sy s - v) + (sz s - w) * (sz s - w))) by (intros; ring). rewrite !moment_add, !second_about by lra. ring. }
  assert (C : 0 <= moment (dist2 l) l). { rewrite <- (Rmult_0_l (total l)), <- moment_const. apply moment_mono; [exact F|]. intros s _. unfold dist2. nra. }
  set (g := (centre sx l - u) ^ 2 + (centre sy l - v) ^ 2 + (centre sz l - w) ^ 2) in *. assert (G0 : 0 <= g) by (unfold g; apply Rplus_le_le_0_compat; [apply Rplus_le_le_0_compat|]; apply pow2_ge_0). split; [nra|]. apply Rmult_le_reg_l with (total l); lra.
Qed.
