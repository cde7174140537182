(** The potential of a centre-of-mass expansion against the expansion of the potential. *)
From Coq Require Import Reals List Lra.
From Coquelicot Require Import Coquelicot.
From Verif Require Import Base ComModel ComSpec ComProofs.
Import ListNotations.
Open Scope R_scope.

Section Taylor.
Variables (A : R) (p m : source -> R).
Hypothesis HA : 0 < A.
Definition P (e : R) (s : source) := A - 2 * e * p s + e * e * m s.
Definition g1 (e : R) (s : source) := (p s - e * m s) / (P e s * sqrt (P e s)).
Hypothesis Hm : forall s, 0 <= m s.
Lemma P_pos s e : Rabs e < A / (2 * Rabs (p s) + 1) -> 0 < P e s.
Proof.
  intros H. pose proof (Rabs_pos (p s)) as Hp. pose proof (Rabs_pos e) as He.
  apply Rmult_lt_compat_r with (r := 2 * Rabs (p s) + 1) in H; [|lra].
  replace (A / (2 * Rabs (p s) + 1) * (2 * Rabs (p s) + 1)) with A in H by (field; lra).
  assert (e * p s <= Rabs e * Rabs (p s)) by (rewrite <- Rabs_mult; apply Rle_abs).
  unfold P. specialize (Hm s). nra.
Qed.
Lemma derive_g s e : 0 < P e s -> is_derive (fun e => / sqrt (P e s)) e (g1 e s).
Proof.
  intros H. unfold P in *. auto_derive.
  - split; [exact H|]. split; [|trivial]. apply Rgt_not_eq, sqrt_lt_R0; exact H.
  - unfold g1, P. set (v := A - 2 * e * p s + e * e * m s) in *.
    assert (Hq : 0 < sqrt v) by (apply sqrt_lt_R0; exact H).
    assert (Hs : sqrt v * sqrt v = v) by (apply sqrt_sqrt; lra).
    replace (A + - (2 * e * p s) + e * e * m s) with v by (unfold v; ring).
    generalize dependent (sqrt v). intros q Hq Hs. rewrite <- Hs. field. lra.
Qed.
Lemma derive_g1 s : is_derive (fun e => g1 e s) 0 ((3 * p s * p s - A * m s) / (A * A * sqrt A)).
Proof.
  unfold g1, P. assert (Hq : 0 < sqrt A) by (apply sqrt_lt_R0; exact HA).
  assert (Hs : sqrt A * sqrt A = A) by (apply sqrt_sqrt; lra).
  assert (Z : A - 2 * 0 * p s + 0 * 0 * m s = A) by ring.
  assert (Z' : A + - (2 * 0 * p s) + 0 * 0 * m s = A) by ring.
  auto_derive.
  - rewrite ?Z, ?Z'. repeat split; try lra. apply Rgt_not_eq, Rmult_lt_0_compat; lra.
  - rewrite ?Z, ?Z'. generalize dependent (sqrt A). intros q Hq Hs. rewrite <- Hs. field. lra.
Qed.
Lemma derive_sum l : exists d, 0 < d /\ forall e, Rabs e < d ->
  is_derive (fun e => moment (fun s => / sqrt (P e s)) l) e (moment (g1 e) l).
Proof.
  induction l as [|s l (d & Hd & IH)].
  - exists 1. split; [lra|]. intros e _. apply (is_derive_ext (fun _ => 0)); [reflexivity|]. rewrite moment_nil. apply (is_derive_const (K := R_AbsRing) (V := R_NormedModule)).
  - assert (Hs : 0 < A / (2 * Rabs (p s) + 1)) by (apply Rdiv_lt_0_compat; pose proof (Rabs_pos (p s)); lra).
    exists (Rmin d (A / (2 * Rabs (p s) + 1))). split; [apply Rmin_glb_lt; assumption|]. intros e He.
    rewrite moment_cons.
    apply (is_derive_ext (fun e => charge s * / sqrt (P e s) + moment (fun s => / sqrt (P e s)) l)); [intros; reflexivity|].
    apply (is_derive_plus (K := R_AbsRing) (V := R_NormedModule)).
    + apply is_derive_scal. apply derive_g, P_pos. eapply Rlt_le_trans; [exact He|apply Rmin_r].
    + apply IH. eapply Rlt_le_trans; [exact He|apply Rmin_l].
Qed.
Lemma derive_sum1 l : is_derive (fun e => moment (g1 e) l) 0 (moment (fun s => (3 * p s * p s - A * m s) / (A * A * sqrt A)) l).
Proof.
  induction l as [|s l IH].
  - apply (is_derive_ext (fun _ => 0)); [reflexivity|]. rewrite moment_nil. apply (is_derive_const (K := R_AbsRing) (V := R_NormedModule)).
  - rewrite moment_cons. apply (is_derive_ext (fun e => charge s * g1 e s + moment (g1 e) l)); [intros; reflexivity|].
    apply (is_derive_plus (K := R_AbsRing) (V := R_NormedModule)); [|exact IH].
    apply is_derive_scal. apply derive_g1.
Qed.
End Taylor.

Lemma moment_dev c l : total l <> 0 -> moment (dev c l) l = 0.
Proof.
  intros H. unfold dev. rewrite (moment_ext _ (fun s => c s + - centre c l)) by (intros; ring).
  rewrite moment_add, moment_const. unfold centre. field. exact H.
Qed.

Section Target.
Variables (l : list source) (x y z : R).
Hypothesis Hl : total l <> 0.
Let rx := x - centre sx l.
Let ry := y - centre sy l.
Let rz := z - centre sz l.
Hypothesis Hr : 0 < rx * rx + ry * ry + rz * rz.
Definition Ar := rx * rx + ry * ry + rz * rz.
Definition pr (s : source) := rx * dev sx l s + ry * dev sy l s + rz * dev sz l s.

Lemma scaled_P e s : scaled_dist2 l x y z e s = P Ar pr (dist2 l) e s.
Proof. unfold scaled_dist2, P, Ar, pr, dist2, rx, ry, rz. ring. Qed.
Lemma dist2_nonneg s : 0 <= dist2 l s.
Proof. unfold dist2. nra. Qed.
Lemma moment_pr : moment pr l = 0.
Proof.
  unfold pr. rewrite moment_add, moment_add, !moment_scal, !moment_dev by exact Hl. ring.
Qed.
Lemma qsum_moment :
  quad_diag sx l * rx * rx + 2 * quad sx sy l * rx * ry + 2 * quad sx sz l * rx * rz + quad_diag sy l * ry * ry + 2 * quad sy sz l * ry * rz + quad_diag sz l * rz * rz
  = moment (fun s => 3 * pr s * pr s - Ar * dist2 l s) l.
Proof.
  unfold quad_diag, quad. symmetry.
  rewrite (moment_ext _ (fun s =>
     (rx * rx) * (3 * dev sx l s * dev sx l s - dist2 l s) + ((2 * rx * ry) * (3 * dev sx l s * dev sy l s) + ((2 * rx * rz) * (3 * dev sx l s * dev sz l s)
     + ((ry * ry) * (3 * dev sy l s * dev sy l s - dist2 l s) + ((2 * ry * rz) * (3 * dev sy l s * dev sz l s) + (rz * rz) * (3 * dev sz l s * dev sz l s - dist2 l s)))))))
    by (intros; unfold pr, Ar; ring).
  rewrite !moment_add, !moment_scal. ring.
Qed.

Lemma taylor : exists v1 v2,
  (exists d, 0 < d /\ forall e, Rabs e < d -> derivable_pt_lim (scaled_potential l x y z) e (v1 e)) /\
  v1 0 = 0 /\ derivable_pt_lim v1 0 v2 /\
  M_to_T (S_to_M l) x y z = scaled_potential l x y z 0 - v2 / 2.
Proof.
  exists (fun e => moment (g1 Ar pr (dist2 l) e) l), (moment (fun s => (3 * pr s * pr s - Ar * dist2 l s) / (Ar * Ar * sqrt Ar)) l).
  assert (HA : 0 < Ar) by exact Hr.
  assert (Hq : 0 < sqrt Ar) by (apply sqrt_lt_R0; exact HA).
  repeat split.
  - destruct (derive_sum Ar pr (dist2 l) HA dist2_nonneg l) as (d & Hd & H). exists d. split; [exact Hd|]. intros e He.
    apply is_derive_Reals. apply (is_derive_ext (fun e => moment (fun s => / sqrt (P Ar pr (dist2 l) e s)) l)); [|apply H; exact He].
    intros t. apply moment_ext. intros s. rewrite scaled_P. reflexivity.
  - rewrite (moment_ext _ (fun s => / (Ar * sqrt Ar) * pr s)).
    { rewrite moment_scal, moment_pr. ring. }
    intros s. unfold g1, P. replace (Ar - 2 * 0 * pr s + 0 * 0 * dist2 l s) with Ar by ring. field. lra.
  - apply is_derive_Reals. apply derive_sum1. exact HA.
  - destruct (S_to_M_spec l Hl) as (E1&E2&E3&E4&E5&E6&E7&E8&E9&E10).
    unfold M_to_T. rewrite E1, E2, E3, E4, E5, E6, E7, E8, E9, E10. fold rx ry rz. fold Ar. rewrite qsum_moment.
    unfold scaled_potential. rewrite (moment_ext (fun s => / sqrt (scaled_dist2 l x y z 0 s)) (fun _ => / sqrt Ar)).
    2: { intros s. rewrite scaled_P. f_equal. f_equal. unfold P. ring. }
    rewrite moment_const.
    rewrite (moment_ext (fun s => (3 * pr s * pr s - Ar * dist2 l s) / (Ar * Ar * sqrt Ar)) (fun s => / (Ar * Ar * sqrt Ar) * (3 * pr s * pr s - Ar * dist2 l s))) by (intros; field; lra).
    rewrite moment_scal. field. lra.
Qed.
End Target.

(** The direct sum, for a target at no source. *)
Lemma S_to_T_moment l x y z :
  (forall s, In s l -> 0 < (x - sx s) ^ 2 + (y - sy s) ^ 2 + (z - sz s) ^ 2) ->
  S_to_T l x y z = moment (fun s => / sqrt ((x - sx s) ^ 2 + (y - sy s) ^ 2 + (z - sz s) ^ 2)) l.
Proof.
  intros H.
  assert (G : forall a, fold_left (fun sum s =>
    let dx := x - sx s in let dy := y - sy s in let dz := z - sz s in
    let mag := dx * dx + dy * dy + dz * dz in
    if Rlt_dec 0 mag then sum + charge s / sqrt mag else sum) l a = a + moment (fun s => / sqrt ((x - sx s) ^ 2 + (y - sy s) ^ 2 + (z - sz s) ^ 2)) l);
    [|unfold S_to_T; rewrite G; ring].
  induction l as [|s l IH]; intros a; cbn [fold_left]; [rewrite moment_nil; ring|].
  rewrite moment_cons, IH by (intros; apply H; right; assumption). cbv zeta.
  specialize (H s (or_introl eq_refl)).
  replace ((x - sx s) * (x - sx s) + (y - sy s) * (y - sy s) + (z - sz s) * (z - sz s)) with ((x - sx s) ^ 2 + (y - sy s) ^ 2 + (z - sz s) ^ 2) by ring.
  destruct (Rlt_dec 0 ((x - sx s) ^ 2 + (y - sy s) ^ 2 + (z - sz s) ^ 2)) as [_|N]; [|contradiction]. unfold Rdiv. ring.
Qed.
Lemma scaled_one l x y z :
  (forall s, In s l -> 0 < (x - sx s) ^ 2 + (y - sy s) ^ 2 + (z - sz s) ^ 2) -> scaled_potential l x y z 1 = S_to_T l x y z.
Proof.
  intros H. rewrite S_to_T_moment by exact H. apply moment_ext. intros s. unfold scaled_dist2, dev. f_equal. f_equal. ring.
Qed.
