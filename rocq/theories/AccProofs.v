(** Proofs about the centre-of-mass expansion that yields accelerations. *)
From Coq Require Import Reals List Permutation Lra.
From Coquelicot Require Import Coquelicot.
From Verif Require Import Base ComModel ComSpec ComProofs ComTaylor AccModel AccSpec.
Import ListNotations.
Open Scope R_scope.

(** ** The moments *)
Lemma acc_xcom_eq m l : acc_xcom m l = calc_xcom m l.
Proof.
  unfold acc_xcom, calc_xcom.
  assert (G : forall a b c, fold_left (fun '(x, y, z) s => (x + charge s * sx s, y + charge s * sy s, z + charge s * sz s)) l (a, b, c) =
    (fold_left (fun a s => a + charge s * sx s) l a, fold_left (fun a s => a + charge s * sy s) l b, fold_left (fun a s => a + charge s * sz s) l c)).
  { induction l as [|s l IH]; intros; cbn [fold_left]; [reflexivity|apply IH]. }
  rewrite G. reflexivity.
Qed.
Lemma acc_S_to_M_eq l : acc_S_to_M l = S_to_M l.
Proof. unfold acc_S_to_M. rewrite acc_xcom_eq. reflexivity. Qed.
Lemma acc_copy t : acc_M_to_M t = t.
Proof. destruct t. reflexivity. Qed.
Lemma acc_add_eq t u : mtot t + mtot u <> 0 -> add_expansion t u = Ok (acc_add t u).
Proof. intros H. unfold add_expansion, acc_add. destruct (Req_EM_T _ 0) as [E|_]; [contradiction|reflexivity]. Qed.
Lemma acc_group l : charged l -> expansion_of l (acc_S_to_M l).
Proof. intros [->|H]; rewrite acc_S_to_M_eq; [rewrite S_to_M_nil; apply expansion_nil|apply S_to_M_spec; exact H]. Qed.
Lemma acc_zeros : acc_add com_zero com_zero = com_zero.
Proof.
  unfold acc_add, com_zero. cbn [mtot cx cy cz qxx qxy qxz qyy qyz qzz]. destruct (Req_EM_T (0 + 0) 0) as [_|N]; [|exfalso; apply N; ring].
  f_equal; ring.
Qed.
Lemma acc_add_spec a b t u : charged a -> charged b -> charged (a ++ b) -> expansion_of a t -> expansion_of b u ->
  expansion_of (a ++ b) (acc_add t u).
Proof.
  intros Ha Hb [E|H] Et Eu.
  - apply app_eq_nil in E. destruct E as [-> ->]. rewrite (expansion_eq _ _ _ Et expansion_nil), (expansion_eq _ _ _ Eu expansion_nil), acc_zeros. apply expansion_nil.
  - destruct (add_spec a b t u Ha Hb H Et Eu) as (v & E & S).
    assert (N : mtot t + mtot u <> 0). { destruct Et as [-> _], Eu as [-> _]. rewrite <- total_app. exact H. }
    rewrite (acc_add_eq t u N) in E. injection E as ->. exact S.
Qed.
Lemma all_charged_members p : all_charged p -> charged (members p).
Proof. destruct p; cbn [all_charged]; [trivial|]. intros [H _]. exact H. Qed.
Lemma acc_combine_spec p : all_charged p -> expansion_of (members p) (acc_combine p).
Proof.
  induction p as [l|a IHa b IHb]; cbn [all_charged acc_combine]; intros H; [apply acc_group; exact H|].
  destruct H as (H & Ha & Hb). rewrite acc_copy. cbn [members] in *. apply acc_add_spec; auto using all_charged_members.
Qed.

(** ** The field *)
Section Taylor.
Variables (A w : R) (p m dl : source -> R).
Hypothesis HA : 0 < A.
Hypothesis Hm : forall s, 0 <= m s.
Definition f0 (e : R) (s : source) := (w - e * dl s) / (P A p m e s * sqrt (P A p m e s)).
Definition f1 (e : R) (s : source) :=
  - dl s / (P A p m e s * sqrt (P A p m e s)) + 3 * (w - e * dl s) * (p s - e * m s) / (P A p m e s * P A p m e s * sqrt (P A p m e s)).
Definition f2 (s : source) := (15 * w * p s * p s - 6 * dl s * p s * A - 3 * w * m s * A) / (A * A * A * sqrt A).
Lemma derive_f0 s e : 0 < P A p m e s -> is_derive (fun e => f0 e s) e (f1 e s).
Proof.
  intros H. unfold f0, f1, P in *. set (v := A - 2 * e * p s + e * e * m s) in *.
  assert (Hq : 0 < sqrt v) by (apply sqrt_lt_R0; exact H).
  assert (Hs : sqrt v * sqrt v = v) by (apply sqrt_sqrt; lra).
  assert (Z : A + - (2 * e * p s) + e * e * m s = v) by (unfold v; ring).
  auto_derive.
  - rewrite ?Z. repeat split; try assumption. apply Rgt_not_eq, Rmult_lt_0_compat; lra.
  - rewrite ?Z. fold v. clearbody v. generalize dependent (sqrt v). intros q Hq Hs. rewrite <- Hs. field. lra.
Qed.
Lemma derive_f1 s : is_derive (fun e => f1 e s) 0 (f2 s).
Proof.
  unfold f1, f2, P. assert (Hq : 0 < sqrt A) by (apply sqrt_lt_R0; exact HA).
  assert (Hs : sqrt A * sqrt A = A) by (apply sqrt_sqrt; lra).
  assert (Z : A - 2 * 0 * p s + 0 * 0 * m s = A) by ring.
  assert (Z' : A + - (2 * 0 * p s) + 0 * 0 * m s = A) by ring.
  auto_derive.
  - rewrite ?Z, ?Z'. repeat split; try lra; apply Rgt_not_eq; repeat apply Rmult_lt_0_compat; lra.
  - rewrite ?Z, ?Z'. generalize dependent (sqrt A). intros q Hq Hs. rewrite <- Hs. field. lra.
Qed.
Lemma derive_fsum l : exists d, 0 < d /\ forall e, Rabs e < d -> is_derive (fun e => moment (f0 e) l) e (moment (f1 e) l).
Proof.
  induction l as [|s l (d & Hd & IH)].
  - exists 1. split; [lra|]. intros e _. apply (is_derive_ext (fun _ => 0)); [reflexivity|]. rewrite moment_nil. apply (is_derive_const (K := R_AbsRing) (V := R_NormedModule)).
  - assert (Hs : 0 < A / (2 * Rabs (p s) + 1)) by (apply Rdiv_lt_0_compat; pose proof (Rabs_pos (p s)); lra).
    exists (Rmin d (A / (2 * Rabs (p s) + 1))). split; [apply Rmin_glb_lt; assumption|]. intros e He.
    rewrite moment_cons.
    apply (is_derive_ext (fun e => charge s * f0 e s + moment (f0 e) l)); [intros; reflexivity|].
    apply (is_derive_plus (K := R_AbsRing) (V := R_NormedModule)).
    + apply is_derive_scal. apply derive_f0, P_pos; try assumption. eapply Rlt_le_trans; [exact He|apply Rmin_r].
    + apply IH. eapply Rlt_le_trans; [exact He|apply Rmin_l].
Qed.
Lemma derive_fsum1 l : is_derive (fun e => moment (f1 e) l) 0 (moment f2 l).
Proof.
  induction l as [|s l IH].
  - apply (is_derive_ext (fun _ => 0)); [reflexivity|]. rewrite moment_nil. apply (is_derive_const (K := R_AbsRing) (V := R_NormedModule)).
  - rewrite moment_cons. apply (is_derive_ext (fun e => charge s * f1 e s + moment (f1 e) l)); [intros; reflexivity|].
    apply (is_derive_plus (K := R_AbsRing) (V := R_NormedModule)); [|exact IH].
    apply is_derive_scal. apply derive_f1.
Qed.
End Taylor.

Section Target.
Variables (l : list source) (x y z : R).
Hypothesis Hl : total l <> 0.
Let rx := x - centre sx l.
Let ry := y - centre sy l.
Let rz := z - centre sz l.
Hypothesis Hr : 0 < rx * rx + ry * ry + rz * rz.
Notation A := (Ar l x y z).
Notation p := (pr l x y z).
Notation m := (dist2 l).

(** The expansion of one component, in terms of moments. *)
Lemma field_order c w k : k = moment (fun s => 3 * dev c l s * p s - (w - centre c l) * m s) l ->
  second_order (scaled_field c w l x y z)
    (total l * (w - centre c l) / (A * sqrt A)
     + 5 / 2 * moment (fun s => 3 * p s * p s - A * m s) l * (w - centre c l) / (A * A * A * sqrt A) - k / (A * A * sqrt A)).
Proof.
  intros Hk. assert (HA : 0 < A) by exact Hr. assert (Hq : 0 < sqrt A) by (apply sqrt_lt_R0; exact HA).
  set (r := w - centre c l) in *.
  exists (fun e => moment (f1 A r p m (dev c l) e) l), (moment (f2 A r p m (dev c l)) l). repeat split.
  - destruct (derive_fsum A r p m (dev c l) HA (dist2_nonneg l) l) as (d & Hd & H). exists d. split; [exact Hd|]. intros e He.
    apply is_derive_Reals. apply (is_derive_ext (fun e => moment (f0 A r p m (dev c l) e) l)); [|apply H; exact He].
    intros t. apply moment_ext. intros s. rewrite scaled_P. unfold f0, r. f_equal. ring.
  - apply is_derive_Reals. apply derive_fsum1. exact HA.
  - unfold scaled_field.
    rewrite (moment_ext (fun s => (w - (centre c l + 0 * dev c l s)) / (scaled_dist2 l x y z 0 s * sqrt (scaled_dist2 l x y z 0 s))) (fun s => r / (A * sqrt A))).
    2: { intros s. rewrite scaled_P. unfold P. replace (A - 2 * 0 * p s + 0 * 0 * m s) with A by ring. unfold r. f_equal. ring. }
    rewrite moment_const.
    rewrite (moment_ext (f1 A r p m (dev c l) 0) (fun s => (- / (A * sqrt A)) * dev c l s + (3 * r / (A * A * sqrt A)) * p s)).
    2: { intros s. unfold f1, P. replace (A - 2 * 0 * p s + 0 * 0 * m s) with A by ring. field. lra. }
    rewrite moment_add, !moment_scal, moment_dev, moment_pr by exact Hl.
    rewrite (moment_ext (f2 A r p m (dev c l)) (fun s => (5 * r / (A * A * A * sqrt A)) * (3 * p s * p s - A * m s) + (- 2 / (A * A * sqrt A)) * (3 * dev c l s * p s - r * m s))).
    2: { intros s. unfold f2. field. lra. }
    rewrite moment_add, !moment_scal, <- Hk. field. lra.
Qed.
Lemma qrow c a b d : (* a row of the quadrupole times the distance *)
  a = moment (fun s => 3 * dev c l s * dev sx l s) l -> b = moment (fun s => 3 * dev c l s * dev sy l s) l -> d = moment (fun s => 3 * dev c l s * dev sz l s) l ->
  a * rx + b * ry + d * rz = moment (fun s => 3 * dev c l s * p s) l.
Proof.
  intros -> -> ->. rewrite (moment_ext (fun s => 3 * dev c l s * p s) (fun s => rx * (3 * dev c l s * dev sx l s) + (ry * (3 * dev c l s * dev sy l s) + rz * (3 * dev c l s * dev sz l s)))).
  - rewrite !moment_add, !moment_scal. ring.
  - intros s. unfold pr. fold rx ry rz. ring.
Qed.
Lemma quad_diag_plain c : quad_diag c l = quad c c l - moment m l.
Proof.
  unfold quad_diag, quad. rewrite (moment_ext _ (fun s => 3 * dev c l s * dev c l s + (-1) * m s)) by (intros; ring).
  rewrite moment_add, moment_scal. ring.
Qed.
Lemma quad_sym c d : quad c d l = quad d c l.
Proof. unfold quad. apply moment_ext. intros; ring. Qed.
Lemma moment_sub c w : moment (fun s => 3 * dev c l s * p s - w * m s) l = moment (fun s => 3 * dev c l s * p s) l - w * moment m l.
Proof. rewrite (moment_ext _ (fun s => 3 * dev c l s * p s + (- w) * m s)) by (intros; ring). rewrite moment_add, moment_scal. ring. Qed.

Lemma acc_taylor : exists ax ay az, acc_M_to_T (acc_S_to_M l) x y z = Ok (ax, ay, az) /\
  second_order (scaled_field sx x l x y z) ax /\ second_order (scaled_field sy y l x y z) ay /\ second_order (scaled_field sz z l x y z) az.
Proof.
  assert (HA : 0 < A) by exact Hr. assert (Hq : 0 < sqrt A) by (apply sqrt_lt_R0; exact HA).
  assert (Hs : sqrt A * sqrt A = A) by (apply sqrt_sqrt; lra).
  destruct (acc_group l (or_intror Hl)) as (E1&E2&E3&E4&E5&E6&E7&E8&E9&E10).
  unfold acc_M_to_T. rewrite E1, E2, E3, E4, E5, E6, E7, E8, E9, E10. fold rx ry rz.
  change (rx * rx + ry * ry + rz * rz) with A. destruct (Req_EM_T A 0) as [N|_]; [lra|].
  do 3 eexists. split; [reflexivity|].
  assert (Q : (quad_diag sx l * (rx / sqrt A) * (rx / sqrt A) + 2 * quad sx sy l * (rx / sqrt A) * (ry / sqrt A) + 2 * quad sx sz l * (rx / sqrt A) * (rz / sqrt A)
     + quad_diag sy l * (ry / sqrt A) * (ry / sqrt A) + 2 * quad sy sz l * (ry / sqrt A) * (rz / sqrt A) + quad_diag sz l * (rz / sqrt A) * (rz / sqrt A))
     = moment (fun s => 3 * p s * p s - A * m s) l / A).
  { rewrite <- qsum_moment. fold rx ry rz. generalize dependent (sqrt A). intros v Hv Hs. rewrite <- Hs. field. lra. }
  rewrite Q. set (q := moment (fun s => 3 * p s * p s - A * m s) l) in *.
  assert (F : forall r k, total l / A * (r / sqrt A) + q / A * (5 / (2 * (A * A))) * (r / sqrt A) - k / sqrt A / (A * A) =
     total l * r / (A * sqrt A) + 5 / 2 * q * r / (A * A * A * sqrt A) - k / (A * A * sqrt A)) by (intros; field; lra).
  assert (G : forall a b d, a * (rx / sqrt A) + b * (ry / sqrt A) + d * (rz / sqrt A) = (a * rx + b * ry + d * rz) / sqrt A) by (intros; field; lra).
  rewrite !G, !F. unfold q. repeat split; apply field_order; rewrite moment_sub, quad_diag_plain.
  - rewrite <- (qrow sx (quad sx sx l) (quad sx sy l) (quad sx sz l)) by reflexivity. unfold rx. ring.
  - rewrite <- (qrow sy (quad sy sx l) (quad sy sy l) (quad sy sz l)) by reflexivity. rewrite (quad_sym sy sx). unfold ry. ring.
  - rewrite <- (qrow sz (quad sz sx l) (quad sz sy l) (quad sz sz l)) by reflexivity. rewrite (quad_sym sz sx), (quad_sym sz sy). unfold rz. ring.
Qed.
End Target.
