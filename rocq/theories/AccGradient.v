(** Accelerations as gradients of potentials. *)
From Coq Require Import Reals List Lra.
From Coquelicot Require Import Coquelicot.
From Verif Require Import Base ComModel ComSpec ComProofs ComTaylor AccModel AccSpec AccProofs.
Import ListNotations.
Open Scope R_scope.

(** ** The direct sum *)
Lemma derive_inv a b x : 0 < (x - a) ^ 2 + b -> is_derive (fun v => / sqrt ((v - a) ^ 2 + b)) x (- ((x - a) / (((x - a) ^ 2 + b) * sqrt ((x - a) ^ 2 + b)))).
Proof.
  intros H. set (D := (x - a) ^ 2 + b) in *.
  assert (Hq : 0 < sqrt D) by (apply sqrt_lt_R0; exact H).
  assert (Hs : sqrt D * sqrt D = D) by (apply sqrt_sqrt; lra).
  assert (Z : (x + - a) * ((x + - a) * 1) + b = D) by (unfold D; ring).
  assert (Z' : (x + - a) ^ 2 + b = D) by (unfold D; ring).
  auto_derive; cbn [Init.Nat.pred]; rewrite ?Z, ?Z'.
  - repeat split; try assumption. lra.
  - clearbody D. generalize dependent (sqrt D). intros q Hq Hs. rewrite <- Hs. cbn. field. lra.
Qed.
Lemma moment_derive (f : R -> source -> R) (g : source -> R) l x :
  (forall s, In s l -> is_derive (fun v => f v s) x (- g s)) -> is_derive (fun v => moment (f v) l) x (- moment g l).
Proof.
  induction l as [|s l IH]; intros H.
  - rewrite moment_nil, Ropp_0. apply (is_derive_ext (fun _ => 0)); [reflexivity|]. apply (is_derive_const (K := R_AbsRing) (V := R_NormedModule)).
  - rewrite moment_cons. apply (is_derive_ext (fun v => charge s * f v s + moment (f v) l)); [intros; reflexivity|].
    replace (- (charge s * g s + moment g l)) with (charge s * (- g s) + - moment g l) by ring.
    apply (is_derive_plus (K := R_AbsRing) (V := R_NormedModule)).
    + apply is_derive_scal. apply H. left; reflexivity.
    + apply IH. intros; apply H. right; assumption.
Qed.
Definition pull (c : source -> R) (w x y z : R) (s : source) : R :=
  (w - c s) / (((x - sx s) ^ 2 + (y - sy s) ^ 2 + (z - sz s) ^ 2) * sqrt ((x - sx s) ^ 2 + (y - sy s) ^ 2 + (z - sz s) ^ 2)).
Lemma acc_direct_moment l x y z : acc_S_to_T l x y z =
  (moment (pull sx x x y z) (elsewhere x y z l), moment (pull sy y x y z) (elsewhere x y z l), moment (pull sz z x y z) (elsewhere x y z l)).
Proof.
  unfold acc_S_to_T.
  match goal with |- fold_left ?f _ _ = _ => set (F := f) end.
  assert (G : forall a b c, fold_left F l (a, b, c) =
    (a + moment (pull sx x x y z) (elsewhere x y z l), b + moment (pull sy y x y z) (elsewhere x y z l), c + moment (pull sz z x y z) (elsewhere x y z l)));
    [|rewrite G, !Rplus_0_l; reflexivity].
  unfold elsewhere. induction l as [|s k IH]; intros a b c; [cbn; rewrite !Rplus_0_r; reflexivity|].
  cbn [fold_left filter]. unfold F at 2. cbv zeta.
  replace ((x - sx s) * (x - sx s) + (y - sy s) * (y - sy s) + (z - sz s) * (z - sz s)) with ((x - sx s) ^ 2 + (y - sy s) ^ 2 + (z - sz s) ^ 2) by ring.
  destruct (Rlt_dec 0 ((x - sx s) ^ 2 + (y - sy s) ^ 2 + (z - sz s) ^ 2)) as [Hd|_]; [|apply IH].
  rewrite IH, !moment_cons. unfold pull, Rdiv. rewrite !Rplus_assoc, !Rmult_assoc. reflexivity.
Qed.
Lemma acc_direct_gradient l x y z : gradient (potential (elsewhere x y z l)) x y z (opp3 (acc_S_to_T l x y z)).
Proof.
  rewrite acc_direct_moment. unfold gradient, opp3, potential.
  assert (H : forall s, In s (elsewhere x y z l) -> 0 < (x - sx s) ^ 2 + (y - sy s) ^ 2 + (z - sz s) ^ 2).
  { intros s Hs. apply filter_In in Hs. destruct Hs as [_ Hs]. destruct (Rlt_dec 0 _) as [Hd|_]; [exact Hd|discriminate]. }
  repeat split; apply is_derive_Reals; apply moment_derive; intros s Hs; specialize (H s Hs); unfold pull.
  - apply (is_derive_ext (fun v => / sqrt ((v - sx s) ^ 2 + ((y - sy s) ^ 2 + (z - sz s) ^ 2)))); [intros t; f_equal; f_equal; cbn; lra|].
    replace ((x - sx s) ^ 2 + (y - sy s) ^ 2 + (z - sz s) ^ 2) with ((x - sx s) ^ 2 + ((y - sy s) ^ 2 + (z - sz s) ^ 2)) in * by ring. apply derive_inv. exact H.
  - apply (is_derive_ext (fun v => / sqrt ((v - sy s) ^ 2 + ((x - sx s) ^ 2 + (z - sz s) ^ 2)))); [intros t; f_equal; f_equal; cbn; lra|].
    replace ((x - sx s) ^ 2 + (y - sy s) ^ 2 + (z - sz s) ^ 2) with ((y - sy s) ^ 2 + ((x - sx s) ^ 2 + (z - sz s) ^ 2)) in * by ring. apply derive_inv. exact H.
  - apply (is_derive_ext (fun v => / sqrt ((v - sz s) ^ 2 + ((x - sx s) ^ 2 + (y - sy s) ^ 2)))); [intros t; f_equal; f_equal; cbn; lra|].
    replace ((x - sx s) ^ 2 + (y - sy s) ^ 2 + (z - sz s) ^ 2) with ((z - sz s) ^ 2 + ((x - sx s) ^ 2 + (y - sy s) ^ 2)) in * by ring. apply derive_inv. exact H.
Qed.
Lemma elsewhere_all l x y z : (forall s, In s l -> 0 < (x - sx s) ^ 2 + (y - sy s) ^ 2 + (z - sz s) ^ 2) -> elsewhere x y z l = l.
Proof.
  intros H. unfold elsewhere. induction l as [|s l IH]; [reflexivity|]. cbn [filter].
  destruct (Rlt_dec 0 _) as [_|N]; [|exfalso; apply N, H; left; reflexivity]. f_equal. apply IH. intros; apply H. right; assumption.
Qed.
Lemma scaled_field_one c w l x y z : scaled_field c w l x y z 1 = moment (pull c w x y z) l.
Proof.
  apply moment_ext. intros s. unfold pull, scaled_dist2, dev.
  replace (x - (centre sx l + 1 * (sx s - centre sx l))) with (x - sx s) by ring.
  replace (y - (centre sy l + 1 * (sy s - centre sy l))) with (y - sy s) by ring.
  replace (z - (centre sz l + 1 * (sz s - centre sz l))) with (z - sz s) by ring.
  replace (w - (centre c l + 1 * (c s - centre c l))) with (w - c s) by ring. reflexivity.
Qed.

(** ** The expansion *)
(** The derivative along one direction; the others are at [b] and [c]. *)
Lemma derive_expansion m a q11 q12 q13 q22 q23 q33 b c x :
  let D := (x - a) * (x - a) + b * b + c * c in 0 < D ->
  is_derive (fun v => let D := (v - a) * (v - a) + b * b + c * c in
    m / sqrt D + (q11 * (v - a) * (v - a) + 2 * q12 * (v - a) * b + 2 * q13 * (v - a) * c + q22 * b * b + 2 * q23 * b * c + q33 * c * c) * (1 / (2 * D * D * sqrt D))) x
  (- (m * (x - a) / (D * sqrt D)
      + 5 / 2 * (q11 * (x - a) * (x - a) + 2 * q12 * (x - a) * b + 2 * q13 * (x - a) * c + q22 * b * b + 2 * q23 * b * c + q33 * c * c) * (x - a) / (D * D * D * sqrt D)
      - (q11 * (x - a) + q12 * b + q13 * c) / (D * D * sqrt D))).
Proof.
  intros D H. cbv zeta.
  assert (Hq : 0 < sqrt D) by (apply sqrt_lt_R0; exact H).
  assert (Hs : sqrt D * sqrt D = D) by (apply sqrt_sqrt; lra).
  assert (Z : (x + - a) * (x + - a) + b * b + c * c = D) by (unfold D; ring).
  auto_derive; rewrite ?Z.
  - repeat split; try assumption; try lra. apply Rgt_not_eq; repeat apply Rmult_lt_0_compat; lra.
  - clearbody D. generalize dependent (sqrt D). intros q Hq Hs. rewrite <- Hs. field. lra.
Qed.
Lemma acc_expansion_gradient t x y z g : acc_M_to_T t x y z = Ok g -> gradient (M_to_T (turned t)) x y z (opp3 g).
Proof.
  unfold acc_M_to_T, M_to_T, turned. cbn [mtot cx cy cz qxx qxy qxz qyy qyz qzz].
  set (D := (x - cx t) * (x - cx t) + (y - cy t) * (y - cy t) + (z - cz t) * (z - cz t)).
  destruct (Req_EM_T D 0) as [_|N]; [discriminate|]. intros E. injection E as <-.
  assert (H : 0 < D).
  { assert (0 <= D) by (unfold D; pose proof (Rle_0_sqr (x - cx t)); pose proof (Rle_0_sqr (y - cy t)); pose proof (Rle_0_sqr (z - cz t)); unfold Rsqr in *; lra). lra. }
  assert (Hq : 0 < sqrt D) by (apply sqrt_lt_R0; exact H).
  assert (Hs : sqrt D * sqrt D = D) by (apply sqrt_sqrt; lra).
  unfold gradient, opp3. repeat split; apply is_derive_Reals.
  - pose proof (derive_expansion (mtot t) (cx t) (qxx t) (qxy t) (qxz t) (qyy t) (qyz t) (qzz t) (y - cy t) (z - cz t) x H) as G.
    cbv zeta in G. fold D in G. eapply is_derive_ext; [|match type of G with is_derive _ _ ?d => match goal with |- is_derive _ _ ?e => replace e with d end end; [exact G|]].
    + intros v. cbv beta zeta. match goal with |- ?a = ?b => change (@eq R a b) end. unfold Rdiv. ring.
    + clearbody D. clear G. generalize dependent (sqrt D). intros q Hq Hs. rewrite <- Hs. field. lra.
  - assert (H' : 0 < (y - cy t) * (y - cy t) + (x - cx t) * (x - cx t) + (z - cz t) * (z - cz t)) by (unfold D in H; lra).
    pose proof (derive_expansion (mtot t) (cy t) (qyy t) (qxy t) (qyz t) (qxx t) (qxz t) (qzz t) (x - cx t) (z - cz t) y H') as G.
    cbv zeta in G. replace ((y - cy t) * (y - cy t) + (x - cx t) * (x - cx t) + (z - cz t) * (z - cz t)) with D in G by (unfold D; ring).
    eapply is_derive_ext; [|match type of G with is_derive _ _ ?d => match goal with |- is_derive _ _ ?e => replace e with d end end; [exact G|]].
    + intros v. cbv beta zeta. match goal with |- ?a = ?b => change (@eq R a b) end. replace ((v - cy t) * (v - cy t) + (x - cx t) * (x - cx t) + (z - cz t) * (z - cz t)) with ((x - cx t) * (x - cx t) + (v - cy t) * (v - cy t) + (z - cz t) * (z - cz t)) by ring. unfold Rdiv. ring.
    + clearbody D. clear G. generalize dependent (sqrt D). intros q Hq Hs. rewrite <- Hs. field. lra.
  - assert (H' : 0 < (z - cz t) * (z - cz t) + (x - cx t) * (x - cx t) + (y - cy t) * (y - cy t)) by (unfold D in H; lra).
    pose proof (derive_expansion (mtot t) (cz t) (qzz t) (qxz t) (qyz t) (qxx t) (qxy t) (qyy t) (x - cx t) (y - cy t) z H') as G.
    cbv zeta in G. replace ((z - cz t) * (z - cz t) + (x - cx t) * (x - cx t) + (y - cy t) * (y - cy t)) with D in G by (unfold D; ring).
    eapply is_derive_ext; [|match type of G with is_derive _ _ ?d => match goal with |- is_derive _ _ ?e => replace e with d end end; [exact G|]].
    + intros v. cbv beta zeta. match goal with |- ?a = ?b => change (@eq R a b) end. replace ((v - cz t) * (v - cz t) + (x - cx t) * (x - cx t) + (y - cy t) * (y - cy t)) with ((x - cx t) * (x - cx t) + (y - cy t) * (y - cy t) + (v - cz t) * (v - cz t)) by ring. unfold Rdiv. ring.
    + clearbody D. clear G. generalize dependent (sqrt D). intros q Hq Hs. rewrite <- Hs. field. lra.
Qed.
Lemma gradient_unique f x y z g h : gradient f x y z g -> gradient f x y z h -> g = h.
Proof.
  destruct g as [[a b] c], h as [[a' b'] c']. cbn [gradient]. intros (A1 & A2 & A3) (B1 & B2 & B3).
  rewrite (uniqueness_limite _ _ _ _ A1 B1), (uniqueness_limite _ _ _ _ A2 B2), (uniqueness_limite _ _ _ _ A3 B3). reflexivity.
Qed.
Lemma turned_twice t : turned (turned t) = t.
Proof. destruct t as [a b c d e f g h i j]. unfold turned. cbn [mtot cx cy cz qxx qxy qxz qyy qyz qzz]. f_equal; ring. Qed.
Lemma opp3_inj g h : opp3 g = opp3 h -> g = h.
Proof. destruct g as [[a b] c], h as [[a' b'] c']. cbn. intros E. injection E as E1 E2 E3. f_equal; [f_equal|]; lra. Qed.
