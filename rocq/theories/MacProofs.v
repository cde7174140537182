(** Proofs about the acceptance test. *)
From Coq Require Import ZArith QArith Qabs Reals Qreals List Bool Lra Lqa.
From Verif Require Import Base IndexModel RefineModel GeomModel MacModel MacSpec.
Open Scope Q_scope.

Lemma Qltb_lt : forall a b, Qltb a b = true <-> a < b.
Proof. intros a b. unfold Qltb. rewrite negb_true_iff. rewrite <- not_true_iff_false, Qle_bool_iff. split; intros H; [apply Qnot_le_lt; exact H|apply Qlt_not_le; exact H]. Qed.
Lemma Qltb_ge : forall a b, Qltb a b = false <-> b <= a.
Proof. intros a b. unfold Qltb. rewrite negb_false_iff. apply Qle_bool_iff. Qed.
Lemma norm2_dist : forall p q, norm2 (point_sub p q) = square_dist p q. Proof. reflexivity. Qed.
Lemma Qsq : forall a : Q, 0 <= a * a.
Proof. intros a. destruct (Qlt_le_dec a 0); nra. Qed.
Lemma dist_nonneg : forall p q, 0 <= square_dist p q.
Proof. intros p q. unfold square_dist. pose proof (Qsq (px p - px q)). pose proof (Qsq (py p - py q)). pose proof (Qsq (pz p - pz q)). lra. Qed.

(** The test by squares is the test of the angle. *)
Lemma mac_angle : forall theta s size p, 0 <= size -> (mac theta s size p = true <-> seen_below theta size s p).
Proof.
  intros theta s size p Hs. unfold mac. cbv zeta. rewrite norm2_dist, andb_true_iff, !Qltb_lt. unfold seen_below. pose proof (dist_nonneg p s) as Hd. set (D := square_dist p s) in *. clearbody D. apply Qle_Rle in Hs. apply Qle_Rle in Hd. rewrite RMicromega.Q2R_0 in Hs, Hd.
  assert (A : 0 < theta <-> (0 < Q2R theta)%R) by (rewrite <- RMicromega.Q2R_0; split; [apply Qlt_Rlt|apply Rlt_Qlt]). assert (B : size * size < theta * theta * D <-> (Q2R size * Q2R size < Q2R theta * Q2R theta * Q2R D)%R) by (rewrite <- !Q2R_mult; split; [apply Qlt_Rlt|apply Rlt_Qlt]). rewrite A, B. clear A B.
  set (t := Q2R theta). set (z := Q2R size) in *. set (d := Q2R D) in *. clearbody t z d. split.
  - intros [Ht H]. assert (Hp : (0 < d)%R) by (destruct Hd as [|<-]; [assumption|]; Lra.nra). split; [exact Hp|]. pose proof (sqrt_lt_R0 d Hp) as Hr. pose proof (sqrt_sqrt d Hd) as Hq. set (r := sqrt d) in *. clearbody r. apply (Rmult_lt_reg_r r); [exact Hr|]. unfold Rdiv. rewrite Rmult_assoc, Rinv_l, Rmult_1_r by Lra.lra. rewrite <- Hq in H. apply Rsqr_incrst_0; [unfold Rsqr; Lra.lra|exact Hs|]. apply Rmult_le_pos; Lra.lra.
  - intros [Hp H]. pose proof (sqrt_lt_R0 d Hp) as Hr. pose proof (sqrt_sqrt d Hd) as Hq. set (r := sqrt d) in *. clearbody r. assert (H1 : (z < t * r)%R). { apply (Rmult_lt_compat_r r) in H; [|exact Hr]. unfold Rdiv in H. rewrite Rmult_assoc, Rinv_l, Rmult_1_r in H by Lra.lra. exact H. }
    assert (Ht : (0 < t)%R) by Lra.nra. split; [exact Ht|]. rewrite <- Hq. apply Rsqr_incrst_1 in H1; [unfold Rsqr in H1; Lra.lra|exact Hs|]. apply Rmult_le_pos; Lra.lra.
Qed.

(** One axis. *)
Definition pick (len c : Q) : Q := if Qltb len (Qabs c) then len else c.
Lemma nearest_coord : forall a s t z, coord a (nearest s t z) = pick ((1 # 2) * z) (coord a s - coord a t) + coord a t.
Proof. intros [] s t z; reflexivity. Qed.
Lemma pick_cases : forall len c, 0 <= len -> (c < - len /\ pick len c == len) \/ (len < c /\ pick len c == len) \/ (- len <= c <= len /\ pick len c == c).
Proof.
  intros len c H. unfold pick. destruct (Qltb len (Qabs c)) eqn:E.
  - apply Qltb_lt in E. destruct (Qlt_le_dec c 0) as [L|L].
    + rewrite Qabs_neg in E by lra. left. split; lra.
    + rewrite Qabs_pos in E by lra. right. left. split; lra.
  - apply Qltb_ge in E. apply Qabs_Qle_condition in E. right. right. split; lra.
Qed.
Lemma pick_in : forall len c, 0 <= len -> - len <= pick len c <= len.
Proof. intros len c H. destruct (pick_cases len c H) as [[A B]|[[A B]|[A B]]]; lra. Qed.
Lemma pick_near : forall len s t p, 0 <= len -> t - len <= s -> t - len <= p <= t + len ->
  (pick len (s - t) + t - s) * (pick len (s - t) + t - s) <= (p - s) * (p - s).
Proof.
  intros len s t p H Hs Hp. destruct (pick_cases len (s - t) H) as [[A B]|[[A B]|[A B]]]; [lra| |]; setoid_rewrite B; [nra|]. setoid_replace (s - t + t - s) with 0 by ring. rewrite Qmult_0_l. apply Qsq.
Qed.
Lemma pick_far : forall len s t p, 0 <= len -> s < t - len -> t - len <= p <= t + len ->
  (p - s) * (p - s) <= (pick len (s - t) + t - s) * (pick len (s - t) + t - s).
Proof. intros len s t p H Hs Hp. destruct (pick_cases len (s - t) H) as [[A B]|[[A B]|[A B]]]; [|lra|lra]. setoid_rewrite B. nra. Qed.

Lemma nearest_in : forall s t z, 0 <= z -> in_cube t z (nearest s t z).
Proof. intros s t z H a. rewrite nearest_coord. pose proof (pick_in ((1 # 2) * z) (coord a s - coord a t)). lra. Qed.
Lemma nearest_nearest : forall s t z p, 0 <= z -> not_below t z s -> in_cube t z p -> square_dist (nearest s t z) s <= square_dist p s.
Proof.
  intros s t z p H Nb Hp. assert (G : forall a, (coord a (nearest s t z) - coord a s) * (coord a (nearest s t z) - coord a s) <= (coord a p - coord a s) * (coord a p - coord a s)).
  { intros a. rewrite nearest_coord. apply pick_near; [lra|specialize (Nb a); lra|specialize (Hp a); lra]. }
  pose proof (G AX) as X. pose proof (G AY) as Y. pose proof (G AZ) as Zz. unfold square_dist. cbn [coord] in *. lra.
Qed.
Lemma seen_mono : forall theta size s p q, 0 <= size -> square_dist p s <= square_dist q s -> seen_below theta size s p -> seen_below theta size s q.
Proof.
  intros theta size s p q Hs L H. apply mac_angle in H; [|exact Hs]. apply mac_angle; [exact Hs|]. unfold mac in *. cbv zeta in *. rewrite !norm2_dist, andb_true_iff, !Qltb_lt in *. destruct H as [A B]. split; [exact A|]. eapply Qlt_le_trans; [exact B|]. nra.
Qed.
