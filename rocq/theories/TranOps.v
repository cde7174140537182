(** What each step of the translations does to the coefficients. *)
From Coq Require Import Reals ZArith List Lia Lra Psatz.
From Coquelicot Require Import Coquelicot.
From Verif Require Import Base ListFacts LegSpec LegProofs LegAdd LapModel LapArrays LapProofs SolidProofs SolidAdd SolidPair TranModel TranArrays TranWigner TranDmat TranTable.
Import ListNotations.
Open Scope C_scope.

Lemma ok_eq (u v : C) : u = v -> @Ok cplx u = @Ok cplx v.
Proof. intros ->. reflexivity. Qed.
Lemma cscale_R u a : cscale u a = u * RtoC a.
Proof. unfold cscale. ceq. Qed.
Lemma cadd_C u v : cadd u v = u + v.
Proof. reflexivity. Qed.
Lemma cmul_C u v : cmul u v = u * v.
Proof. reflexivity. Qed.
Lemma conj_C u : conj u = Cconj u.
Proof. reflexivity. Qed.
Lemma cpow_cp e m : cpow e m = cp e m.
Proof. induction m as [|m IH]; [reflexivity|]. cbn [cpow cp]. rewrite IH. reflexivity. Qed.

Lemma csum_loop a n (f : cplx -> nat -> res cplx) (g : nat -> C) : (forall v k, (k < n)%nat -> f v (a + k)%nat = Ok (v + g k)) -> forall v0 : C, foldM f (seq a n) v0 = Ok (v0 + csum g n).
Proof.
  intros H v0. destruct (loop_ind _ f (fun k v => v = v0 + csum g k) a n v0) as (v & E & ->); [|intros k v Hk ->; eexists; split; [apply H, Hk|cbn [csum]; ceq]|exact E].
  cbn [csum]. ceq.
Qed.
Lemma sized p (c : nat -> nat -> cplx) M : coefs p c M -> length M = tri (S p).
Proof. intros [L _]. exact L. Qed.
Lemma coefs_nth p (c : nat -> nat -> cplx) M n m : coefs p c M -> (m <= n <= p)%nat -> nth_res M (midx n m) = Ok (c n m).
Proof. intros [_ H] B. apply nth_ok, H, B. Qed.
Lemma blank p : length (repeat ((0, 0)%R : cplx) ((p + 1) * (p + 2) / 2)) = tri (S p).
Proof. rewrite repeat_length. apply size_tri. Qed.

(** ** lap_rotate_sph_z *)
Definition eang (alpha : R) : C := (cos alpha, sin alpha).
Lemma rotate_z_ok tb M alpha W c : coefs (tb_p tb) c M -> length W = tri (S (tb_p tb)) ->
  exists M', rotate_z tb M alpha W = Ok M' /\ coefs (tb_p tb) (fun n m => (c n m : C) * cp (eang alpha) m) M'.
Proof.
  intros HM HW. unfold rotate_z. rewrite set_res_ok by (rewrite repeat_length; lia). cbn [bind].
  destruct (fill_ok _ (fun v => Ok (cmul v (cos alpha, sin alpha))) (cp (eang alpha)) (tb_p tb) (upd (repeat (0, 0)%R (tb_p tb + 1)) 0 (1, 0)%R)) as (pe & E & Hp).
  - rewrite upd_length, repeat_length. lia.
  - apply nth_upd0. lia.
  - intros j _. reflexivity.
  - rewrite E. cbn [bind]. apply each_term_ok; [exact HW|]. intros n m W' B _ _. rewrite (coefs_nth _ _ _ _ _ HM B). cbn [bind]. rewrite (nth_ok _ _ _ _ (Hp m ltac:(lia))). reflexivity.
Qed.

(** ** lap_rotate_sph_y *)
Lemma nth_resZ_nat A (l : list A) z i v : z = Z.of_nat i -> nth_error l i = Some v -> nth_resZ l z = Ok v.
Proof. intros -> H. unfold nth_resZ. destruct (Z.ltb_spec (Z.of_nat i) 0); [lia|]. rewrite Nat2Z.id. apply nth_ok, H. Qed.
Lemma ry_split a n f m : ry a n f m = RtoC (a m n) * f 0%nat + csum (fun i => RtoC (a m (n + S i)%nat) * f (S i) + RtoC (a m (n - S i)%nat) * (RtoC ((-1) ^ S i) * Cconj (f (S i)))) n.
Proof.
  unfold ry. rewrite csum_fold. f_equal.
  - f_equal. replace n with (n + 0)%nat at 2 by lia. apply ext_pos.
  - apply csum_ext. intros i Hi. rewrite ext_pos. f_equal. f_equal. unfold ext. destruct (Nat.leb_spec n (n - S i)); [lia|]. replace (n - (n - S i))%nat with (S i) by lia. reflexivity.
Qed.
Lemma rotate_y_ok tb cc ss d M W c : holds (tb_p tb) cc ss d -> coefs (tb_p tb) c M -> length W = tri (S (tb_p tb)) ->
  exists a M', rotate_y tb M d W = Ok M' /\ coefs (tb_p tb) (fun n => ry (a n) n (c n)) M' /\ forall n, (n <= tb_p tb)%nat -> wigner cc (- ss) (a n) n.
Proof.
  intros (a & Ld & Hd & Hw) HM HW. exists (fun n m k => ((-1) ^ (n + m + k) * a n m k)%R).
  assert (X : exists M', rotate_y tb M d W = Ok M' /\ coefs (tb_p tb) (fun n => ry (fun m k => ((-1) ^ (n + m + k) * a n m k)%R) n (c n)) M').
  { unfold rotate_y. apply each_term_ok; [exact HW|]. intros n mp W' B _ _.
    assert (Co : forall k z, (k <= 2 * n)%nat -> z = (Z.of_nat k - Z.of_nat n)%Z -> nth_resZ d (didx (Z.of_nat n) (Z.of_nat mp) 0 + z) = Ok (a n mp k)).
    { intros k z Hk ->. apply (nth_resZ_nat _ _ _ (dn n mp k)); [apply didx_dn|]. apply Hd; [split; lia|lia]. }
    rewrite midx_tri, Nat.add_0_r, <- (Nat.add_0_r (tri n)), <- midx_tri, Nat.add_0_r. rewrite (coefs_nth _ _ _ _ _ HM) by lia. cbn [bind].
    rewrite (Co n 0%Z) by lia. cbn [bind].
    rewrite (csum_loop 1 n _ (fun i => (c n (S i) * RtoC ((-1) ^ S i * a n mp (n + S i)%nat) + Cconj (c n (S i)) * RtoC (a n mp (n - S i)%nat)))).
    - cbn [bind]. f_equal. rewrite !cscale_R, ry_split.
      assert (S0 : ((-1) ^ (n + mp + n) = (-1) ^ mp)%R) by (replace (n + mp + n)%nat with (mp + 2 * n)%nat by lia; rewrite pow_add, pow_mult; replace ((-1) ^ 2)%R with 1%R by ring; rewrite pow1; ring).
      rewrite S0, Cmult_comm, Cmult_plus_distr_l, <- csum_scal. f_equal; [rewrite RtoC_mult; ceq|]. apply csum_ext. intros i Hi.
      replace ((-1) ^ (n + mp + (n + S i)))%R with ((-1) ^ mp * (-1) ^ S i)%R by (rewrite <- S0, <- pow_add; f_equal; lia).
      replace ((-1) ^ (n + mp + (n - S i)))%R with ((-1) ^ mp * (-1) ^ S i)%R.
      2:{ rewrite <- pow_add. replace (mp + S i)%nat with (mp + S i + 0)%nat by lia. assert (E2 : ((-1) ^ (S i + S i) = 1)%R) by (rewrite pow_add; apply sgn_sq). assert (E3 : ((-1) ^ (n + mp + (n - S i)) * (-1) ^ (S i + S i) = (-1) ^ (mp + S i))%R).
          { rewrite <- pow_add. replace (n + mp + (n - S i) + (S i + S i))%nat with (n + mp + n + S i)%nat by lia. rewrite pow_add, S0, <- pow_add. reflexivity. } rewrite E2, Rmult_1_r in E3. rewrite Nat.add_0_r. symmetry. exact E3. }
      pose proof (sgn_sq (S i)) as Q. set (u := ((-1) ^ S i)%R) in *. set (z := c n (S i)). set (w := ((-1) ^ mp)%R). set (a1 := a n mp (n + S i)%nat). set (a2 := a n mp (n - S i)%nat).
      transitivity (RtoC w * (z * RtoC (u * a1) + RtoC (u * u) * (Cconj z * RtoC a2))); [rewrite Q; ceq|ceq].
    - intros v k Hk. rewrite midx_tri. replace (tri n + 0 + (1 + k))%nat with (midx n (S k)) by (rewrite midx_tri; lia). rewrite (coefs_nth _ _ _ _ _ HM) by lia. cbn [bind].
      rewrite (Co (n + S k)%nat) by lia. cbn [bind]. rewrite (Co (n - S k)%nat) by lia. cbn [bind]. f_equal. rewrite !cscale_R, !cadd_C, conj_C. change (1 + k)%nat with (S k). unfold cadd. ceq. }
  destruct X as (M' & E & HM'). exists M'. split; [exact E|]. split; [exact HM'|]. intros n Hn. apply wigner_neg, Hw, Hn.
Qed.

(** ** the shifts *)
Lemma powers_ok p rho : exists a, powers p rho = Ok a /\ forall j, (j <= p)%nat -> nth_error a j = Some (rho ^ j)%R.
Proof.
  unfold powers. rewrite set_res_ok by (rewrite repeat_length; lia). cbn [bind]. apply fill_ok; [rewrite upd_length, repeat_length; lia|apply nth_upd0; lia|]. intros j _. cbn [pow]. f_equal. ring.
Qed.
Lemma sb_0 n : sb n 0 = 1%R.
Proof. unfold sb. rewrite Nat.sub_0_r. cbn [fact INR]. replace (INR (fact n) / (1 * INR (fact n)))%R with 1%R by (field; apply INR_fact_neq_0). apply sqrt_1. Qed.
Definition up (rho : R) (c : nat -> nat -> C) (n m : nat) : C := csum (fun i => c (n - i)%nat m * RtoC (rho ^ i * sb (n - m) i * sb (n + m) i)) (S (n - m)).
Definition down (p : nat) (rho : R) (c : nat -> nat -> C) (n m : nat) : C := csum (fun i => c (n + i)%nat m * RtoC (rho ^ i * sb (n + i - m) i * sb (n + i + m) i)) (S (p - n)).
Lemma shift_m_ok tb T rho pr W c : sound tb -> coefs (tb_p tb) c T -> length W = tri (S (tb_p tb)) -> (forall j, (j <= tb_p tb)%nat -> nth_error pr j = Some (rho ^ j)%R) ->
  exists W', shift_m tb T pr W = Ok W' /\ coefs (tb_p tb) (up rho c) W'.
Proof.
  intros HS HT HW Hp. unfold shift_m. apply each_term_ok; [exact HW|]. intros n m W' B _ _. rewrite (coefs_nth _ _ _ _ _ HT B). cbn [bind].
  rewrite (csum_loop 1 (n - m) _ (fun i => c (n - S i)%nat m * RtoC (rho ^ S i * sb (n - m) (S i) * sb (n + m) (S i)))).
  - apply ok_eq. unfold up. rewrite csum_shift, !sb_0, Nat.sub_0_r. apply (f_equal (fun u => u + _)). cbn [pow]. ceq.
  - intros v k Hk. change (1 + k)%nat with (S k). rewrite (coefs_nth _ _ _ _ _ HT) by lia. cbn [bind]. rewrite (nth_ok _ _ _ _ (Hp (S k) ltac:(lia))). cbn [bind].
    rewrite (nth_ok _ _ _ _ (g_binom tb HS (n - m) (S k) ltac:(lia))). cbn [bind]. rewrite (nth_ok _ _ _ _ (g_binom tb HS (n + m) (S k) ltac:(lia))). cbn [bind].
    apply ok_eq. rewrite !cscale_R. unfold cadd. ceq.
Qed.
Lemma shift_l_ok tb T rho pr W c : sound tb -> coefs (tb_p tb) c T -> length W = tri (S (tb_p tb)) -> (forall j, (j <= tb_p tb)%nat -> nth_error pr j = Some (rho ^ j)%R) ->
  exists W', shift_l tb T pr W = Ok W' /\ coefs (tb_p tb) (down (tb_p tb) rho c) W'.
Proof.
  intros HS HT HW Hp. unfold shift_l. apply each_term_ok; [exact HW|]. intros n m W' B _ _. rewrite (coefs_nth _ _ _ _ _ HT B). cbn [bind].
  rewrite (csum_loop 1 (tb_p tb - n) _ (fun i => c (n + S i)%nat m * RtoC (rho ^ S i * sb (n + S i - m) (S i) * sb (n + S i + m) (S i)))).
  - apply ok_eq. unfold down. rewrite csum_shift, !sb_0, Nat.add_0_r. apply (f_equal (fun u => u + _)). cbn [pow]. ceq.
  - intros v k Hk. change (1 + k)%nat with (S k). rewrite (coefs_nth _ _ _ _ _ HT) by lia. cbn [bind]. rewrite (nth_ok _ _ _ _ (Hp (S k) ltac:(lia))). cbn [bind].
    rewrite (nth_ok _ _ _ _ (g_binom tb HS (n + S k - m) (S k) ltac:(lia))). cbn [bind]. rewrite (nth_ok _ _ _ _ (g_binom tb HS (n + S k + m) (S k) ltac:(lia))). cbn [bind].
    apply ok_eq. rewrite !cscale_R. unfold cadd. ceq.
Qed.
Lemma halve_ok p W c : coefs p c W -> exists W', halve p W = Ok W' /\ coefs p (fun n m => (c n m : C) * RtoC ((1 / 2) ^ n)) W'.
Proof.
  intros HW. unfold halve. apply each_term_ok; [apply (sized _ _ _ HW)|]. intros n m W' B _ Same. destruct HW as [L H]. rewrite H in Same by exact B. rewrite (nth_ok _ _ _ _ Same). cbn [bind]. rewrite cscale_R. reflexivity.
Qed.

(** ** M_to_L_zp and M_to_L_zm *)
Definition across (p : nat) (sg : nat -> nat -> nat -> R) (scale rho : R) (c : nat -> nat -> C) (j k : nat) : C :=
  RtoC scale * csum (fun n => if Nat.leb k n then c n k * RtoC (sg n j k / rho ^ S (j + n) * sb (n + j) (n - k) * sb (n + j) (n + k)) else 0) (S p).
Lemma m_to_l_z_ok tb sgn sg scale M rho pr L c : sound tb -> coefs (tb_p tb) c M -> length L = tri (S (tb_p tb)) ->
  (forall n j k : nat, pow_m1 (sgn (Z.of_nat n) (Z.of_nat j) (Z.of_nat k)) = sg n j k) -> (forall j, (j <= 2 * tb_p tb)%nat -> nth_error pr j = Some (/ rho ^ S j)%R) ->
  exists L', M_to_L_z tb sgn scale M pr L = Ok L' /\ coefs (tb_p tb) (across (tb_p tb) sg scale rho c) L'.
Proof.
  intros HS HM HL Hsg Hp. unfold M_to_L_z. apply each_term_ok; [exact HL|]. intros j k W' B _ _.
  rewrite (csum_loop k (tb_p tb + 1 - k) _ (fun i => c (k + i)%nat k * RtoC (sg (k + i)%nat j k / rho ^ S (j + (k + i)) * sb (k + i + j) (k + i - k) * sb (k + i + j) (k + i + k)))).
  - cbn [bind]. apply ok_eq. rewrite cscale_R, Cmult_comm. unfold across. f_equal. replace (S (tb_p tb)) with (k + (tb_p tb + 1 - k))%nat by lia. rewrite csum_split, (csum_zero (fun n => if Nat.leb k n then _ else _) k).
    + change ((0, 0)%R : C) with (RtoC 0). f_equal. apply csum_ext. intros i Hi. destruct (Nat.leb_spec k (k + i)); [reflexivity|lia].
    + intros i Hi. destruct (Nat.leb_spec k i); [lia|reflexivity].
  - intros v i Hi. rewrite (coefs_nth _ _ _ _ _ HM) by lia. cbn [bind]. rewrite (nth_ok _ _ _ _ (Hp (j + (k + i))%nat ltac:(lia))). cbn [bind].
    rewrite (nth_ok _ _ _ _ (g_binom tb HS (k + i + j) (k + i - k) ltac:(lia))). cbn [bind]. rewrite (nth_ok _ _ _ _ (g_binom tb HS (k + i + j) (k + i + k) ltac:(lia))). cbn [bind].
    apply ok_eq. rewrite Hsg, !cscale_R. unfold cadd, Rdiv. ceq.
Qed.
