(** What becomes of the singular functions, and of the Helmholtz expansions, below 1e-4. *)
From Coq Require Import Reals ZArith List Lia Lra Psatz.
From Verif Require Import Base ListFacts LegSpec LegProofs LegAdd LapModel LapSpec LapArrays LapProofs LapProps BesselSpec BesselProofs BesselAdd OscSpec OscProofs YukModel YukSpec YukBessel YukProofs YukProps HelmModel HelmSpec HelmBessel HelmPair HelmProofs HelmExp.
Import ListNotations.
Open Scope R_scope.

Definition small_y (scale x : R) (n : nat) : R :=
  match n with O => - (1 - 5 / 10 * x * x) / x | S _ => - (scale ^ n * oddm n / x ^ n) * (1 - 5 / 10 * x * x / (1 - 2 * INR n)) end.

Lemma hn_small bJn bYn nb x scale B : (nb < length B)%nat -> 0 < x < ensig ->
  exists B', bessel_hn_scaled bJn bYn nb x scale B = Ok B' /\ forall n, (n <= nb)%nat -> exists j, nth_error B' n = Some (j, small_y scale x n).
Proof.
  intros HL Hx. unfold bessel_hn_scaled. destruct (Rlt_dec x ensig) as [_|C]; [|lra]. cbv zeta. rewrite !rdiv_ok by lra. cbn [bind]. rewrite set_res_ok by lia. cbn [bind].
  match goal with |- context [foldM ?F (seq 1 nb) ?s] => destruct (loop_ind _ F (fun k st => length (snd st) = length B /\ snd (fst st) = scale ^ k * oddm k / x ^ k /\ forall n, (n <= k)%nat -> exists j, nth_error (snd st) n = Some (j, small_y scale x n)) 1 nb s) as (((t1 & t2) & B') & E & HB') end.
  - cbn [fst snd]. split; [apply upd_length|]. split; [unfold oddm; simpl pow; field|]. intros n Hn. replace n with 0%nat by lia. eexists. rewrite upd_same by lia. reflexivity.
  - intros k [[t1 t2] B'] Hk (L' & Et & HBk). cbn [fst snd] in L', Et, HBk. change (1 + k)%nat with (S k). pose proof (pos_INR k) as Pk. pose proof (S_INR k) as Sk.
    rewrite rdiv_ok by lra. cbn [bind]. rewrite rdiv_ok by lra. cbn [bind]. rewrite rdiv_ok by lra. cbn [bind]. rewrite set_res_ok by lia. cbn [bind]. eexists. split; [reflexivity|]. cbn [fst snd]. split; [rewrite upd_length; exact L'|].
    assert (Et' : t2 * (scale / x) * (2 * INR (S k) - 1) = scale ^ S k * oddm (S k) / x ^ S k).
    { rewrite Et, oddm_S, Sk. simpl pow. pose proof (pow_lt x k ltac:(lra)). field. split; lra. }
    split; [exact Et'|]. intros n Hn. destruct (Nat.eq_dec n (S k)) as [->|Nn].
    + eexists. rewrite upd_same by lia. rewrite Et'. unfold small_y. reflexivity.
    + rewrite upd_other by lia. apply HBk. lia.
  - exists B'. rewrite E. cbn [bind]. split; [reflexivity|]. intros n Hn. apply HB', Hn.
Qed.

Lemma cos_low y : 0 < y -> 1 - y * y / 2 <= cos y.
Proof.
  intros Hy. replace y with (2 * (y / 2)) at 3 by field. rewrite cos_2a_sin. pose proof (sin_lt_x (y / 2) ltac:(lra)) as S1. pose proof (sin_lt_x (y / 2) ltac:(lra)).
  assert (S2 : - (y / 2) < sin (y / 2)). { destruct (Rle_lt_dec 0 (sin (y / 2))) as [L|L]; [lra|]. destruct (Rle_lt_dec (y / 2) PI) as [P|P]; [pose proof (sin_ge_0 (y / 2) ltac:(lra) P); lra|]. pose proof (SIN_bound (y / 2)). pose proof PI2_1. lra. }
  nra.
Qed.

Lemma sum_half n : sumlt (fun k => 6 * (/ 2) ^ S k) n <= 6.
Proof. assert (sumlt (fun k => 6 * (/ 2) ^ S k) n = 6 - 6 * (/ 2) ^ n) as ->; [|pose proof (pow_lt (/ 2) n ltac:(lra)); lra]. induction n as [|n IH]; cbn [sumlt]; [simpl; ring|]. rewrite IH. simpl pow. field. Qed.

Section Small.
Variables (bJn bYn : bessel_half) (n_e n_p : list Z) (p : nat) (omega size : R) (sqf : list R) (scale : R) (c : pt) (r q : R).
Hypothesis Hp : (p <= 18)%nat.
Hypothesis HT : YukModel.generate_sqf p = Ok sqf.
Hypothesis HN : helm_new n_e n_p omega size scale ((p + 1) * (p + 2) / 2) = Ok (repeat (0, 0) ((p + 1) * (p + 2) / 2)).
Hypothesis Ho : 0 < omega.
Hypothesis Hs : 0 < scale <= 1.
Hypothesis Hr : / 10 ^ 10 <= omega * r < / 10 ^ 4.
Let s := mkCharge q (mkPt (px c) (py c) (pz c + r / 2)).
Let t := mkPt (px c) (py c) (pz c + r).
Let eta := / 10 ^ 17.

Let r_pos : 0 < r.
Proof. assert (0 < / 10 ^ 10) by (apply Rinv_0_lt_compat, pow_lt; lra). nra. Qed.
Let eta_ok : / 10 ^ 17 <= eta <= / 2.
Proof. unfold eta. split; [lra|]. apply Rle_trans with (/ 10 ^ 1); [apply ip10; lia|lra]. Qed.

Lemma sm_dists : norm3 (point_sub (cpos s) c) = r / 2 /\ norm3 (point_sub t c) = r /\ dist t (cpos s) = r / 2.
Proof.
  split; [|split]; unfold norm3, dist, point_sub, s, t; cbn [cpos px py pz]; match goal with |- sqrt ?a = ?b => replace a with (b * b) by field end; apply sqrt_square; lra.
Qed.

Lemma sm_size g n : Rabs (g * scale ^ n - jj n (omega * (r / 2))) <= eta * ii n (omega * (r / 2)) + 2 * enmten * scale ^ n -> (n <= p)%nat -> Rabs (g * scale ^ n) <= 11 / 10 * ((omega * (r / 2)) ^ n / odd n) + 2 * enmten.
Proof.
  intros H Hn. set (x := omega * (r / 2)) in *. pose proof ensig_lt as Es. assert (X : 0 < x < / 10 ^ 4) by (unfold x; assert (0 < omega * r) by nra; lra).
  pose proof (jj_le n x ltac:(lra)) as J. pose proof (ii_up n x ltac:(lra)) as U. pose proof (pos_INR n) as Pn. pose proof (odd_ge n) as On.
  set (z := x * x / (2 * (2 * INR n + 3))) in *. assert (Z : z <= x * x). { unfold z. rewrite <- (Rmult_1_r (x * x)) at 2. unfold Rdiv. apply Rmult_le_compat_l; [nra|]. rewrite <- Rinv_1. apply Rinv_le_contravar; lra. }
  assert (X4 : / 10 ^ 4 = / 10000) by (f_equal; ring). rewrite X4 in X. assert (Z0 : 0 <= z) by (apply Rmult_le_pos; [nra|left; apply Rinv_0_lt_compat; lra]). assert (Z1 : z <= / 100) by nra. pose proof (exp_two z ltac:(lra)) as Ex.
  set (w := x ^ n / odd n). assert (W : 0 < w) by (unfold w; apply Rmult_lt_0_compat; [apply pow_lt; lra|apply Rinv_0_lt_compat; lra]).
  assert (U' : ii n x <= w * exp z) by (replace (w * exp z) with (x ^ n * exp z / odd n) by (unfold w; field; lra); exact U). assert (X5 : exp z <= 105 / 100) by nra. assert (U2 : ii n x <= 105 / 100 * w) by (eapply Rle_trans; [exact U'|]; rewrite (Rmult_comm (105 / 100)); apply Rmult_le_compat_l; lra).
  assert (Sn : scale ^ n <= 1) by (rewrite <- (pow1 n); apply pow_incr; lra). pose proof enmten_pos as Ep. assert (En : 2 * enmten * scale ^ n <= 2 * enmten) by nra.
  assert (E2 : eta <= / 100) by (unfold eta; apply Rle_trans with (/ 10 ^ 2); [apply ip10; lia|lra]). assert (Ii : 0 <= ii n x) by (apply ii_nonneg; lra).
  replace (g * scale ^ n) with ((g * scale ^ n - jj n x) + jj n x) by ring. eapply Rle_trans; [apply Rabs_triang|]. nra.
Qed.

Lemma small_wrong : exists M u v, helm_S_to_M bJn n_e n_p p omega size sqf scale c [s] = Ok M /\ (forall phi, helm_M_to_T bJn bYn p omega scale c M t phi = Ok (cadd phi (u, v))) /\
  Rabs v <= 3 / 5 * Rabs (wave_im omega [s] t).
Proof.
  destruct sm_dists as (D1 & D2 & D3). pose proof (ytable_ok p sqf HT) as YT. pose proof ensig_lt as Es.
  set (x := omega * r) in *. assert (Xp : 0 < x) by (unfold x; nra). assert (Ex2 : omega * (r / 2) = x / 2) by (unfold x; field).
  destruct (jn_small bJn eta eta_ok p (omega * (r / 2)) scale (repeat 0 (p + 1)) ltac:(lia) ltac:(rewrite repeat_length; lia) (proj1 Hs) ltac:(rewrite Ex2; unfold ensig; lra)) as (BJ & EJ & CJ).
  set (g := fun n => nth n BJ 0). assert (Vg : forall n, (n <= p)%nat -> nth_error BJ n = Some (g n)) by (intros n H; destruct (CJ n H) as (b & Eb & _); rewrite Eb; unfold g; rewrite (nth_error_nth _ _ 0 Eb); reflexivity).
  set (G := fun (_ : R) n => (2 * INR n + 1) * g n).
  destruct (hsources_ok p (fun M s => helm_s_to_m bJn p omega sqf (point_sub (cpos s) c) (cq s) scale M) G c [s]) with (c := fun _ _ : nat => (0, 0)) (M := repeat (0, 0) ((p + 1) * (p + 2) / 2)) as (M & c' & E & HM & Fl & V).
  - intros M c0 s0 b e HM [<-|[]] Hb HA.
    apply (ys_step p sqf (fun r => bessel_jn_scaled bJn p (omega * r) scale (repeat 0 (p + 1))) g (cq s) (point_sub (cpos s) c) c0 M (norm3 (point_sub (cpos s) c)) b e YT HM HA Hb). exists BJ. rewrite D1. split; [exact EJ|exact Vg].
  - intros s0 [<-|[]]. rewrite D1. lra.
  - apply hnew_coefs.
  - intros n. reflexivity.
  - set (u := point_sub t c) in *. assert (Hu : 0 < norm3 u) by lra. destruct (angles_ok 1 u ltac:(ring) Hu) as (b & eb & Au & Bb & _).
    destruct (hn_small bJn bYn p x scale (repeat (0, 0) (p + 1)) ltac:(rewrite repeat_length; lia) ltac:(unfold ensig; lra)) as (BH & EH & CH).
    set (h := fun n => nth n BH (0, 0)). assert (Vh : forall n, (n <= p)%nat -> nth_error BH n = Some (h n) /\ snd (h n) = small_y scale x n) by (intros n H; destruct (CH n H) as (j & Ej); split; [exact (eq_trans Ej (f_equal Some (eq_sym (nth_error_nth BH n (0, 0) Ej))))|exact (f_equal snd (nth_error_nth BH n (0, 0) Ej))]).
    exists M. eexists. eexists. split; [unfold helm_S_to_M; rewrite HN; cbn [bind]; exact E|]. split.
    + intros phi. unfold helm_M_to_T, helm_m_to_t. fold u.
      rewrite (ht_step p (fun r => bessel_hn_scaled bJn bYn p (omega * r) scale (repeat (0, 0) (p + 1))) h u c' M (norm3 u) b eb HM Fl Au Bb); [cbn [bind]; reflexivity|]. rewrite D2. fold x. exists BH. split; [exact EH|apply Vh].
    + rewrite (V u b eb _ Hu Au), pot_zero, Rplus_0_l. cbn [fold_right]. cbv zeta. rewrite Rplus_0_r. unfold contrib. set (y := dot _ _ / _).
      assert (By : -1 <= y <= 1) by (apply (dist_places c (cpos s) t); [rewrite D1; lra|exact Hu]).
      unfold wave_im. cbn [fold_right]. rewrite Rplus_0_r, D3. replace (omega * (r / 2)) with (x / 2) by (unfold x; field). change (cq s) with q.
      assert (X4 : / 10 ^ 4 = / 10000) by (f_equal; ring). assert (X1 : 10000 < / x) by (rewrite <- (Rinv_inv 10000); apply Rinv_lt_contravar; [apply Rmult_lt_0_compat; lra|lra]).
      assert (True_ : 199 / 100 * / x * Rabs q <= Rabs (q * (- cos (x / 2) / (x / 2)))).
      { rewrite Rabs_mult, (Rmult_comm _ (Rabs q)). apply Rmult_le_compat_l; [apply Rabs_pos|]. pose proof (cos_low (x / 2) ltac:(lra)) as C0. assert (C1 : 999 / 1000 <= cos (x / 2)) by nra. replace (- cos (x / 2) / (x / 2)) with (- (2 * cos (x / 2) * / x)) by (field; lra). rewrite Rabs_Ropp, Rabs_pos_eq by nra. nra. }
      assert (Comp : Rabs (sumlt (fun n => q * G (norm3 (point_sub (cpos s) c)) n * snd (h n) * D n 0 y) (S p)) <= Rabs q * (11 / 10 * / x + 6 + 1)).
      { rewrite sumlt_shift. eapply Rle_trans; [apply Rabs_triang|]. replace (Rabs q * (11 / 10 * / x + 6 + 1)) with (Rabs q * (11 / 10 * / x + / 2) + Rabs q * (6 + / 2)) by (field; lra). apply Rplus_le_compat.
        - unfold G. rewrite (proj2 (Vh 0%nat ltac:(lia))), D_0_0. unfold small_y. cbn [INR]. replace (q * ((2 * 0 + 1) * g 0%nat) * (- (1 - 5 / 10 * x * x) / x) * 1) with (q * (g 0%nat * scale ^ 0 * - ((1 - 5 / 10 * x * x) * / x))) by (simpl; field; lra).
          rewrite Rabs_mult. apply Rmult_le_compat_l; [apply Rabs_pos|]. destruct (CJ 0%nat ltac:(lia)) as (b0 & Eb0 & Cb0). rewrite (Vg 0%nat ltac:(lia)) in Eb0. injection Eb0 as <-. pose proof (sm_size _ _ Cb0 ltac:(lia)) as Sz. rewrite (pow_O (omega * (r / 2))) in Sz. cbn [odd] in Sz. replace (1 / 1) with 1 in Sz by field.
          rewrite Rabs_mult, Rabs_Ropp. pose proof (Rabs_pos (g 0%nat * scale ^ 0)). assert (F1 : 0 <= 1 - 5 / 10 * x * x <= 1) by nra. assert (0 <= (1 - 5 / 10 * x * x) * / x <= / x) by (split; [apply Rmult_le_pos; lra|rewrite <- (Rmult_1_l (/ x)) at 2; apply Rmult_le_compat_r; lra]). rewrite (Rabs_pos_eq ((1 - 5 / 10 * x * x) * / x)) by lra.
          assert (T1 : 2 * enmten * / x <= / 2). { assert (/ x <= 10 ^ 10) by (rewrite <- (Rinv_inv (10 ^ 10)); apply Rinv_le_contravar; [apply Rinv_0_lt_compat, pow_lt; lra|lra]). assert (enmten <= / 10 ^ 11) by (unfold enmten; apply ip10; lia). assert (I : / 10 ^ 11 * 10 ^ 10 = / 10) by (simpl; field). pose proof enmten_pos. assert (enmten * / x <= / 10 ^ 11 * 10 ^ 10) by (apply Rmult_le_compat; lra). lra. }
          apply Rle_trans with ((11 / 10 * 1 + 2 * enmten) * / x); [apply Rmult_le_compat; lra|lra].
        - assert (Tail : forall k, (k < p)%nat -> Rabs (q * G (norm3 (point_sub (cpos s) c)) (S k) * snd (h (S k)) * D (S k) 0 y) <= Rabs q * (6 * (/ 2) ^ S k + / 100)).
          { intros k Hk. destruct (Vh (S k) ltac:(lia)) as [_ ->]. unfold G. unfold small_y. set (n := S k) in *. assert (Hn : (1 <= n <= p)%nat) by lia. clearbody n. pose proof (legendre_le_1 n y By) as Ly. pose proof (pow_lt x n Xp) as Px. pose proof (odd_ge n) as On. pose proof (pos_INR n) as Pn. assert (N1 : 1 <= INR n) by (apply (le_INR 1); lia).
            replace (q * ((2 * INR n + 1) * g n) * (- (scale ^ n * oddm n / x ^ n) * (1 - 5 / 10 * x * x / (1 - 2 * INR n))) * D n 0 y) with (q * (g n * scale ^ n * ((2 * INR n + 1) * oddm n / x ^ n * (- (1 - 5 / 10 * x * x / (1 - 2 * INR n)))) * D n 0 y)) by (field; split; lra).
            rewrite <- oddm_S. cbn [oddm]. rewrite Rabs_mult. apply Rmult_le_compat_l; [apply Rabs_pos|]. rewrite Rabs_mult, <- (Rmult_1_r (6 * (/ 2) ^ n + / 100)). apply Rmult_le_compat; [apply Rabs_pos|apply Rabs_pos| |exact Ly].
            destruct (CJ n ltac:(lia)) as (b0 & Eb0 & Cb0). rewrite (Vg n ltac:(lia)) in Eb0. injection Eb0 as <-. pose proof (sm_size _ _ Cb0 ltac:(lia)) as Sz. rewrite Ex2 in Sz. rewrite Rabs_mult.
            assert (Fc : Rabs (odd n / x ^ n * - (1 - 5 / 10 * x * x / (1 - 2 * INR n))) <= 2 * (odd n / x ^ n)).
            { rewrite Rabs_mult, Rabs_Ropp, (Rmult_comm 2 (odd n / x ^ n)). assert (0 < odd n / x ^ n) by (apply Rdiv_lt_0_compat; lra). rewrite (Rabs_pos_eq (odd n / x ^ n)) by lra. apply Rmult_le_compat_l; [lra|]. replace (5 / 10 * x * x / (1 - 2 * INR n)) with (- (5 / 10 * x * x * / (2 * INR n - 1))) by (field; split; lra).
              assert (0 < / (2 * INR n - 1) <= 1) by (split; [apply Rinv_0_lt_compat; lra|rewrite <- Rinv_1; apply Rinv_le_contravar; lra]). rewrite Rabs_pos_eq by nra. nra. }
            apply Rle_trans with ((11 / 10 * ((x / 2) ^ n / odd n) + 2 * enmten) * (2 * (odd n / x ^ n))); [apply Rmult_le_compat; try apply Rabs_pos; assumption|].
            assert (Eh : (x / 2) ^ n / odd n * (odd n / x ^ n) = (/ 2) ^ n) by (unfold Rdiv; rewrite Rpow_mult_distr; field; split; lra).
            replace ((11 / 10 * ((x / 2) ^ n / odd n) + 2 * enmten) * (2 * (odd n / x ^ n))) with (11 / 10 * 2 * ((x / 2) ^ n / odd n * (odd n / x ^ n)) + 4 * (enmten * (odd n * / x ^ n))) by (unfold Rdiv; ring). rewrite Eh. pose proof (pow_lt (/ 2) n ltac:(lra)).
            assert (T2 : enmten * (odd n * / x ^ n) <= / 1000); [|lra].
            assert (/ x ^ n <= 10 ^ 180). { rewrite <- pow_inv. apply Rle_trans with ((10 ^ 10) ^ n); [apply pow_incr; split; [left; apply Rinv_0_lt_compat, Xp|]; rewrite <- (Rinv_inv (10 ^ 10)); apply Rinv_le_contravar; [apply Rinv_0_lt_compat, pow_lt; lra|lra]|]. rewrite <- pow_mult. apply p10. lia. }
            pose proof (odd_38 n ltac:(lia)). assert (0 < / x ^ n) by (apply Rinv_0_lt_compat, Px).
            apply Rle_trans with (enmten * (10 ^ 38 * 10 ^ 180)); [apply Rmult_le_compat_l; [left; apply enmten_pos|]; apply Rmult_le_compat; lra|]. unfold enmten. rewrite <- pow_add. replace (38 + 180)%nat with 218%nat by reflexivity. replace (10 ^ 300) with (10 ^ 82 * 10 ^ 218) by (rewrite <- pow_add; reflexivity). pose proof (pow_lt 10 218 ltac:(lra)). pose proof (pow_lt 10 82 ltac:(lra)). replace (/ (10 ^ 82 * 10 ^ 218) * 10 ^ 218) with (/ 10 ^ 82) by (field; split; lra). apply Rle_trans with (/ 10 ^ 3); [apply ip10; lia|lra]. }
          apply Rle_trans with (sumlt (fun k => Rabs q * (6 * (/ 2) ^ S k + / 100)) p); [apply sumlt_abs; exact Tail|].
          rewrite (sumlt_scal (Rabs q) (fun k => 6 * (/ 2) ^ S k + / 100)). apply Rmult_le_compat_l; [apply Rabs_pos|]. rewrite (sumlt_plus (fun k => 6 * (/ 2) ^ S k) (fun _ => / 100)). apply Rplus_le_compat; [apply sum_half|].
          assert (SC : sumlt (fun _ => / 100) p = INR p * / 100) by (clear; induction p as [|n IH]; cbn [sumlt]; [simpl; ring|rewrite IH, S_INR; ring]). rewrite SC. assert (INR p <= INR 18) by (apply le_INR; lia). simpl INR in *. lra. }
      pose proof (Rabs_pos q). eapply Rle_trans; [exact Comp|]. nra.
Qed.
End Small.
