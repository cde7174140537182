(** Multipole and local expansions of the Helmholtz kernel: the operations together. *)
From Coq Require Import Reals ZArith List Lia Lra Psatz.
From Verif Require Import Base ListFacts LegSpec LegProofs LegAdd LapModel LapSpec LapArrays LapProofs LapProps BesselSpec BesselProofs BesselAdd OscSpec OscProofs YukModel YukSpec YukBessel YukProofs HelmModel HelmSpec HelmBessel HelmPair HelmProofs.
Import ListNotations.
Open Scope R_scope.

(** ** levels *)
Lemma ln2_pos : 0 < ln 2.
Proof. rewrite <- ln_1. apply ln_increasing; lra. Qed.
Lemma Int_part_spec r z : IZR z <= r < IZR z + 1 -> z = Int_part r.
Proof. intros H. unfold Int_part. assert ((z + 1)%Z = up r); [|lia]. apply tech_up; rewrite plus_IZR; simpl IZR; lra. Qed.
Lemma Int_part_INR n : Int_part (INR n) = Z.of_nat n.
Proof. symmetry. apply Int_part_spec. rewrite <- INR_IZR_INZ. lra. Qed.
Lemma trunc_INR n : HelmModel.trunc (INR n) = Z.of_nat n.
Proof. unfold HelmModel.trunc. destruct (Rle_dec 0 (INR n)) as [_|C]; [apply Int_part_INR|]. exfalso. apply C, pos_INR. Qed.

Lemma helm_scale_pos omega size lev : 0 < omega -> 0 < size -> 0 < helm_scale omega size lev <= 1 /\ helm_scale omega size lev <= omega * (size / 2 ^ lev).
Proof.
  intros Hl Hs. unfold helm_scale. pose proof (pow_lt 2 lev ltac:(lra)) as P. pose proof (pow_R1_Rle 2 lev ltac:(lra)) as P1. assert (I : 0 < / 2 ^ lev <= 1) by (split; [apply Rinv_0_lt_compat, P|rewrite <- Rinv_1; apply Rinv_le_contravar; lra]).
  assert (0 < omega * size) by nra. unfold Rdiv. destruct (Rlt_dec 1 (omega * size)) as [L|L].
  - replace (1 * / size * size) with 1 by (field; lra). rewrite <- Rmult_assoc. split; [lra|]. apply Rmult_le_compat_r; lra.
  - rewrite <- Rmult_assoc. split; [|lra]. split; nra.
Qed.
Lemma helm_scale_lev omega size lev : helm_scale omega size lev = helm_scale omega size 0 / 2 ^ lev.
Proof. unfold helm_scale. simpl (2 ^ 0). field. apply pow_nonzero. lra. Qed.
Lemma level_ok omega size lev : 0 < omega -> 0 < size -> helm_level (helm_scale omega size 0) (helm_scale omega size lev) = Ok (Z.of_nat lev).
Proof.
  intros Ho Hs. destruct (helm_scale_pos omega size 0 Ho Hs) as [[A _] _]. pose proof (pow_lt 2 lev ltac:(lra)) as P. unfold helm_level. rewrite (helm_scale_lev omega size lev). set (s := helm_scale omega size 0) in *.
  assert (0 < s / 2 ^ lev) by (apply Rdiv_lt_0_compat; assumption). rewrite rdiv_ok by lra. cbn [bind]. f_equal. replace (s / (s / 2 ^ lev)) with (2 ^ lev) by (field; split; lra).
  rewrite ln_pow by lra. pose proof ln2_pos. replace (INR lev * ln 2 / ln 2) with (INR lev) by (field; lra). apply trunc_INR.
Qed.
Lemma level_one omega size : 0 < omega -> 0 < size ->
  (/ 2 < omega * size -> helm_level (helm_scale omega size 0) 1 = Ok 0%Z) /\ (omega * size <= / 2 -> exists k, helm_level (helm_scale omega size 0) 1 = Ok k /\ (k < 0)%Z).
Proof.
  intros Ho Hs. assert (P : 0 < omega * size) by nra. pose proof ln2_pos as L2. unfold helm_level. rewrite rdiv_ok by lra. cbn [bind]. set (s := helm_scale omega size 0).
  assert (Es : s = if Rlt_dec 1 (omega * size) then 1 else omega * size) by (unfold s, helm_scale; destruct (Rlt_dec 1 (omega * size)); simpl pow; field; lra).
  replace (s / 1) with s by field. split; intros H.
  - f_equal. assert (B : -1 < ln s / ln 2 <= 0).
    { assert (Bs : / 2 < s <= 1) by (rewrite Es; destruct (Rlt_dec 1 (omega * size)); lra).
      assert (L1 : ln s <= 0). { destruct (Req_dec s 1) as [->|N]; [rewrite ln_1; lra|]. rewrite <- ln_1. left. apply ln_increasing; lra. }
      assert (L0 : - ln 2 < ln s). { rewrite <- ln_Rinv by lra. apply ln_increasing; lra. }
      assert (I : 0 < / ln 2) by (apply Rinv_0_lt_compat, L2). unfold Rdiv. split; [|nra]. assert (E : -1 = (- ln 2) * / ln 2) by (field; lra). rewrite E. apply Rmult_lt_compat_r; assumption. }
    unfold HelmModel.trunc. destruct (Rle_dec 0 (ln s / ln 2)) as [C|C].
    + symmetry. apply Int_part_spec. simpl IZR. lra.
    + apply Rnot_le_lt in C. replace 0%Z with (- 0)%Z by reflexivity. f_equal. symmetry. apply Int_part_spec. simpl IZR. lra.
  - eexists. split; [reflexivity|]. assert (Bs : s <= / 2) by (rewrite Es; destruct (Rlt_dec 1 (omega * size)); lra). assert (S0 : 0 < s) by (rewrite Es; destruct (Rlt_dec 1 (omega * size)); lra).
    assert (L0 : ln s <= - ln 2). { rewrite <- ln_Rinv by lra. destruct (Req_dec s (/ 2)) as [->|N]; [lra|]. left. apply ln_increasing; lra. }
    assert (B : ln s / ln 2 <= -1). { assert (I : 0 < / ln 2) by (apply Rinv_0_lt_compat, L2). unfold Rdiv. assert (E : -1 = (- ln 2) * / ln 2) by (field; lra). rewrite E. apply Rmult_le_compat_r; lra. }
    unfold HelmModel.trunc. destruct (Rle_dec 0 (ln s / ln 2)) as [C|_]; [lra|]. destruct (base_Int_part (- (ln s / ln 2))) as [I1 I2]. assert (0 < Int_part (- (ln s / ln 2)))%Z; [|lia]. apply lt_IZR. simpl IZR. lra.
Qed.

Lemma nth_resZ_ok A (l : list A) k : (k < length l)%nat -> exists v, nth_resZ l (Z.of_nat k) = Ok v.
Proof. intros H. destruct (nth_error l k) as [v|] eqn:E; [|apply nth_error_None in E; lia]. exists v. unfold nth_resZ. destruct (Z.ltb_spec (Z.of_nat k) 0); [lia|]. rewrite Nat2Z.id. apply nth_ok, E. Qed.
Lemma nth_resZ_neg A (l : list A) k : (k < 0)%Z -> nth_resZ l k = Fail Oob.
Proof. intros H. unfold nth_resZ. destruct (Z.ltb_spec k 0); [reflexivity|lia]. Qed.
Lemma nth_resZ_over A (l : list A) k : (length l <= k)%nat -> nth_resZ l (Z.of_nat k) = Fail Oob.
Proof. intros H. unfold nth_resZ. destruct (Z.ltb_spec (Z.of_nat k) 0); [reflexivity|]. rewrite Nat2Z.id. unfold nth_res. apply nth_error_None in H. rewrite H. reflexivity. Qed.

Lemma new_lev n_e n_p omega size lev n : length n_e = S maxlev -> length n_p = S maxlev -> 0 < omega -> 0 < size -> (lev <= maxlev)%nat ->
  helm_new n_e n_p omega size (helm_scale omega size lev) n = Ok (repeat (0, 0) n).
Proof.
  intros He Hp Ho Hs Hl. unfold helm_new. rewrite level_ok by assumption. cbn [bind]. destruct (nth_resZ_ok Z n_e lev ltac:(lia)) as (v & ->). cbn [bind]. destruct (nth_resZ_ok Z n_p lev ltac:(lia)) as (v' & ->). reflexivity.
Qed.
Lemma new_one n_e n_p omega size n : length n_e = S maxlev -> length n_p = S maxlev -> 0 < omega -> 0 < size -> / 2 < omega * size ->
  helm_new n_e n_p omega size 1 n = Ok (repeat (0, 0) n).
Proof.
  intros He Hp Ho Hs Hl. unfold helm_new. rewrite (proj1 (level_one omega size Ho Hs) Hl). cbn [bind]. destruct (nth_resZ_ok Z n_e 0 ltac:(lia)) as (v & E). cbn [Z.of_nat] in E. rewrite E. cbn [bind]. destruct (nth_resZ_ok Z n_p 0 ltac:(lia)) as (v' & E'). cbn [Z.of_nat] in E'. rewrite E'. reflexivity.
Qed.

(** ** the field *)
Lemma wave_re_moved omega c l t : wave_re omega (moved c l) t = fold_right (fun s v => cq s * (cos (omega * dist t (place c (cpos s)) + - (PI / 2)) / (omega * dist t (place c (cpos s)))) + v) 0 l.
Proof. unfold wave_re, moved. induction l as [|s l IH]; [reflexivity|]. cbn [map fold_right cq cpos]. rewrite IH, cos_half. reflexivity. Qed.
Lemma wave_im_moved omega c l t : wave_im omega (moved c l) t = fold_right (fun s v => cq s * (cos (omega * dist t (place c (cpos s)) + PI) / (omega * dist t (place c (cpos s)))) + v) 0 l.
Proof. unfold wave_im, moved. induction l as [|s l IH]; [reflexivity|]. cbn [map fold_right cq cpos]. rewrite IH, cos_pi. reflexivity. Qed.

Definition centry (rb : res (list cplx)) (n : nat) : cplx := match rb with Ok B => nth n B (0, 0) | Fail _ => (0, 0) end.

Section Expansions.
Variables (bJn bYn : bessel_half) (eta : R).
Hypothesis HJ : computes_J bJn eta.
Hypothesis HY : computes_Y bYn eta.
Hypothesis Heta : / 10 ^ 17 <= eta <= / 2.
Variables (n_e n_p : list Z) (p : nat) (omega size : R) (sqf : list R) (scale : R) (c : pt) (l : list charge) (a : R).
Hypothesis Hp : (p <= 18)%nat.
Hypothesis HT : YukModel.generate_sqf p = Ok sqf.
Hypothesis Ho : 0 < omega.
Hypothesis Hscale : 0 < scale <= 1.

Let eta_ok : 0 <= eta <= / 2.
Proof. assert (0 < / 10 ^ 17) by (apply Rinv_0_lt_compat, pow_lt; lra). lra. Qed.

Lemma jn_vals x : 0 < x <= 10 ^ 2 -> exists g, (exists B, bessel_jn_scaled bJn p x scale (repeat 0 (p + 1)) = Ok B /\ forall n, (n <= p)%nat -> nth_error B n = Some (g n)) /\
  (forall n, (n <= p)%nat -> Rabs (g n * scale ^ n - jj n x) <= eta * ii n x + 2 * enmten * scale ^ n) /\ g = entry (bessel_jn_scaled bJn p x scale (repeat 0 (p + 1))).
Proof.
  intros Hx. destruct (jn_ok bJn eta HJ Heta p x scale (repeat 0 (p + 1)) Hp ltac:(rewrite repeat_length; lia) Hscale Hx) as (B & E & C). rewrite E. exists (entry (Ok B)).
  assert (V : forall n, (n <= p)%nat -> nth_error B n = Some (entry (Ok B) n)) by (intros n H; destruct (C n H) as (b & Eb & _); rewrite Eb, (entry_ok B n b Eb); reflexivity).
  split; [exists B; split; [reflexivity|exact V]|]. split; [|reflexivity]. intros n H. destruct (C n H) as (b & Eb & Cb). rewrite (entry_ok B n b Eb). exact Cb.
Qed.
Lemma hn_vals x : ensig <= x <= 10 ^ 2 -> exists J Y, (exists B, bessel_hn_scaled bJn bYn p x scale (repeat (0, 0) (p + 1)) = Ok B /\ forall n, (n <= p)%nat -> nth_error B n = Some (J n * scale ^ n, Y n * scale ^ n)) /\
  (forall n, (n <= p)%nat -> Rabs (J n - zz (- (PI / 2)) n x) <= eta * (exp x * kk n x)) /\ (forall n, (n <= p)%nat -> Rabs (Y n - zz PI n x) <= eta * (exp x * kk n x)) /\
  forall n, (n <= p)%nat -> centry (bessel_hn_scaled bJn bYn p x scale (repeat (0, 0) (p + 1))) n = (J n * scale ^ n, Y n * scale ^ n).
Proof.
  intros Hx. destruct (hn_ok bJn eta HJ bYn HY p x scale (repeat (0, 0) (p + 1)) Hp ltac:(rewrite repeat_length; lia) Hx) as (B & J & Y & E & V & C). exists J, Y. rewrite E.
  split; [exists B; split; [reflexivity|exact V]|]. split; [intros n H; apply C, H|]. split; [intros n H; apply C, H|]. intros n H. cbn. apply nth_error_nth, V, H.
Qed.

Theorem hmultipole : helm_new n_e n_p omega size scale ((p + 1) * (p + 2) / 2) = Ok (repeat (0, 0) ((p + 1) * (p + 2) / 2)) -> (forall s, In s l -> 0 < dist c (cpos s) <= a) -> omega * a <= 10 ^ 2 ->
  exists M, helm_S_to_M bJn n_e n_p p omega size sqf scale c l = Ok M /\ forall t phi, a < dist c t -> 0 <= a -> ensig <= omega * dist c t <= 10 ^ 2 -> scale <= omega * dist c t ->
    exists u v, helm_M_to_T bJn bYn p omega scale c M t phi = Ok (cadd phi (u, v)) /\
      Rabs (u - wave_re omega (moved c l) (place c t)) <= total_charge l * helm_error p eta (omega * a) (omega * dist c t) /\
      Rabs (v - wave_im omega (moved c l) (place c t)) <= total_charge l * helm_error p eta (omega * a) (omega * dist c t).
Proof.
  intros HN Hl Ha. pose proof (ytable_ok p sqf HT) as YT.
  set (G := fun r n => (2 * INR n + 1) * entry (bessel_jn_scaled bJn p (omega * r) scale (repeat 0 (p + 1))) n).
  destruct (hsources_ok p (fun M s => helm_s_to_m bJn p omega sqf (point_sub (cpos s) c) (cq s) scale M) G c l) with (c := fun _ _ : nat => (0, 0)) (M := repeat (0, 0) ((p + 1) * (p + 2) / 2)) as (M & c' & E & HM & Fl & V).
  - intros M c0 s b e HM Hin Hb HA. destruct (Hl s Hin) as [D1 D2]. rewrite <- norm3_dist in D1, D2. set (d := point_sub (cpos s) c) in *.
    destruct (jn_vals (omega * norm3 d) ltac:(nra)) as (g & HB & _ & Eg). unfold G. rewrite <- Eg.
    apply (ys_step p sqf (fun r => bessel_jn_scaled bJn p (omega * r) scale (repeat 0 (p + 1))) g (cq s) d c0 M (norm3 d) b e YT HM HA Hb HB).
  - intros s Hin. rewrite norm3_dist. apply Hl, Hin.
  - apply hnew_coefs.
  - intros n. reflexivity.
  - exists M. split; [unfold helm_S_to_M; rewrite HN; cbn [bind]; exact E|]. intros t phi Hat Ha0 Hx Hsx. set (u := point_sub t c). assert (ER : norm3 u = dist c t) by (unfold u; apply norm3_dist). assert (Hu : 0 < norm3 u) by lra.
    destruct (angles_ok 1 u ltac:(ring) Hu) as (b & eb & Au & Bb & _). unfold helm_M_to_T, helm_m_to_t. fold u.
    destruct (hn_vals (omega * norm3 u) ltac:(rewrite ER; exact Hx)) as (J & Y & HB & CJ & CY & _).
    rewrite (ht_step p (fun r => bessel_hn_scaled bJn bYn p (omega * r) scale (repeat (0, 0) (p + 1))) (fun n => (J n * scale ^ n, Y n * scale ^ n)) u c' M (norm3 u) b eb HM Fl Au Bb HB).
    cbn [bind fst snd]. eexists. eexists. split; [reflexivity|]. rewrite !(V u b eb _ Hu Au), !pot_zero, !Rplus_0_l, wave_re_moved, wave_im_moved.
    destruct l as [|s0 l0] eqn:El.
    { cbn [fold_right]. rewrite Rminus_0_r, Rabs_R0. unfold total_charge. cbn [fold_right]. lra. }
    assert (A0 : 0 < a) by (destruct (Hl s0 (or_introl eq_refl)); lra). rewrite <- El in *. clear El.
    assert (Y0 : 0 <= helm_error p eta (omega * a) (omega * dist c t)) by (apply helm_error_nonneg; [apply eta_ok|split; nra]).
    assert (Pair : forall phi0 W s, In s l -> (forall n, (n <= p)%nat -> Rabs (W n - zz phi0 n (omega * norm3 u)) <= eta * (exp (omega * norm3 u) * kk n (omega * norm3 u))) ->
      Rabs (contrib p (cq s) (G (norm3 (point_sub (cpos s) c))) (fun n => W n * scale ^ n) (dot (eff (point_sub (cpos s) c)) (eff u) / (norm3 (point_sub (cpos s) c) * norm3 u)) - cq s * (cos (omega * dist (place c t) (place c (cpos s)) + phi0) / (omega * dist (place c t) (place c (cpos s))))) <= Rabs (cq s) * helm_error p eta (omega * a) (omega * dist c t)).
    { intros phi0 W s Hin CW. set (d := point_sub (cpos s) c). assert (Hd : 0 < norm3 d <= a) by (unfold d; rewrite norm3_dist; apply Hl, Hin).
      destruct (dist_places c (cpos s) t (proj1 Hd) Hu) as [By Ey]. fold d u in By, Ey. set (y := dot (eff d) (eff u) / (norm3 d * norm3 u)) in *.
      destruct (jn_vals (omega * norm3 d) ltac:(nra)) as (g & _ & Hg & Eg). unfold contrib, G. rewrite <- Eg. rewrite <- ER.
      apply (hpair_error phi0 p eta scale (omega * norm3 d) (omega * norm3 u) (omega * a) (omega * norm3 u) y (omega * dist (place c t) (place c (cpos s))) g W (cq s)).
      - exact Hp.
      - exact eta_ok.
      - split; nra.
      - rewrite ER. nra.
      - lra.
      - rewrite ER. lra.
      - exact By.
      - apply Rmult_le_pos; [lra|apply sqrt_pos].
      - replace (omega * dist (place c t) (place c (cpos s)) * (omega * dist (place c t) (place c (cpos s)))) with (omega * omega * (dist (place c t) (place c (cpos s)) * dist (place c t) (place c (cpos s)))) by ring. rewrite Ey. ring.
      - exact Hg.
      - exact CW. }
    split; (apply sum_bound; [exact Y0|]); intros s Hin; cbn zeta; apply Pair; assumption.
Qed.

Theorem hlocal : helm_new n_e n_p omega size 1 ((p + 1) * (p + 1)) = Ok (repeat (0, 0) ((p + 1) * (p + 1))) ->
  (forall s, In s l -> a <= dist c (cpos s) /\ omega * dist c (cpos s) <= 10 ^ 2 /\ regular c (cpos s)) -> ensig <= omega * a -> scale <= omega * a ->
  exists L, helm_S_to_L bJn bYn n_e n_p p omega size sqf scale c l = Ok L /\ forall t phi, 0 < dist c t < a -> omega * dist c t <= 10 ^ 2 ->
    exists u v, helm_L_to_T bJn p omega scale c L t phi = Ok (cadd phi (u, v)) /\
      Rabs (u - wave_re omega (moved c l) (place c t)) <= total_charge l * helm_error p eta (omega * dist c t) (omega * a) /\
      Rabs (v - wave_im omega (moved c l) (place c t)) <= total_charge l * helm_error p eta (omega * dist c t) (omega * a).
Proof.
  intros HN Hl Ha Hsc. pose proof (ytable_ok p sqf HT) as YT. pose proof ensig_lt as Es.
  assert (La : 0 < omega * a) by lra. assert (A0 : 0 < a) by nra.
  set (G := fun r => centry (bessel_hn_scaled bJn bYn p (omega * r) scale (repeat (0, 0) (p + 1)))).
  assert (Far : forall s, In s l -> ensig <= omega * norm3 (point_sub (cpos s) c) <= 10 ^ 2) by (intros s Hin; rewrite norm3_dist; destruct (Hl s Hin) as (D1 & D2 & _); split; [|exact D2]; apply Rle_trans with (omega * a); [exact Ha|apply Rmult_le_compat_l; lra]).
  destruct (hlsources_ok p (fun L s => helm_s_to_l bJn bYn p omega sqf (point_sub (cpos s) c) (cq s) scale L) G c l) with (g := fun _ _ : nat => (0, 0)) (L := repeat (0, 0) ((p + 1) * (p + 1))) as (L & g' & E & HM & V).
  - intros L g0 s b e HM Hin Hb HA. pose proof (Far s Hin) as Hx. set (d := point_sub (cpos s) c) in *.
    destruct (hn_vals (omega * norm3 d) Hx) as (J & Y & (B & EB & HB) & _ & _ & EG).
    apply (hs_step p sqf (fun r => bessel_hn_scaled bJn bYn p (omega * r) scale (repeat (0, 0) (p + 1))) (G (norm3 d)) (cq s) d g0 L (norm3 d) b e YT HM HA Hb). exists B. split; [exact EB|]. intros n Hn. unfold G. rewrite (EG n Hn). apply HB, Hn.
  - intros s Hin. apply Hl, Hin.
  - apply hnew_lcoefs.
  - exists L. split; [unfold helm_S_to_L; rewrite HN; cbn [bind]; exact E|]. intros t phi Ht Hx. set (u := point_sub t c). assert (ER : norm3 u = dist c t) by (unfold u; apply norm3_dist). assert (Hu : 0 < norm3 u) by lra.
    destruct (angles_ok 1 u ltac:(ring) Hu) as (b & eb & Au & Bb & _). unfold helm_L_to_T, helm_l_to_t. fold u.
    destruct (jn_vals (omega * norm3 u) ltac:(rewrite ER; split; nra)) as (g & HB & Hg & _).
    rewrite (hl_step p (fun r => bessel_jn_scaled bJn p (omega * r) scale (repeat 0 (p + 1))) g u g' L (norm3 u) b eb HM Au Bb HB).
    cbn [bind]. eexists. eexists. split; [reflexivity|]. destruct (V u b eb g Hu Au) as [V1 V2]. destruct (l_zero p g eb (Q b)) as [Z1 Z2]. rewrite V1, V2, Z1, Z2, !Rplus_0_l, wave_re_moved, wave_im_moved.
    assert (Y0 : 0 <= helm_error p eta (omega * dist c t) (omega * a)) by (apply helm_error_nonneg; [apply eta_ok|split; nra]).
    assert (Pair : forall phi0 W (F : cplx -> R) s, In s l -> (forall n, (n <= p)%nat -> Rabs (W n - zz phi0 n (omega * norm3 (point_sub (cpos s) c))) <= eta * (exp (omega * norm3 (point_sub (cpos s) c)) * kk n (omega * norm3 (point_sub (cpos s) c)))) ->
      (forall n, (n <= p)%nat -> F (G (norm3 (point_sub (cpos s) c)) n) = W n * scale ^ n) ->
      Rabs (contrib p (cq s) (fun n => (2 * INR n + 1) * F (G (norm3 (point_sub (cpos s) c)) n)) g (dot (eff (point_sub (cpos s) c)) (eff u) / (norm3 (point_sub (cpos s) c) * norm3 u)) - cq s * (cos (omega * dist (place c t) (place c (cpos s)) + phi0) / (omega * dist (place c t) (place c (cpos s))))) <= Rabs (cq s) * helm_error p eta (omega * dist c t) (omega * a)).
    { intros phi0 W F s Hin CW EW. set (d := point_sub (cpos s) c) in *. assert (Hd : a <= norm3 d) by (unfold d; rewrite norm3_dist; apply Hl, Hin).
      destruct (dist_places c (cpos s) t ltac:(unfold d in Hd; lra) Hu) as [By Ey]. fold d u in By, Ey. set (y := dot (eff d) (eff u) / (norm3 d * norm3 u)) in *.
      unfold contrib. rewrite (sumlt_ext _ (fun n => cq s * ((2 * INR n + 1) * g n) * (W n * scale ^ n) * D n 0 y)) by (intros n Hn; rewrite EW by lia; ring). rewrite <- ER.
      apply (hpair_error phi0 p eta scale (omega * norm3 u) (omega * norm3 d) (omega * norm3 u) (omega * a) y (omega * dist (place c t) (place c (cpos s))) g W (cq s)).
      - exact Hp.
      - exact eta_ok.
      - split; nra.
      - rewrite ER. nra.
      - apply Rmult_le_compat_l; lra.
      - lra.
      - exact By.
      - apply Rmult_le_pos; [lra|apply sqrt_pos].
      - replace (omega * dist (place c t) (place c (cpos s)) * (omega * dist (place c t) (place c (cpos s)))) with (omega * omega * (dist (place c t) (place c (cpos s)) * dist (place c t) (place c (cpos s)))) by ring. rewrite Ey. ring.
      - exact Hg.
      - exact CW. }
    split; (apply sum_bound; [exact Y0|]); intros s Hin; cbn zeta; destruct (hn_vals (omega * norm3 (point_sub (cpos s) c)) (Far s Hin)) as (J & Y & _ & CJ & CY & EG).
    + apply (Pair (- (PI / 2)) J fst); [exact Hin|exact CJ|]. intros n Hn. unfold G. rewrite (EG n Hn). reflexivity.
    + apply (Pair PI Y snd); [exact Hin|exact CY|]. intros n Hn. unfold G. rewrite (EG n Hn). reflexivity.
Qed.

(** what one source adds does not depend on what is there *)
Lemma hm_adds s : cpos s <> c -> omega * dist c (cpos s) <= 10 ^ 2 -> exists T, adds p (fun M => helm_s_to_m bJn p omega sqf (point_sub (cpos s) c) (cq s) scale M) T.
Proof.
  intros N Hx. pose proof (ytable_ok p sqf HT) as YT. apply dist_pos in N. rewrite <- norm3_dist in N, Hx. destruct (angles_ok (-1) _ ltac:(ring) N) as (a0 & e & Ad & Ba & _). apply y_adds. set (d := point_sub (cpos s) c) in *.
  destruct (jn_vals (omega * norm3 d) ltac:(nra)) as (g & HB & _). eexists. intros c0 M HM. exact (ys_step p sqf (fun r => bessel_jn_scaled bJn p (omega * r) scale (repeat 0 (p + 1))) g (cq s) d c0 M (norm3 d) a0 e YT HM Ad Ba HB).
Qed.
Lemma hl_adds s : ensig <= omega * dist c (cpos s) <= 10 ^ 2 -> exists T, forall g L, lcoefs p g L ->
  exists L', helm_s_to_l bJn bYn p omega sqf (point_sub (cpos s) c) (cq s) scale L = Ok L' /\ lcoefs p (fun n j => cadd (g n j) (T n j)) L'.
Proof.
  intros Hx. pose proof (ytable_ok p sqf HT) as YT. pose proof ensig_lt as Es. rewrite <- norm3_dist in Hx. set (d := point_sub (cpos s) c) in *. assert (Hd : 0 < norm3 d) by (assert (0 <= norm3 d) by apply sqrt_pos; destruct (Req_dec (norm3 d) 0) as [E|E]; [rewrite E in Hx; lra|lra]).
  assert (A : exists a0 e, angles_l d = Ok (norm3 d, a0, e) /\ -1 <= a0 <= 1).
  { destruct (angles_ok (-1) d ltac:(ring) Hd) as (a0 & e & Ad & Ba & _). revert Ad. unfold angles, angles_l. set (pr := sqrt (px d * px d + py d * py d)).
    destruct (Rle_dec (norm3 d) tiny); rewrite ?rdiv_ok by lra; cbn [bind]; rewrite ?rdiv_ok by lra; cbn [bind]; (destruct (Rle_dec (pr / norm3 d) tiny) as [K|K]; cbn [bind];
      [intros Ad; injection Ad as <- <-; eexists; eexists; split; [reflexivity|exact Ba]|assert (pr <> 0) by (intros Z; apply K; rewrite Z; unfold Rdiv; pose proof tiny_pos; lra); rewrite !rdiv_ok by assumption; cbn [bind]; intros Ad; injection Ad as <- <-; eexists; eexists; split; [reflexivity|exact Ba]]). }
  destruct A as (a0 & e & Al & Ba). destruct (hn_vals (omega * norm3 d) Hx) as (J & Y & HB & _). eexists. intros g L HL.
  exact (hs_step p sqf (fun r => bessel_hn_scaled bJn bYn p (omega * r) scale (repeat (0, 0) (p + 1))) _ (cq s) d g L (norm3 d) a0 e YT HL Al Ba HB).
Qed.
End Expansions.

Lemma lcoefs_unique p g L L' : lcoefs p g L -> lcoefs p g L' -> L = L'.
Proof.
  intros [N H] [N' H']. apply list_ext; [lia|]. intros i Hi. rewrite N in Hi.
  set (n := Nat.sqrt i). destruct (Nat.sqrt_spec i ltac:(lia)) as [S1 S2]. fold n in S1, S2. assert (Hn : (n <= p)%nat) by nia. replace i with (n * n + (i - n * n))%nat by lia. rewrite H, H' by lia. reflexivity.
Qed.
Lemma add_lcoefs p g g' L L' : lcoefs p g L -> lcoefs p g' L' -> exists L2, add_expansion L L' = Ok L2 /\ lcoefs p (fun n j => cadd (g n j) (g' n j)) L2.
Proof.
  intros [N H] [N' H']. destruct (add_expansion_ok L L') as (L2 & E & L2n & H2); [lia|]. exists L2. split; [exact E|]. split; [lia|]. intros n j A B. apply H2; auto.
Qed.
Lemma l_adds_list p A (f : list cplx -> A -> res (list cplx)) l :
  (forall s, In s l -> exists T, forall g L, lcoefs p g L -> exists L', f L s = Ok L' /\ lcoefs p (fun n j => cadd (g n j) (T n j)) L') ->
  exists T, forall g L, lcoefs p g L -> exists L', foldM f l L = Ok L' /\ lcoefs p (fun n j => cadd (g n j) (T n j)) L'.
Proof.
  induction l as [|s l IH]; intros H.
  - exists (fun _ _ => (0, 0)). intros g L HL. exists L. split; [reflexivity|]. apply lcoefs_ext with (2 := HL). intros n j _ _. unfold cadd. cbn [fst snd]. rewrite !Rplus_0_r. apply surjective_pairing.
  - destruct (H s (or_introl eq_refl)) as [T1 H1]. destruct IH as [T2 H2]; [intros; apply H; right; assumption|]. exists (fun n j => cadd (T1 n j) (T2 n j)). intros g L HL.
    destruct (H1 g L HL) as (L1 & E1 & C1). destruct (H2 _ L1 C1) as (L2 & E2 & C2). exists L2. cbn [foldM]. rewrite E1. cbn [bind]. split; [exact E2|]. apply lcoefs_ext with (2 := C2). intros n j _ _. unfold cadd. cbn [fst snd]. f_equal; ring.
Qed.
Lemma l_adds_app p (f : list cplx -> charge -> res (list cplx)) l1 l2 (L0 := repeat (0, 0) ((p + 1) * (p + 1))) :
  (forall s, In s (l1 ++ l2) -> exists T, forall g L, lcoefs p g L -> exists L', f L s = Ok L' /\ lcoefs p (fun n j => cadd (g n j) (T n j)) L') ->
  exists L1 L2 L, foldM f l1 L0 = Ok L1 /\ foldM f l2 L0 = Ok L2 /\ foldM f (l1 ++ l2) L0 = Ok L /\ add_expansion L1 L2 = Ok L.
Proof.
  intros H. destruct (l_adds_list p charge f l1) as [T1 A1]; [intros; apply H, in_or_app; auto|]. destruct (l_adds_list p charge f l2) as [T2 A2]; [intros; apply H, in_or_app; auto|].
  destruct (A1 _ L0 (hnew_lcoefs p)) as (L1 & E1 & C1). destruct (A2 _ L0 (hnew_lcoefs p)) as (L2 & E2 & C2). destruct (A2 _ L1 C1) as (L & E & C). destruct (add_lcoefs p _ _ L1 L2 C1 C2) as (L3 & E3 & C3).
  exists L1, L2, L. split; [exact E1|]. split; [exact E2|]. split; [rewrite foldM_app, E1; exact E|]. rewrite E3. f_equal. apply (lcoefs_unique p _ L3 L C3). apply lcoefs_ext with (2 := C). intros n j _ _. unfold cadd. cbn [fst snd]. f_equal; ring.
Qed.

(** ** the direct sum *)
Lemma hdirect_acc omega l t v0 : 0 < omega -> (forall s, In s l -> cpos s <> t) ->
  foldM (fun v s => let d := omega * norm3 (point_sub t (cpos s)) in if Rlt_dec 0 d then do e <- cdiv (cscale (cos d, sin d) (cq s)) (0, d); Ok (cadd v e) else Ok v) l v0 = Ok (cadd v0 (wave_re omega l t, wave_im omega l t)).
Proof.
  intros Hlam. revert v0. induction l as [|s l IH]; intros v0 H; cbn [foldM]; [unfold wave_re, wave_im, cadd; cbn [fold_right fst snd]; rewrite !Rplus_0_r, <- surjective_pairing; reflexivity|].
  rewrite norm3_dist. replace (dist (cpos s) t) with (dist t (cpos s)) by (unfold dist; f_equal; ring). assert (P : 0 < dist t (cpos s)) by (apply dist_pos, H; left; reflexivity).
  set (d := omega * dist t (cpos s)). assert (P1 : 0 < d) by (unfold d; nra). cbv zeta. destruct (Rlt_dec 0 d) as [_|C]; [|lra]. unfold cdiv. cbn [fst snd]. rewrite cdivr_ok by nra. cbn [bind].
  rewrite IH by (intros; apply H; right; assumption). unfold cadd, wave_re, wave_im, cmul, cscale, HelmModel.conj. cbn [fold_right fst snd]. fold d. f_equal. f_equal; field; nra.
Qed.
