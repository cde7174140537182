(** Rounding errors of the bounding box and the cell numbers. *)
From Coq Require Import ZArith Reals List Bool Lia Lra Psatz Permutation.
From Flocq Require Import Core BinarySingleNaN Relative.
From Verif Require Import Base ListFacts IndexModel IndexSpec GridModel GridSpec GridProofs ArrayModel ArraySpec TreeModel RefineModel RefineSpec TreeFacts GeomProofs DoubleModel DoubleSpec.
Import ListNotations.
Open Scope R_scope.

Definition rnd (x : R) : R := round radix2 (SpecFloat.fexp 53 1024) ZnearestE x.
Definition eta : R := bpow radix2 (-1075).
Notation u := (1 / 9007199254740992).

Lemma u_eq : / 2 * bpow radix2 (-53 + 1) = u.
Proof. cbn [bpow Z.add Z.opp Z.pos_sub Pos.pred_double Z.succ_double Z.pred_double Pos.add]. cbn. lra. Qed.
Lemma eta_eq : / 2 * bpow radix2 (-1074) = eta.
Proof. unfold eta. change (-1075)%Z with (-1 + -1074)%Z. rewrite bpow_plus. f_equal. Qed.
Lemma eta_pos : 0 < eta.
Proof. apply bpow_gt_0. Qed.

Lemma rnd_err v : Rabs (rnd v - v) <= u * Rabs v + eta.
Proof.
  unfold rnd. change (SpecFloat.fexp 53 1024) with (FLT_exp (-1074) 53).
  destruct (error_N_FLT radix2 (-1074) 53 ltac:(lia) (fun x => negb (Z.even x)) v) as (eps & et & He & Ht & _ & ->).
  change (- (53) + 1)%Z with (-53 + 1)%Z in He. rewrite u_eq in He. rewrite eta_eq in Ht. replace (v * (1 + eps) + et - v) with (v * eps + et) by ring.
  eapply Rle_trans; [apply Rabs_triang|]. rewrite Rabs_mult. pose proof (Rabs_pos v). nra.
Qed.

Lemma rnd_bound v e : (-1022 <= e <= 1023)%Z -> Rabs v <= bpow radix2 e -> Rabs (rnd v) <= bpow radix2 e.
Proof.
  intros He Hv. unfold rnd. apply abs_round_le_generic; [typeclasses eauto..| |assumption].
  apply generic_format_bpow. change (SpecFloat.fexp 53 1024) with (FLT_exp (-1074) 53). unfold FLT_exp. lia.
Qed.

Lemma rnd_fin v : Rabs v <= bpow radix2 1000 -> Rlt_bool (Rabs (rnd v)) (bpow radix2 1024) = true.
Proof.
  intros H. apply Rlt_bool_true. eapply Rle_lt_trans; [apply (rnd_bound v 1000); [lia|assumption]|]. apply bpow_lt. lia.
Qed.

Lemma dadd_ok x y : is_finite x = true -> is_finite y = true -> Rabs (B2R x + B2R y) <= bpow radix2 1000 ->
  is_finite (dadd x y) = true /\ B2R (dadd x y) = rnd (B2R x + B2R y).
Proof.
  intros Fx Fy H. pose proof (Bplus_correct 53 1024 _ _ mode_NE x y Fx Fy) as C. cbn [round_mode] in C. change (round radix2 _ _ ?z) with (rnd z) in C. rewrite (rnd_fin _ H) in C. unfold dadd. tauto.
Qed.
Lemma dsub_ok x y : is_finite x = true -> is_finite y = true -> Rabs (B2R x - B2R y) <= bpow radix2 1000 ->
  is_finite (dsub x y) = true /\ B2R (dsub x y) = rnd (B2R x - B2R y).
Proof.
  intros Fx Fy H. pose proof (Bminus_correct 53 1024 _ _ mode_NE x y Fx Fy) as C. cbn [round_mode] in C. change (round radix2 _ _ ?z) with (rnd z) in C. rewrite (rnd_fin _ H) in C. unfold dsub. tauto.
Qed.
Lemma dmul_ok x y : is_finite x = true -> is_finite y = true -> Rabs (B2R x * B2R y) <= bpow radix2 1000 ->
  is_finite (dmul x y) = true /\ B2R (dmul x y) = rnd (B2R x * B2R y).
Proof.
  intros Fx Fy H. pose proof (Bmult_correct 53 1024 _ _ mode_NE x y) as C. cbn [round_mode] in C. change (round radix2 _ _ ?z) with (rnd z) in C. rewrite (rnd_fin _ H) in C. unfold dmul. rewrite Fx, Fy in C. tauto.
Qed.
Lemma ddiv_ok x y : is_finite x = true -> B2R y <> 0 -> Rabs (B2R x / B2R y) <= bpow radix2 1000 ->
  is_finite (ddiv x y) = true /\ B2R (ddiv x y) = rnd (B2R x / B2R y).
Proof.
  intros Fx Fy H. pose proof (Bdiv_correct 53 1024 _ _ mode_NE x y Fy) as C. cbn [round_mode] in C. change (round radix2 _ _ ?z) with (rnd z) in C. rewrite (rnd_fin _ H) in C. unfold ddiv. rewrite Fx in C. tauto.
Qed.

Lemma of_int_rnd z : Rabs (IZR z) <= bpow radix2 1000 -> is_finite (of_int z) = true /\ B2R (of_int z) = rnd (IZR z).
Proof.
  intros H. pose proof (binary_normalize_correct 53 1024 prec53 emax1024 mode_NE z 0 false) as C. cbn zeta in C. cbn [round_mode] in C.
  assert (E : F2R (Float radix2 z 0) = IZR z) by (unfold F2R; cbn; ring). rewrite E in C. change (round radix2 _ _ ?z) with (rnd z) in C.
  rewrite (rnd_fin _ H) in C. unfold of_int. tauto.
Qed.
Lemma of_int_ok z : (Z.abs z < 2 ^ 53)%Z -> is_finite (of_int z) = true /\ B2R (of_int z) = IZR z.
Proof.
  intros H. destruct (of_int_rnd z) as [F E].
  { rewrite <- abs_IZR. apply Rle_trans with (IZR (2 ^ 53)); [apply IZR_le; lia|]. change (IZR (2 ^ 53)) with (bpow radix2 53). apply bpow_le. lia. }
  split; [assumption|]. rewrite E. unfold rnd. apply round_generic; [typeclasses eauto|]. change (SpecFloat.fexp 53 1024) with (FLT_exp (-1074) 53).
  apply generic_format_FLT. exists (Float radix2 z 0); cbn [Fnum Fexp]; [unfold F2R; cbn; ring|exact H|lia].
Qed.

(** ** Minimum and maximum *)
Lemma dmin_ok a b : is_finite a = true -> is_finite b = true ->
  (dmin a b = a \/ dmin a b = b) /\ B2R (dmin a b) <= B2R a /\ B2R (dmin a b) <= B2R b.
Proof.
  intros Fa Fb. unfold dmin. rewrite (Bcompare_correct 53 1024 a b Fa Fb). destruct (Rcompare_spec (B2R a) (B2R b)); (split; [auto|lra]).
Qed.
Lemma dmax_ok a b : is_finite a = true -> is_finite b = true ->
  (dmax a b = a \/ dmax a b = b) /\ B2R a <= B2R (dmax a b) /\ B2R b <= B2R (dmax a b).
Proof.
  intros Fa Fb. unfold dmax. rewrite (Bcompare_correct 53 1024 a b Fa Fb). destruct (Rcompare_spec (B2R a) (B2R b)); (split; [auto|lra]).
Qed.

(** ** The low corner *)
Ltac abs_cases := unfold Rabs in *; repeat match goal with H : context [Rcase_abs ?v] |- _ => destruct (Rcase_abs v) | |- context [Rcase_abs ?v] => destruct (Rcase_abs v) end.
Lemma err_bound r v b : Rabs (r - v) <= u * Rabs v + eta -> Rabs v <= b -> v - (u * b + eta) <= r <= v + (u * b + eta).
Proof. intros H Hb. apply Rabs_le_inv in H. assert (u * Rabs v <= u * b) by lra. lra. Qed.
Lemma abs_le v b : - b <= v <= b -> Rabs v <= b.
Proof. intros H. apply Rabs_le. lra. Qed.

Lemma corner_err B mn mx len x e s1 s2 low : 0 <= B ->
  - B <= mn -> mx <= B -> mn <= x <= mx -> e <= len -> 0 <= len <= 2 * B * (1 + u) + eta ->
  Rabs (e - (mx - mn)) <= u * Rabs (mx - mn) + eta ->
  Rabs (s1 - (mx + mn)) <= u * Rabs (mx + mn) + eta -> Rabs (s2 - (s1 - len)) <= u * Rabs (s1 - len) + eta -> Rabs (low - s2 / 2) <= u * Rabs (s2 / 2) + eta ->
  - (8 * u * B + 4 * eta) <= x - low <= len + 8 * u * B + 4 * eta.
Proof.
  intros HB Hmn Hmx Hx He Hl E0 E1 E2 E3. pose proof eta_pos as Ht.
  apply (err_bound _ _ (2 * B)) in E0; [|apply abs_le; lra]. apply (err_bound _ _ (2 * B)) in E1; [|apply abs_le; lra].
  apply (err_bound _ _ (4 * B * (1 + 2 * u) + 3 * eta)) in E2; [|apply abs_le; lra].
  apply (err_bound _ _ (2 * B * (1 + 8 * u) + 3 * eta)) in E3; [|apply abs_le; lra]. lra.
Qed.

(** ** The scaled coordinate *)
Lemma scaled_err D B len w dd m sc t : 1 <= D <= 1073741824 -> 0 < len -> 0 <= B -> D * B <= 562949953421312 * len -> D * eta <= u * len -> eta * len <= u -> eta <= u ->
  - (8 * u * B + 4 * eta) <= w <= len + 8 * u * B + 4 * eta ->
  Rabs (dd - w) <= u * Rabs w + eta -> Rabs (m - D * dd) <= u * Rabs (D * dd) + eta ->
  Rabs (sc - 1 / len) <= u * Rabs (1 / len) + eta ->
  let y := D * w / len in
  Rabs (m * sc) <= D + 2 /\
  (Rabs (t - m * sc) <= u * Rabs (m * sc) + eta -> y - 8 * u * (D + 1) <= t <= y + 8 * u * (D + 1)) /\
  - (8 * u * (D * B / len) + 4 * u) <= y <= D + 8 * u * (D * B / len) + 4 * u /\ D * B / len <= 562949953421312.
Proof.
  intros HD Hl HB Hc Hc2 Hc3 Hc4 Hw E1 E2 E3 y. pose proof eta_pos as Ht. set (i := / len). assert (Hi : 0 < i) by (apply Rinv_0_lt_compat; assumption).
  assert (Li : len * i = 1) by (unfold i; field; lra). set (Di := D * i). assert (HDi : 0 < Di) by (unfold Di; nra).
  assert (Q : D * B / len <= 562949953421312). { apply Rmult_le_reg_r with len; [assumption|]. unfold Rdiv. rewrite Rmult_assoc, Rinv_l by lra. lra. }
  set (b := D * B / len) in *. assert (Eb : b = Di * B) by (unfold b, Di, i; field; lra). assert (Ey : y = Di * w) by (unfold y, Di, i; field; lra).
  assert (Hb0 : 0 <= b) by (rewrite Eb; nra).
  assert (Hde : Di * eta <= u). { apply Rle_trans with (u * len * i); [|rewrite (Rmult_assoc u), Li; lra]. unfold Di. replace (D * i * eta) with (D * eta * i) by ring. apply Rmult_le_compat_r; lra. }
  assert (Y : - (8 * u * b + 4 * u) <= y <= D + 8 * u * b + 4 * u).
  { rewrite Ey. assert (Dl : Di * len = D) by (unfold Di; rewrite Rmult_assoc, (Rmult_comm i), Li; ring). destruct Hw as [W1 W2]. apply (Rmult_le_compat_l Di) in W1, W2; try lra. }
  assert (Ya : Rabs y <= D + 0.6) by (apply abs_le; lra).
  (* difference *)
  set (qd := Di * dd). assert (E1' : Rabs (qd - y) <= u * Rabs y + u).
  { unfold qd. rewrite Ey. replace (Di * dd - Di * w) with (Di * (dd - w)) by ring. rewrite !Rabs_mult, (Rabs_pos_eq Di) by lra.
    apply Rle_trans with (Di * (u * Rabs w + eta)); [apply Rmult_le_compat_l; lra|]. lra. }
  clearbody y b. assert (Qd : Rabs qd <= D + 0.7). { clearbody qd. replace qd with ((qd - y) + y) by ring. eapply Rle_trans; [apply Rabs_triang|]. lra. }
  (* product *)
  assert (Hie : i * eta <= u). { apply Rle_trans with (Di * eta); [|assumption]. unfold Di. assert (0 <= i * eta) by nra. nra. }
  set (qm := i * m). assert (E2' : Rabs (qm - qd) <= u * Rabs qd + u).
  { unfold qm, qd, Di. replace (i * m - D * i * dd) with (i * (m - D * dd)) by ring. replace (D * i * dd) with (i * (D * dd)) by ring. rewrite !(Rabs_mult i), (Rabs_pos_eq i) by lra.
    apply Rle_trans with (i * (u * Rabs (D * dd) + eta)); [apply Rmult_le_compat_l; lra|]. lra. }
  assert (Qm : Rabs qm <= D + 0.8). { clearbody qm qd. replace qm with ((qm - qd) + qd) by ring. eapply Rle_trans; [apply Rabs_triang|]. lra. }
  (* scale *)
  set (r := m * sc). assert (E3' : Rabs (r - qm) <= 2 * u * Rabs qm).
  { unfold r, qm. assert (Ei : 1 / len = i) by (unfold i; field; lra). rewrite Ei in E3. rewrite (Rabs_pos_eq i) in E3 by lra.
    replace (m * sc - i * m) with (m * (sc - i)) by ring. rewrite !Rabs_mult, (Rabs_pos_eq i) by lra.
    apply Rle_trans with (Rabs m * (u * i + eta)); [apply Rmult_le_compat_l; [apply Rabs_pos|lra]|].
    assert (eta <= u * i). { apply Rmult_le_reg_r with len; [assumption|]. rewrite (Rmult_assoc u), (Rmult_comm i), Li. lra. }
    pose proof (Rabs_pos m). nra. }
  assert (Qr : Rabs r <= D + 0.9). { clearbody r qm. replace r with ((r - qm) + qm) by ring. eapply Rle_trans; [apply Rabs_triang|]. lra. }
  split; [lra|]. split; [|split; assumption]. intros E4. apply Rabs_le_inv in E1', E2', E3', E4. lra.
Qed.

(** ** The conversion to int *)
Lemma dint_ok (x : double) : is_finite x = true -> -1 < B2R x < 2147483648 ->
  exists k, dint x = Ok k /\ (0 <= k)%Z /\ ((0 <= B2R x /\ IZR k <= B2R x < IZR k + 1) \/ (B2R x < 0 /\ k = 0%Z)).
Proof.
  intros F H. unfold dint. rewrite F. set (k := Ztrunc (B2R x)).
  assert (E : Btrunc x = k).
  { apply eq_IZR. rewrite (Btrunc_correct 53 1024 emax1024 x). unfold round, scaled_mantissa, cexp, FIX_exp, F2R. cbn. rewrite !Rmult_1_r. reflexivity. }
  rewrite E. cbv zeta.
  assert (K : (0 <= k)%Z /\ ((0 <= B2R x /\ IZR k <= B2R x < IZR k + 1) \/ (B2R x < 0 /\ k = 0%Z))).
  { unfold k. destruct (Rle_lt_dec 0 (B2R x)) as [P|P].
    - rewrite Ztrunc_floor by assumption. pose proof (Zfloor_lb (B2R x)). pose proof (Zfloor_ub (B2R x)). split; [apply Zfloor_lub; assumption|]. left. lra.
    - rewrite Ztrunc_ceil by lra. assert (Z0 : Zceil (B2R x) = 0%Z). { apply Zceil_imp. cbn [Z.sub Z.opp Z.add]. lra. } rewrite Z0. split; [lia|]. right. auto. }
  destruct K as [K0 K1]. assert (K2 : (k < 2 ^ 31)%Z). { apply lt_IZR. destruct K1 as [[_ [K1 _]]|[_ ->]]; [change (IZR (2 ^ 31)) with 2147483648; lra|apply IZR_lt; reflexivity]. }
  exists k. destruct (Z.leb_spec (- 2 ^ 31) k); [|lia]. destruct (Z.ltb_spec k (2 ^ 31)); [|lia]. auto.
Qed.

(** ** One axis *)
Lemma big_le : IZR (10 ^ 50) <= bpow radix2 170.
Proof. change (bpow radix2 170) with (IZR (2 ^ 170)). apply IZR_le. vm_compute. discriminate. Qed.

Section Axis.
Variables (v : dbounds) (ps : list dpoint) (B : R).
Hypothesis HP : forall p, In p ps -> within B p.
Hypothesis HV : dhull v ps.
Hypothesis HB : B <= IZR (10 ^ 50).
Let d := ddomain_of v.
Let len := B2R (ddsize d).
Hypothesis Hmin : bpow radix2 (-1000) <= len.
Notation mn a := (B2R (dcoord a (dbmin v))).
Notation mx a := (B2R (dcoord a (dbmax v))).
Notation ext a := (dsub (dcoord a (dbmax v)) (dcoord a (dbmin v))).

Lemma bound_ok a : 0 <= B /\ - B <= mn a /\ mx a <= B /\ mn a <= mx a /\ mn a <= B /\ - B <= mx a.
Proof.
  destruct (HV a) as (_ & _ & I & (p & Hp & Ep) & (q & Hq & Eq)). destruct (HP p Hp a) as [_ P]. destruct (HP q Hq a) as [_ Q].
  rewrite Ep in P. rewrite Eq in Q. pose proof (Rabs_pos (mn a)). pose proof (I p Hp). apply Rabs_le_inv in P, Q. lra.
Qed.
Lemma B_pos : 0 <= B. Proof. apply (bound_ok AX). Qed.

Lemma W_facts : exists W, W = bpow radix2 170 /\ B <= W /\ 1024 * W <= bpow radix2 1000 /\ eta <= u /\ eta * (4 * W) <= u /\ 1 <= W.
Proof.
  exists (bpow radix2 170). split; [reflexivity|]. pose proof big_le. split; [lra|].
  change 1024 with (bpow radix2 10). rewrite <- bpow_plus. split; [apply bpow_le; lia|].
  rewrite <- u_eq. change (/ 2) with (bpow radix2 (-1)). rewrite <- bpow_plus. split; [apply bpow_le; lia|].
  change 4 with (bpow radix2 2). unfold eta. rewrite <- !bpow_plus. split; [apply bpow_le; lia|]. change 1 with (bpow radix2 0). apply bpow_le. lia.
Qed.

Lemma ext_ok a : is_finite (ext a) = true /\ B2R (ext a) = rnd (mx a - mn a).
Proof.
  destruct (HV a) as (F1 & F2 & _). destruct (bound_ok a) as (B0 & B1 & B2 & B3 & _). destruct W_facts as (W & _ & W1 & W2 & _ & _ & W3).
  apply dsub_ok; [assumption..|]. apply abs_le. lra.
Qed.

Lemma len_ok : is_finite (ddsize d) = true /\ (forall a, B2R (ext a) <= len) /\ (exists a, len = B2R (ext a)).
Proof.
  destruct (ext_ok AX) as [X _], (ext_ok AY) as [Y _], (ext_ok AZ) as [Z_ _].
  destruct (dmax_ok _ _ Y Z_) as (C1 & C2 & C3). assert (FM : is_finite (dmax (ext AY) (ext AZ)) = true) by (destruct C1 as [-> | ->]; assumption).
  destruct (dmax_ok _ _ X FM) as (D1 & D2 & D3). unfold len, d, ddomain_of. cbn [ddsize].
  split; [destruct D1 as [-> | ->]; assumption|]. split; [intros []; lra|].
  destruct D1 as [-> | ->]; [exists AX; reflexivity|]. destruct C1 as [-> | ->]; [exists AY|exists AZ]; reflexivity.
Qed.

Lemma len_pos : 0 < len. Proof. pose proof (bpow_gt_0 radix2 (-1000)). lra. Qed.
Lemma len_le : len <= 2 * B * (1 + u) + eta.
Proof.
  destruct len_ok as (_ & _ & (a & ->)). destruct (ext_ok a) as [_ ->]. destruct (bound_ok a) as (B0 & B1 & B2 & B3 & _).
  pose proof (rnd_err (mx a - mn a)) as E. apply (err_bound _ _ (2 * B)) in E; [|apply abs_le; lra]. lra.
Qed.
Lemma low_ok a : is_finite (dcoord a (ddlow d)) = true /\
  forall x, mn a <= x <= mx a -> - (8 * u * B + 4 * eta) <= x - B2R (dcoord a (ddlow d)) <= len + 8 * u * B + 4 * eta.
Proof.
  assert (E : dcoord a (ddlow d) = ddiv (dsub (dadd (dcoord a (dbmax v)) (dcoord a (dbmin v))) (ddsize d)) (of_int 2)) by (destruct a; reflexivity). rewrite E.
  destruct (HV a) as (F1 & F2 & _). destruct (bound_ok a) as (B0 & B1 & B2 & B3 & B4 & B5). destruct W_facts as (W & _ & W1 & W2 & W4 & _ & W3).
  destruct len_ok as (Fl & Le & _). pose proof (Le a) as Lea. destruct (ext_ok a) as [_ Ea]. rewrite Ea in Lea. pose proof len_le as Ll. pose proof len_pos as Lp. pose proof eta_pos as Et.
  destruct (dadd_ok _ _ F2 F1) as [G1 H1]; [apply abs_le; lra|]. set (s1 := dadd _ _) in *. pose proof (rnd_err (mx a + mn a)) as R1. rewrite <- H1 in R1.
  pose proof (err_bound _ _ (2 * B) R1 ltac:(apply abs_le; lra)) as R1'.
  destruct (dsub_ok _ _ G1 Fl) as [G2 H2]; [fold len; apply abs_le; lra|]. set (s2 := dsub _ _) in *. pose proof (rnd_err (B2R s1 - len)) as R2. unfold len in R2 at 1 2. rewrite <- H2 in R2. fold len in R2.
  pose proof (err_bound _ _ (4 * B * (1 + 2 * u) + 3 * eta) R2 ltac:(apply abs_le; lra)) as R2'.
  destruct (of_int_ok 2 ltac:(lia)) as [Ft Et2].
  destruct (ddiv_ok s2 (of_int 2) G2) as [G3 H3]; [rewrite Et2; lra|rewrite Et2; apply abs_le; lra|]. rewrite Et2 in H3. pose proof (rnd_err (B2R s2 / 2)) as R3. rewrite <- H3 in R3.
  split; [assumption|]. intros x Hx. pose proof (rnd_err (mx a - mn a)) as R0.
  eapply (corner_err B (mn a) (mx a) len x); try eassumption; lra.
Qed.

(** The domain is the cube around the middle of the hull. *)
Lemma domain_ok a : let tol := (len + B) / IZR (2 ^ 49) in
  Rabs (B2R (dcoord a (ddlow d)) + len / 2 - (mn a + mx a) / 2) <= tol /\ mx a - mn a <= len + tol /\ exists b, Rabs (len - (mx b - mn b)) <= tol.
Proof.
  intros tol. assert (E : dcoord a (ddlow d) = ddiv (dsub (dadd (dcoord a (dbmax v)) (dcoord a (dbmin v))) (ddsize d)) (of_int 2)) by (destruct a; reflexivity). rewrite E.
  destruct (HV a) as (F1 & F2 & _). destruct (bound_ok a) as (B0 & B1 & B2 & B3 & B4 & B5). destruct W_facts as (W & _ & W1 & W2 & W4 & _ & W3).
  destruct len_ok as (Fl & Le & (b & Eb)). pose proof (Le a) as Lea. destruct (ext_ok a) as [_ Ea]. rewrite Ea in Lea. pose proof len_le as Ll. pose proof len_pos as Lp. pose proof eta_pos as Et.
  destruct (dadd_ok _ _ F2 F1) as [G1 H1]; [apply abs_le; lra|]. set (s1 := dadd _ _) in *. pose proof (rnd_err (mx a + mn a)) as R1. rewrite <- H1 in R1.
  pose proof (err_bound _ _ (2 * B) R1 ltac:(apply abs_le; lra)) as R1'.
  destruct (dsub_ok _ _ G1 Fl) as [G2 H2]; [fold len; apply abs_le; lra|]. set (s2 := dsub _ _) in *. pose proof (rnd_err (B2R s1 - len)) as R2. unfold len in R2 at 1 2. rewrite <- H2 in R2. fold len in R2.
  pose proof (err_bound _ _ (4 * B * (1 + 2 * u) + 3 * eta) R2 ltac:(apply abs_le; lra)) as R2'.
  destruct (of_int_ok 2 ltac:(lia)) as [Ft Et2].
  destruct (ddiv_ok s2 (of_int 2) G2) as [G3 H3]; [rewrite Et2; lra|rewrite Et2; apply abs_le; lra|]. rewrite Et2 in H3. pose proof (rnd_err (B2R s2 / 2)) as R3. rewrite <- H3 in R3.
  pose proof (err_bound _ _ (2 * B * (1 + 4 * u) + 4 * eta) R3 ltac:(apply abs_le; lra)) as R3'.
  assert (EL : eta <= u * len).
  { apply Rle_trans with (u * bpow radix2 (-1000)); [|apply Rmult_le_compat_l; lra]. unfold eta. rewrite <- u_eq. change (/ 2) with (bpow radix2 (-1)). rewrite <- !bpow_plus. apply bpow_le. lia. }
  assert (T : tol = 16 * u * (len + B)) by (unfold tol, u; change (IZR (2 ^ 49)) with 562949953421312; lra).
  pose proof (rnd_err (mx a - mn a)) as R0. pose proof (err_bound _ _ (2 * B) R0 ltac:(apply abs_le; lra)) as R0'. rewrite T.
  split; [apply abs_le; lra|]. split; [lra|]. exists b. destruct (ext_ok b) as [_ Eb']. rewrite Eb' in Eb. destruct (bound_ok b) as (_ & C1 & C2 & C3 & _). pose proof (rnd_err (mx b - mn b)) as Q0. pose proof (err_bound _ _ (2 * B) Q0 ltac:(apply abs_le; lra)) as Q0'. rewrite <- Eb in Q0'. apply abs_le. lra.
Qed.

Variable L : Z.
Hypothesis HL : (0 <= L <= 10)%Z.
Hypothesis Hrel : IZR (2 ^ L) * B <= IZR (2 ^ 49) * len.
Lemma eta_len : IZR (2 ^ L) * eta <= u * len.
Proof.
  apply Rle_trans with (bpow radix2 10 * eta). { apply Rmult_le_compat_r; [pose proof eta_pos; lra|]. change (bpow radix2 10) with (IZR (2 ^ 10)). apply IZR_le. apply Z.pow_le_mono_r; lia. }
  apply Rle_trans with (u * bpow radix2 (-1000)); [|apply Rmult_le_compat_l; lra]. unfold eta. rewrite <- u_eq. change (/ 2) with (bpow radix2 (-1)). rewrite <- !bpow_plus. apply bpow_le. lia.
Qed.

Lemma coord_ok a p : In p ps -> exists k, dcell_coord a d (2 ^ L) p = Ok k /\ (0 <= k < 2 ^ L)%Z /\
  let h := len / IZR (2 ^ L) in let tol := (len + B) / IZR (2 ^ 49) in
  B2R (dcoord a (ddlow d)) + IZR k * h - tol <= B2R (dcoord a p) <= B2R (dcoord a (ddlow d)) + IZR (k + 1) * h + tol.
Proof.
  intros Hp. destruct (HP p Hp a) as [Fx Bx]. destruct (HV a) as (_ & _ & I & _). specialize (I p Hp). destruct (low_ok a) as [Fw Hw]. specialize (Hw _ I).
  set (x := dcoord a p) in *. set (low := dcoord a (ddlow d)) in *. pose proof len_pos as Lp. pose proof len_le as Ll. pose proof eta_pos as Et. pose proof B_pos as B0.
  destruct len_ok as (Fl & _ & _). destruct W_facts as (W & Wd & W1 & W2 & W4 & W5 & W3). pose proof eta_len as El.
  assert (HD : 1 <= IZR (2 ^ L) <= 1024). { split; [apply (IZR_le 1); pose proof (Z.pow_pos_nonneg 2 L); lia|apply (IZR_le _ (2 ^ 10)); apply Z.pow_le_mono_r; lia]. }
  assert (HDZ : (1 <= 2 ^ L <= 1024)%Z) by (split; apply le_IZR; lra).
  set (D := IZR (2 ^ L)) in *.
  destruct (dsub_ok x low Fx Fw) as [Fd Ed]; [apply abs_le; lra|]. set (dd := dsub x low) in *. pose proof (rnd_err (B2R x - B2R low)) as R1. rewrite <- Ed in R1.
  pose proof (err_bound _ _ (4 * W) R1 ltac:(apply abs_le; lra)) as R1'.
  destruct (of_int_ok (2 ^ L)) as [FD ED]; [change (2 ^ 53)%Z with 9007199254740992%Z; lia|]. fold D in ED.
  assert (Bd : Rabs (D * B2R dd) <= 1024 * (5 * W)). { rewrite Rabs_mult, (Rabs_pos_eq D) by lra. apply Rmult_le_compat; [lra|apply Rabs_pos|lra|apply abs_le; lra]. }
  assert (W6 : 1024 * (5 * W) <= bpow radix2 1000). { rewrite Wd. apply Rle_trans with (bpow radix2 10 * (bpow radix2 3 * bpow radix2 170)); [pose proof (bpow_gt_0 radix2 170); change (bpow radix2 10) with 1024; change (bpow radix2 3) with 8; lra|]. rewrite <- !bpow_plus. apply bpow_le. lia. }
  destruct (dmul_ok (of_int (2 ^ L)) dd FD Fd) as [Fm Em]; [rewrite ED; lra|]. rewrite ED in Em. set (m := dmul (of_int (2 ^ L)) dd) in *. pose proof (rnd_err (D * B2R dd)) as R2. rewrite <- Em in R2.
  destruct (of_int_ok 1 ltac:(lia)) as [F1 E1].
  assert (Hi : Rabs (1 / len) <= bpow radix2 1000).
  { assert (0 < / len) by (apply Rinv_0_lt_compat; lra). replace (1 / len) with (/ len) by (field; lra). rewrite Rabs_pos_eq by lra. change 1000%Z with (- -1000)%Z. rewrite bpow_opp. apply Rinv_le; [apply bpow_gt_0|assumption]. }
  destruct (ddiv_ok (of_int 1) (ddsize d) F1) as [Fs Es]; [fold len; lra|rewrite E1; exact Hi|]. rewrite E1 in Es. fold len in Es. set (sc := ddiv _ _) in *. pose proof (rnd_err (1 / len)) as R3. rewrite <- Es in R3.
  assert (Ee : eta * len <= u). { apply Rle_trans with (eta * (4 * W)); [apply Rmult_le_compat_l; lra|assumption]. }
  pose proof (scaled_err D B len (B2R x - B2R low) (B2R dd) (B2R m) (B2R sc) (B2R (dmul m sc)) ltac:(lra) Lp B0 Hrel El Ee W4 Hw R1 R2 R3) as (Q1 & Q2 & Q3 & Q4). cbv zeta in Q2, Q3.
  destruct (dmul_ok m sc Fm Fs) as [Ft Ett]; [lra|]. pose proof (rnd_err (B2R m * B2R sc)) as R4. rewrite <- Ett in R4. specialize (Q2 R4). set (t := dmul m sc) in *.
  set (y := D * (B2R x - B2R low) / len) in *. set (b := D * B / len) in *.
  assert (Hb0 : 0 <= b). { unfold b. apply Rmult_le_pos; [nra|]. apply Rlt_le, Rinv_0_lt_compat. lra. }
  destruct (dint_ok t Ft) as (k & Ek & K0 & K1); [lra|]. exists (Z.min (2 ^ L - 1) k). unfold dcell_coord. fold sc. fold x low dd m t. rewrite Ek. cbn [bind]. split; [reflexivity|]. split; [lia|].
  set (K := Z.min (2 ^ L - 1) k). cbv zeta.
  assert (Y : IZR K - (D + b) / IZR (2 ^ 49) <= y <= IZR (K + 1) + (D + b) / IZR (2 ^ 49)).
  { change (IZR (2 ^ 49)) with 562949953421312. rewrite plus_IZR. destruct (Z.min_spec (2 ^ L - 1) k) as [[M1 M2]|[M1 M2]]; fold K in M2; rewrite M2.
    - assert (IZR (2 ^ L - 1) = D - 1) by (rewrite minus_IZR; reflexivity). assert (IZR (2 ^ L - 1) < IZR k) by (apply IZR_lt; assumption). clearbody y b. destruct K1 as [[K1 K2]|[K1 ->]]; lra.
    - clearbody y b. destruct K1 as [[K1 K2]|[K1 ->]]; lra. }
  assert (Ex : B2R x - B2R low = y * (len / D)) by (unfold y; field; lra). set (h := len / D) in *. assert (Hh : 0 < h) by (apply Rmult_lt_0_compat; [lra|apply Rinv_0_lt_compat; lra]).
  assert (Et' : (len + B) / IZR (2 ^ 49) = (D + b) / IZR (2 ^ 49) * h) by (unfold h, b; change (IZR (2 ^ 49)) with 562949953421312; field; lra). rewrite Et'.
  destruct Y as [Y1 Y2]. apply (Rmult_le_compat_r h) in Y1, Y2; try lra.
Qed.
End Axis.

(** ** The assignment *)
Section DAssign.
Variables (d : ddomain) (L : Z) (g : dpoint -> Z).
Hypothesis HL : (0 <= L <= 10)%Z.
Lemma dassign_ok : forall P count, (forall p, In p P -> dcell_of d (2 ^ L) p = Ok (g p) /\ (0 <= g p < 8 ^ L)%Z) -> Z.of_nat (length count) = (8 ^ L)%Z ->
  dassign_points d L P count = Ok (map g P, tally count (map g P)).
Proof.
  intros P count HP Hc. unfold dassign_points.
  assert (G : forall P pre cnt, (forall p, In p P -> dcell_of d (2 ^ L) p = Ok (g p) /\ (0 <= g p < 8 ^ L)%Z) -> cnt = tally count pre ->
    foldM (fun '(gid, count) p => do g <- dcell_of d (2 ^ L) p; do c <- nth_resZ count g; do count' <- set_resZ count g (c + 1)%Z; Ok (gid ++ [g], count')) P (pre, cnt)
    = Ok (pre ++ map g P, tally count (pre ++ map g P))).
  { clear P HP. induction P as [|p P IH]; intros pre cnt HP ->; cbn [foldM map]; [rewrite app_nil_r; reflexivity|].
    destruct (HP p (or_introl eq_refl)) as [-> Sb]. cbn [bind]. set (gp := g p) in *.
    assert (Lt : length (tally count pre) = length count) by (unfold tally; rewrite map_length, seq_length; reflexivity).
    assert (Gn : (Z.to_nat gp < length count)%nat) by lia.
    assert (N : nth_error (tally count pre) (Z.to_nat gp) = Some (nth (Z.to_nat gp) count 0 + Z.of_nat (count_occ Z.eq_dec pre gp))%Z).
    { unfold tally. rewrite nth_error_map_seq by assumption. rewrite Z2Nat.id by lia. reflexivity. }
    unfold nth_resZ, set_resZ. destruct (Z.ltb_spec gp 0); [lia|]. unfold nth_res. rewrite N. cbn [bind]. rewrite set_res_ok by lia. cbn [bind].
    rewrite IH; [rewrite <- app_assoc; reflexivity|intros q Hq; apply HP; right; assumption|].
    apply nth_error_ext. intros k. destruct (Nat.lt_ge_cases k (length count)) as [Hk|Hk].
    - destruct (Nat.eq_dec k (Z.to_nat gp)) as [->|Nk].
      + rewrite upd_same by lia. unfold tally. rewrite nth_error_map_seq by assumption. rewrite Z2Nat.id by lia. rewrite count_occ_app. cbn [count_occ]. destruct (Z.eq_dec gp gp); [|congruence]. f_equal. lia.
      + rewrite upd_other by congruence. unfold tally. rewrite !nth_error_map_seq by assumption. rewrite count_occ_app. cbn [count_occ]. destruct (Z.eq_dec gp (Z.of_nat k)); [lia|]. f_equal. lia.
    - rewrite !(proj2 (nth_error_None _ _)); [reflexivity| |]; unfold tally; rewrite ?upd_length, ?map_length, ?seq_length; rewrite ?map_length, ?seq_length; lia. }
  rewrite (G P [] count HP); [reflexivity|]. unfold tally. cbn [count_occ]. symmetry. apply nth_error_ext. intros k. destruct (Nat.lt_ge_cases k (length count)) as [Hk|Hk].
  - rewrite nth_error_map_seq by assumption. rewrite Z.add_0_r. symmetry. apply nth_error_nth'. assumption.
  - rewrite !(proj2 (nth_error_None _ _)); rewrite ?map_length, ?seq_length; [reflexivity|assumption|assumption].
Qed.
End DAssign.

(** ** The bounding box *)
Definition dbig : double := of_int (10 ^ 50).
Definition dmbig : double := of_int (- 10 ^ 50).
Definition dtight (v : dbounds) (ps : list dpoint) : Prop := forall a,
  let lo := dcoord a (dbmin v) in let hi := dcoord a (dbmax v) in
  is_finite lo = true /\ is_finite hi = true /\
  (forall p, In p ps -> B2R lo <= B2R (dcoord a p) <= B2R hi) /\
  (lo = dbig \/ exists p, In p ps /\ dcoord a p = lo) /\ (hi = dmbig \/ exists p, In p ps /\ dcoord a p = hi).
Definition fin (ps : list dpoint) := forall p a, In p ps -> is_finite (dcoord a p) = true.

Lemma bigs : is_finite dbig = true /\ is_finite dmbig = true /\ B2R dbig = rnd (IZR (10 ^ 50)) /\ B2R dmbig = rnd (IZR (- 10 ^ 50)).
Proof.
  assert (W : bpow radix2 170 <= bpow radix2 1000) by (apply bpow_le; lia). pose proof big_le as Bg. assert (P : 0 <= IZR (10 ^ 50)) by (apply IZR_le; vm_compute; discriminate).
  destruct (of_int_rnd (10 ^ 50)) as [A1 A2]; [apply abs_le; lra|]. destruct (of_int_rnd (- 10 ^ 50)) as [B1 B2]; [change (- 10 ^ 50)%Z with (- (10 ^ 50))%Z; rewrite opp_IZR; apply abs_le; lra|]. unfold dbig, dmbig. auto.
Qed.

Lemma dtight_none : dtight dno_bounds [].
Proof. intros a. destruct bigs as (A & B & _). split; [destruct a; exact A|]. split; [destruct a; exact B|]. split; [intros p []|]. split; left; destruct a; reflexivity. Qed.

Lemma dtight_join : forall v w ps qs, dtight v ps -> dtight w qs -> dtight (djoin v w) (ps ++ qs).
Proof.
  intros v w ps qs Hv Hw a. destruct (Hv a) as (V1 & V2 & V3 & V4 & V5), (Hw a) as (W1 & W2 & W3 & W4 & W5).
  assert (E1 : dcoord a (dbmin (djoin v w)) = dmin (dcoord a (dbmin v)) (dcoord a (dbmin w))) by (destruct a; reflexivity).
  assert (E2 : dcoord a (dbmax (djoin v w)) = dmax (dcoord a (dbmax v)) (dcoord a (dbmax w))) by (destruct a; reflexivity). cbv zeta. rewrite E1, E2.
  destruct (dmin_ok _ _ V1 W1) as (A3 & A1 & A2). destruct (dmax_ok _ _ V2 W2) as (B3 & B1 & B2). cbv zeta in *.
  set (mn := dmin _ _) in *. set (mx := dmax _ _) in *. split; [|split; [|split; [|split]]].
  - destruct A3 as [-> | ->]; assumption.
  - destruct B3 as [-> | ->]; assumption.
  - intros p Hp. apply in_app_iff in Hp. destruct Hp as [Hp|Hp]; [apply V3 in Hp|apply W3 in Hp]; lra.
  - destruct A3 as [-> | ->]; [destruct V4 as [V4|(p & Hp & E)]|destruct W4 as [W4|(p & Hp & E)]]; auto; right; exists p; (split; [apply in_app_iff; auto|assumption]).
  - destruct B3 as [-> | ->]; [destruct V5 as [V5|(p & Hp & E)]|destruct W5 as [W5|(p & Hp & E)]]; auto; right; exists p; (split; [apply in_app_iff; auto|assumption]).
Qed.

Lemma dtight_fold : forall ps v qs, fin ps -> dtight v qs -> dtight (fold_left dextend ps v) (qs ++ ps).
Proof.
  induction ps as [|p ps IH]; intros v qs F H; cbn [fold_left]; [rewrite app_nil_r; assumption|].
  replace (qs ++ p :: ps) with ((qs ++ [p]) ++ ps) by (rewrite <- app_assoc; reflexivity). apply IH; [intros q a Hq; apply F; right; assumption|].
  apply dtight_join; [assumption|]. intros a. cbv zeta. cbn [dbmin dbmax]. pose proof (F p a (or_introl eq_refl)) as Fp. split; [assumption|]. split; [assumption|].
  split; [intros q [<-|[]]; lra|]. split; right; exists p; (split; [left; reflexivity|reflexivity]).
Qed.

Definition drank_points (same : bool) (st : list dpoint * list dpoint) : list dpoint := fst st ++ (if same then [] else snd st).
Lemma dtight_rank : forall same st, fin (drank_points same st) -> dtight (drank_bounds same (fst st) (snd st)) (drank_points same st).
Proof.
  intros same [s t] F. unfold drank_bounds, drank_points in *. cbn [fst snd] in *.
  pose proof (dtight_fold s dno_bounds [] (fun q a Hq => F q a (in_or_app _ _ _ (or_introl Hq))) dtight_none) as X. destruct same; [rewrite app_nil_r; exact X|].
  apply dtight_fold; [intros q a Hq; apply F, in_or_app; auto|]. exact X.
Qed.

Lemma dtight_reduce : forall same sts t, (forall st, In st sts -> fin (drank_points same st)) ->
  dtight (dreduce_bounds t (map (fun st => drank_bounds same (fst st) (snd st)) sts)) (concat (map (fun r => drank_points same (nth r sts ([], []))) (oleaves t))).
Proof.
  intros same sts t F. induction t as [r| |a IHa b IHb]; cbn [dreduce_bounds oleaves map concat].
  - rewrite app_nil_r. destruct (nth_error sts r) as [st|] eqn:E.
    + rewrite (nth_error_nth _ _ _ E). rewrite (nth_error_nth _ r dno_bounds (x := drank_bounds same (fst st) (snd st))) by (rewrite nth_error_map, E; reflexivity). apply dtight_rank. apply F. eapply nth_error_In. eassumption.
    + apply nth_error_None in E. rewrite !nth_overflow by (rewrite ?map_length; assumption). unfold drank_points. destruct same; exact dtight_none.
  - exact dtight_none.
  - rewrite map_app, concat_app. apply dtight_join; assumption.
Qed.

Lemma dtight_all : forall same sts t, (forall st, In st sts -> fin (drank_points same st)) -> all_ranks (length sts) t ->
  dtight (dreduce_bounds t (map (fun st => drank_bounds same (fst st) (snd st)) sts)) (concat (map (drank_points same) sts)).
Proof.
  intros same sts t F H. pose proof (dtight_reduce same sts t F) as T.
  assert (P : Permutation (concat (map (fun r => drank_points same (nth r sts ([], []))) (oleaves t))) (concat (map (drank_points same) sts))).
  { apply perm_concat. rewrite <- (map_nth_seq' _ _ (drank_points same) ([], []) sts). apply Permutation_map. assumption. }
  intros a. destruct (T a) as (V1 & V2 & V3 & V4 & V5). cbv zeta in *. split; [assumption|]. split; [assumption|]. split; [|split].
  - intros p Hp. apply V3. eapply Permutation_in; [symmetry; exact P|assumption].
  - destruct V4 as [V4|(p & Hp & E)]; [auto|]. right. exists p. split; [eapply Permutation_in; eassumption|assumption].
  - destruct V5 as [V5|(p & Hp & E)]; [auto|]. right. exists p. split; [eapply Permutation_in; eassumption|assumption].
Qed.

Lemma B2R_rnd (x : double) : rnd (B2R x) = B2R x.
Proof. unfold rnd. apply round_generic; [typeclasses eauto|]. apply generic_format_B2R. Qed.

Lemma dtight_hull : forall v ps B, ps <> [] -> B <= IZR (10 ^ 50) -> (forall p, In p ps -> within B p) -> dtight v ps -> dhull v ps.
Proof.
  intros v ps B N HB W T a. destruct (T a) as (V1 & V2 & V3 & V4 & V5). cbv zeta in *. split; [assumption|]. split; [assumption|]. split; [assumption|]. destruct ps as [|p0 ps]; [congruence|].
  pose proof (V3 p0 (or_introl eq_refl)) as [X Y]. destruct (W p0 (or_introl eq_refl) a) as [_ Q]. apply Rabs_le_inv in Q. destruct bigs as (_ & _ & G1 & G2).
  assert (Q1 : B2R (dcoord a p0) <= B2R dbig) by (rewrite G1, <- (B2R_rnd (dcoord a p0)); apply round_le; [typeclasses eauto..|lra]).
  assert (Q2 : B2R dmbig <= B2R (dcoord a p0)) by (rewrite G2, <- (B2R_rnd (dcoord a p0)); apply round_le; [typeclasses eauto..|]; change (- 10 ^ 50)%Z with (- (10 ^ 50))%Z; rewrite opp_IZR; lra).
  split.
  - destruct V4 as [V4|(p & Hp & E)]; [|exists p; split; [assumption|rewrite E; reflexivity]]. exists p0. split; [left; reflexivity|]. rewrite V4 in *. lra.
  - destruct V5 as [V5|(p & Hp & E)]; [|exists p; split; [assumption|rewrite E; reflexivity]]. exists p0. split; [left; reflexivity|]. rewrite V5 in *. lra.
Qed.

Lemma cell_ok v ps B L p : (forall p, In p ps -> within B p) -> dhull v ps -> B <= IZR (10 ^ 50) -> (0 <= L <= 10)%Z ->
  let d := ddomain_of v in bpow radix2 (-1000) <= B2R (ddsize d) -> IZR (2 ^ L) * B <= IZR (2 ^ 49) * B2R (ddsize d) -> In p ps ->
  exists i, in_grid i /\ ilevel i = L /\ dcell_of d (2 ^ L) p = Ok (slot_of i L) /\ (0 <= slot_of i L < 8 ^ L)%Z /\ near_box ((B2R (ddsize d) + B) / IZR (2 ^ 49)) d i p.
Proof.
  intros HP HV HB HL d Hmin Hrel Hp.
  destruct (coord_ok v ps B HP HV HB Hmin L HL Hrel AX p Hp) as (kx & Ex & Kx & Nx).
  destruct (coord_ok v ps B HP HV HB Hmin L HL Hrel AY p Hp) as (ky & Ey & Ky & Ny).
  destruct (coord_ok v ps B HP HV HB Hmin L HL Hrel AZ p Hp) as (kz & Ez & Kz & Nz).
  exists (mkIndex kx ky kz L). assert (G : in_grid (mkIndex kx ky kz L)) by (unfold in_grid; cbn; lia).
  split; [assumption|]. split; [reflexivity|]. pose proof (slot_bounds (mkIndex kx ky kz L) L (proj1 HL) eq_refl G) as Sb. rewrite <- (pow8 L (proj1 HL)) in Sb. split; [|split; [assumption|]].
  - unfold dcell_of. fold d in Ex, Ey, Ez. rewrite Ex, Ey, Ez. cbn [bind]. f_equal. destruct (simple_key_slot (mkIndex kx ky kz L) L HL eq_refl G) as [K1 K2]. cbn [ix iy iz] in K1. rewrite Z.shiftl_mul_pow2, Z.mul_1_l in K1 by lia. rewrite K1.
    apply to_int_small. change (2 ^ 31)%Z with 2147483648%Z. change (2 ^ 30)%Z with 1073741824%Z in K2. lia.
  - intros []; assumption.
Qed.

(** ** Corners and centres *)
Lemma dhalf_ok : is_finite dhalf = true /\ B2R dhalf = 1 / 2.
Proof.
  split; [vm_compute; reflexivity|]. rewrite <- SF2R_B2SF. set (s := B2SF dhalf). vm_compute in s. unfold s. cbn. unfold F2R. cbn. lra.
Qed.
Lemma dltb_ok x y : is_finite x = true -> is_finite y = true -> dltb x y = true <-> B2R x < B2R y.
Proof.
  intros Fx Fy. unfold dltb. rewrite (Bcompare_correct 53 1024 x y Fx Fy). destruct (Rcompare_spec (B2R x) (B2R y)); split; intros; try lra; congruence.
Qed.

Lemma corner_arith size lowr h hh q qq m c t N : 0 < size -> 1 <= N <= 1073741824 -> h * N = size -> 0 <= t <= N -> q = t ->
  eta <= u * h -> Rabs (hh - h) <= u * Rabs h + eta -> Rabs (qq - q) <= 2 * u * q ->
  Rabs (m - qq * hh) <= u * Rabs (qq * hh) + eta -> Rabs (c - (lowr + m)) <= u * Rabs (lowr + m) + eta ->
  let tol := (size + Rabs lowr) / 562949953421312 in
  lowr + t * h - tol <= c <= lowr + t * h + tol.
Proof.
  intros Hs HN Hh Ht -> He E1 E2 E3 E4 tol. pose proof eta_pos as Hp. assert (Hh0 : 0 < h) by nra.
  rewrite (Rabs_pos_eq h) in E1 by lra. apply Rabs_le_inv in E1, E2.
  set (s := t * h). assert (Hs0 : 0 <= s) by (unfold s; nra). assert (Hs1 : s <= size) by (unfold s; rewrite <- Hh, (Rmult_comm h); apply Rmult_le_compat_r; lra).
  assert (Hh1 : h <= size) by (rewrite <- Hh; nra).
  assert (A : exists a, qq = t * (1 + a) /\ - (2 * u) <= a <= 2 * u).
  { destruct (Req_dec t 0) as [Z0|Z0]; [exists 0; rewrite Z0 in *; split; lra|]. exists ((qq - t) / t). split; [field; assumption|].
    assert (0 < t) by lra. split; [apply Rmult_le_reg_r with t|apply Rmult_le_reg_r with t]; try assumption; unfold Rdiv; rewrite Rmult_assoc, Rinv_l by assumption; lra. }
  assert (B : exists b, hh = h * (1 + b) /\ - (2 * u) <= b <= 2 * u).
  { exists ((hh - h) / h). split; [field; lra|]. split; apply Rmult_le_reg_r with h; try assumption; unfold Rdiv; rewrite Rmult_assoc, Rinv_l by lra; lra. }
  destruct A as (a & -> & Ha), B as (b & -> & Hb).
  set (g := (1 + a) * (1 + b)). assert (Hg : 1 - 5 * u <= g <= 1 + 5 * u) by (unfold g; nra).
  replace (t * (1 + a) * (h * (1 + b))) with (s * g) in E3 by (unfold s, g; ring).
  assert (G : s * (1 - 5 * u) <= s * g <= s * (1 + 5 * u)) by (split; apply Rmult_le_compat_l; lra).
  clearbody g s. set (sg := s * g) in *. clearbody sg. rewrite (Rabs_pos_eq sg) in E3 by lra. apply Rabs_le_inv in E3.
  assert (u * h <= u * size) by lra.
  pose proof (Rabs_triang lowr m) as Tr. assert (Rabs m <= 2 * size) by (apply abs_le; lra). apply Rabs_le_inv in E4. pose proof (Rabs_pos lowr). unfold tol. lra.
Qed.

Section Corner.
Variables (d : ddomain) (a : axis) (lev : Z).
Hypothesis Fs : is_finite (ddsize d) = true.
Hypothesis Fl : is_finite (dcoord a (ddlow d)) = true.
Hypothesis Smin : bpow radix2 (-960) <= B2R (ddsize d).
Hypothesis Smax : B2R (ddsize d) <= bpow radix2 900.
Hypothesis Lmax : Rabs (B2R (dcoord a (ddlow d))) <= bpow radix2 900.
Hypothesis HL : (0 <= lev <= 30)%Z.
Let size := B2R (ddsize d).
Let h := size / IZR (2 ^ lev).
Let hh := ddiv (ddsize d) (of_int (2 ^ lev)).
Let tol := (size + Rabs (B2R (dcoord a (ddlow d)))) / IZR (2 ^ 49).

Lemma pow_range : (1 <= 2 ^ lev <= 1073741824)%Z.
Proof. split; [pose proof (Z.pow_pos_nonneg 2 lev); lia|apply (Z.pow_le_mono_r 2 lev 30); lia]. Qed.
Lemma size_pos : 0 < size. Proof. unfold size. pose proof (bpow_gt_0 radix2 (-960)). lra. Qed.

Lemma hh_ok : is_finite hh = true /\ Rabs (B2R hh - h) <= u * Rabs h + eta /\ 0 < h <= size /\ eta <= u * h /\ h * IZR (2 ^ lev) = size.
Proof.
  pose proof pow_range as N. pose proof size_pos as S. assert (NR : 1 <= IZR (2 ^ lev) <= 1073741824) by (split; apply IZR_le; lia).
  destruct (of_int_ok (2 ^ lev)) as [F E]; [change (2 ^ 53)%Z with 9007199254740992%Z; lia|].
  assert (Hh : h * IZR (2 ^ lev) = size) by (unfold h; field; lra). assert (H0 : 0 < h) by (apply Rmult_lt_0_compat; [assumption|apply Rinv_0_lt_compat; lra]). assert (H1 : h <= size) by nra.
  assert (T : bpow radix2 900 <= bpow radix2 1000) by (apply bpow_le; lia). fold size in Smax, Smin.
  destruct (ddiv_ok (ddsize d) (of_int (2 ^ lev)) Fs) as [Fh Eh]; [rewrite E; lra|rewrite E; fold size h; rewrite Rabs_pos_eq; lra|].
  rewrite E in Eh. fold hh size h in Eh. split; [exact Fh|]. split; [rewrite Eh; apply rnd_err|]. split; [lra|]. split; [|assumption].
  apply Rmult_le_reg_r with (IZR (2 ^ lev)); [lra|]. rewrite Rmult_assoc, Hh.
  apply Rle_trans with (eta * bpow radix2 30); [apply Rmult_le_compat_l; [pose proof eta_pos; lra|change (bpow radix2 30) with 1073741824; lra]|].
  apply Rle_trans with (u * bpow radix2 (-960)); [|apply Rmult_le_compat_l; lra].
  unfold eta. rewrite <- u_eq. change (/ 2) with (bpow radix2 (-1)). rewrite <- !bpow_plus. apply bpow_le. lia.
Qed.

(** Low corner plus [t] sides, [qq] being the computed [t]. *)
Lemma corner_ok qq t : is_finite qq = true -> Rabs (B2R qq - t) <= 2 * u * t -> 0 <= t <= IZR (2 ^ lev) ->
  let low := dcoord a (ddlow d) in let m := dmul qq hh in
  is_finite (dadd low m) = true /\ is_finite (dadd m low) = true /\
  B2R low + t * h - tol <= B2R (dadd low m) <= B2R low + t * h + tol /\ B2R (dadd m low) = B2R (dadd low m).
Proof.
  intros Fq Eq Ht low m. destruct hh_ok as (Fh & Eh & Hh & He & Hn). pose proof pow_range as N. pose proof size_pos as S. assert (NR : 1 <= IZR (2 ^ lev) <= 1073741824) by (split; apply IZR_le; lia).
  pose proof eta_pos as Et. pose proof (Rabs_le_inv _ _ Eq) as Eq'. pose proof Eh as Eh'. rewrite (Rabs_pos_eq h) in Eh' by lra. apply Rabs_le_inv in Eh'. fold size in Smax.
  assert (T1 : bpow radix2 900 * bpow radix2 40 <= bpow radix2 1000) by (rewrite <- bpow_plus; apply bpow_le; lia).
  pose proof (bpow_gt_0 radix2 900) as T0. change (bpow radix2 40) with 1099511627776 in T1.
  assert (Bq : Rabs (B2R qq) <= 2147483648) by (apply abs_le; lra). assert (Bh : Rabs (B2R hh) <= 2 * bpow radix2 900) by (apply abs_le; lra).
  assert (Bm : Rabs (B2R qq * B2R hh) <= 2147483648 * (2 * bpow radix2 900)) by (rewrite Rabs_mult; apply Rmult_le_compat; try apply Rabs_pos; assumption).
  destruct (dmul_ok qq hh Fq Fh) as [Fm Em]; [lra|]. fold m in Fm, Em. pose proof (rnd_err (B2R qq * B2R hh)) as Rm. rewrite <- Em in Rm.
  assert (e1 : eta <= bpow radix2 900) by (apply bpow_le; lia).
  assert (Bm' : Rabs (B2R m) <= 10000000000 * bpow radix2 900) by (apply abs_le; pose proof (err_bound _ _ _ Rm Bm); apply Rabs_le_inv in Bm; lra).
  assert (Bs : Rabs (B2R low + B2R m) <= bpow radix2 1000) by (eapply Rle_trans; [apply Rabs_triang|]; fold low in Lmax; lra).
  destruct (dadd_ok low m Fl Fm Bs) as [F1 E1]. destruct (dadd_ok m low Fm Fl) as [F2 E2]; [rewrite Rplus_comm; exact Bs|].
  split; [assumption|]. split; [assumption|]. split; [|rewrite E1, E2; f_equal; apply Rplus_comm].
  pose proof (rnd_err (B2R low + B2R m)) as R4. rewrite <- E1 in R4.
  exact (corner_arith size (B2R low) h (B2R hh) t (B2R qq) (B2R m) _ t (IZR (2 ^ lev)) S NR Hn Ht eq_refl He Eh Eq Rm R4).
Qed.

Lemma half_ok k : (0 <= k < 2 ^ lev)%Z -> is_finite (dadd (of_int k) dhalf) = true /\ Rabs (B2R (dadd (of_int k) dhalf) - (IZR k + 1 / 2)) <= 2 * u * (IZR k + 1 / 2) /\ 0 <= IZR k + 1 / 2 <= IZR (2 ^ lev).
Proof.
  intros Hk. pose proof pow_range as N. destruct (of_int_ok k) as [F E]; [change (2 ^ 53)%Z with 9007199254740992%Z; lia|]. destruct dhalf_ok as [Fh Eh].
  assert (K : 0 <= IZR k <= IZR (2 ^ lev) - 1) by (split; [apply IZR_le; lia|rewrite <- minus_IZR; apply IZR_le; lia]). assert (NR : 1 <= IZR (2 ^ lev) <= 1073741824) by (split; apply IZR_le; lia).
  assert (T : bpow radix2 40 <= bpow radix2 1000) by (apply bpow_le; lia). change (bpow radix2 40) with 1099511627776 in T.
  destruct (dadd_ok (of_int k) dhalf F Fh) as [F1 E1]; [rewrite E, Eh; apply abs_le; lra|]. rewrite E, Eh in E1. split; [assumption|]. split; [|lra].
  rewrite E1. eapply Rle_trans; [apply rnd_err|]. rewrite Rabs_pos_eq by lra.
  assert (eta <= u / 2). { unfold eta. rewrite <- u_eq. change (/ 2) with (bpow radix2 (-1)). unfold Rdiv. change (/ 2) with (bpow radix2 (-1)). rewrite <- !bpow_plus. apply bpow_le. lia. } lra.
Qed.
Lemma int_exact k : (0 <= k <= 2 ^ lev)%Z -> is_finite (of_int k) = true /\ Rabs (B2R (of_int k) - IZR k) <= 2 * u * IZR k /\ 0 <= IZR k <= IZR (2 ^ lev).
Proof.
  intros Hk. pose proof pow_range as N. destruct (of_int_ok k) as [F E]; [change (2 ^ 53)%Z with 9007199254740992%Z; lia|]. assert (0 <= IZR k) by (apply IZR_le; lia).
  split; [assumption|]. split; [rewrite E, Rminus_diag_eq, Rabs_R0 by reflexivity; lra|]. split; [lra|apply IZR_le; lia].
Qed.
End Corner.

(** ** Refinement *)
Lemma dicoord_child : forall a w i, (0 <= w < 8)%Z -> iaxis a (child w i) = (2 * iaxis a i + match a with AX => w mod 2 | AY => (w / 2) mod 2 | AZ => (w / 4) mod 2 end)%Z.
Proof. intros a w i Hw. exact (icoord_child a w i Hw). Qed.

Lemma octant_bits (f : axis -> index -> dpoint -> bool) i p : let w := Z.of_nat (octant f i p) in
  (0 <= w < 8)%Z /\ forall a, match a with AX => w mod 2 | AY => (w / 2) mod 2 | AZ => (w / 4) mod 2 end%Z = if f a i p then 0%Z else 1%Z.
Proof.
  cbv zeta. unfold octant. set (bx := f AX i p). set (by_ := f AY i p). set (bz := f AZ i p).
  split; [destruct bx, by_, bz; lia|]. intros []; [fold bx|fold by_|fold bz]; destruct bx, by_, bz; reflexivity.
Qed.

Section Descend.
Variables (d : ddomain) (tol : R).
Hypothesis Hd : moderate d.
Hypothesis Ht : tolerates tol d.

Lemma centre_ok a i : in_grid i -> (ilevel i <= 30)%Z -> is_finite (dcentre d a i) = true /\
  let c := B2R (dcoord a (ddlow d)) + (IZR (iaxis a i) + 1 / 2) * (B2R (ddsize d) / IZR (2 ^ ilevel i)) in
  c - tol <= B2R (dcentre d a i) <= c + tol.
Proof.
  intros G HL. destruct Hd as (F & (S1 & S2) & A). destruct (A a) as [Fl Ll]. unfold in_grid in G. assert (K : (0 <= iaxis a i < 2 ^ ilevel i)%Z) by (destruct a; cbn [iaxis]; tauto).
  assert (HL' : (0 <= ilevel i <= 30)%Z) by tauto. destruct (half_ok (ilevel i) HL' (iaxis a i) K) as (H1 & H2 & H3).
  destruct (corner_ok d a (ilevel i) F Fl S1 S2 Ll HL' _ _ H1 H2 H3) as (C1 & _ & C2 & _). specialize (Ht a).
  assert (E : dcentre d a i = dadd (dcoord a (ddlow d)) (dmul (dadd (of_int (iaxis a i)) dhalf) (ddiv (ddsize d) (of_int (2 ^ ilevel i))))) by (destruct a; reflexivity).
  rewrite E. split; [exact C1|]. cbv zeta. lra.
Qed.

Lemma near_child i p : in_grid i -> (ilevel i <= 30)%Z -> (forall a, is_finite (dcoord a p) = true) -> near_box tol d i p ->
  near_box tol d (child (Z.of_nat (octant (dbelow d) i p)) i) p.
Proof.
  intros G HL Fp N a. destruct (octant_bits (dbelow d) i p) as [W Bt]. cbv zeta. rewrite dicoord_child, ilevel_child, Bt by assumption. specialize (N a). cbv zeta in N.
  destruct (centre_ok a i G HL) as [Fc C]. cbv zeta in C. assert (HL0 : (0 <= ilevel i)%Z) by (unfold in_grid in G; tauto).
  rewrite Z.pow_add_r by lia. change (2 ^ 1)%Z with 2%Z. assert (NR : 1 <= IZR (2 ^ ilevel i)) by (apply (IZR_le 1); pose proof (Z.pow_pos_nonneg 2 (ilevel i)); lia).
  set (k := iaxis a i) in *. rewrite mult_IZR. set (h := B2R (ddsize d) / IZR (2 ^ ilevel i)) in *.
  assert (Eh : B2R (ddsize d) / (IZR (2 ^ ilevel i) * 2) = h / 2) by (unfold h; field; lra). rewrite Eh.
  unfold dbelow. destruct (dltb (dcoord a p) (dcentre d a i)) eqn:E.
  - apply (proj1 (dltb_ok _ _ (Fp a) Fc)) in E. rewrite !plus_IZR, mult_IZR in *. lra.
  - assert (E' : B2R (dcentre d a i) <= B2R (dcoord a p)). { apply Rnot_lt_le. intros X. apply (proj2 (dltb_ok _ _ (Fp a) Fc)) in X. congruence. } rewrite !plus_IZR, mult_IZR in *. lra.
Qed.

Lemma grid_octant i p : in_grid i -> in_grid (child (Z.of_nat (octant (dbelow d) i p)) i).
Proof.
  intros G. apply in_grid_coords in G. destruct G as [L0 G]. apply in_grid_coords. rewrite ilevel_child. split; [lia|]. intros a. destruct (octant_bits (dbelow d) i p) as [W Bt].
  change (GeomModel.icoord a ?j) with (iaxis a j). rewrite dicoord_child, Bt by assumption. specialize (G a). change (GeomModel.icoord a ?j) with (iaxis a j) in G. rewrite Z.pow_add_r by lia. destruct (dbelow d a i p); lia.
Qed.

Lemma near_path : forall path i p, in_grid i -> (ilevel i + Z.of_nat (length path) <= 31)%Z -> (forall a, is_finite (dcoord a p) = true) -> near_box tol d i p ->
  in_cell (dbelow d) i path p = true -> near_box tol d (follow i path) p.
Proof.
  induction path as [|w path IH]; intros i p G HL Fp N C; [exact N|]. cbn [in_cell] in C. apply andb_true_iff in C. destruct C as [C1 C2]. apply Nat.eqb_eq in C1.
  cbn [length] in HL. change (follow i (w :: path)) with (follow (child (Z.of_nat w) i) path). subst w. apply IH; try assumption; [apply grid_octant; assumption|rewrite ilevel_child; lia|]. apply near_child; try assumption. lia.
Qed.
End Descend.

Lemma ilevel_follow : forall path i, ilevel (follow i path) = (ilevel i + Z.of_nat (length path))%Z.
Proof. induction path as [|w path IH]; intros i; [cbn; lia|]. change (follow i (w :: path)) with (follow (child (Z.of_nat w) i) path). rewrite IH, ilevel_child. cbn [length]. lia. Qed.

Lemma near_mono t t' d i p : t <= t' -> near_box t d i p -> near_box t' d i p.
Proof. intros H N a. specialize (N a). cbv zeta in *. lra. Qed.

(** The domain of a hull. *)
Lemma hull_moderate v ps B : (forall p, In p ps -> within B p) -> dhull v ps -> B <= IZR (10 ^ 50) ->
  let d := ddomain_of v in bpow radix2 (-960) <= B2R (ddsize d) -> moderate d /\ tolerates ((B2R (ddsize d) + B) / IZR (2 ^ 48)) d.
Proof.
  intros HP HV HB d Hmin. assert (Hmin' : bpow radix2 (-1000) <= B2R (ddsize d)) by (eapply Rle_trans; [apply bpow_le|exact Hmin]; lia).
  destruct (W_facts B HB) as (W & Wd & W1 & W2 & W4 & W5 & W3). destruct (len_ok v ps B HP HV HB) as (Fl & _ & _). pose proof (len_le v ps B HP HV HB) as Ll.
  pose proof eta_pos as Et. destruct (bound_ok v ps B HP HV AX) as (B0 & _). fold d in Fl, Ll.
  assert (T : 8 * W <= bpow radix2 900). { rewrite Wd. change 8 with (bpow radix2 3). rewrite <- bpow_plus. apply bpow_le. lia. }
  assert (Lo : forall a, is_finite (dcoord a (ddlow d)) = true /\ Rabs (B2R (dcoord a (ddlow d))) <= B2R (ddsize d) + 1.5 * B + 4 * eta).
  { intros a. destruct (low_ok v ps B HP HV HB Hmin' a) as [F H]. split; [exact F|]. destruct (bound_ok v ps B HP HV a) as (_ & B1 & B2 & B3 & B4 & B5). specialize (H _ (conj (Rle_refl _) B3)). fold d in H. pose proof (bpow_gt_0 radix2 (-1000)). apply Rabs_le. lra. }
  assert (Ee : eta <= u * B2R (ddsize d)).
  { apply Rle_trans with (u * bpow radix2 (-960)); [|apply Rmult_le_compat_l; lra]. unfold eta. rewrite <- u_eq. change (/ 2) with (bpow radix2 (-1)). rewrite <- !bpow_plus. apply bpow_le. lia. }
  split.
  - split; [exact Fl|]. split; [split; [exact Hmin|lra]|]. intros a. destruct (Lo a) as [F H]. split; [exact F|]. lra.
  - intros a. destruct (Lo a) as [_ H]. change (IZR (2 ^ 49)) with 562949953421312. change (IZR (2 ^ 48)) with 281474976710656. lra.
Qed.
