(** The sum of the waves is close to the inverse of the distance everywhere: layers of cells,
    some of them divided once more. *)
From Coq Require Import Reals ZArith List Lia Lra Psatz Bool.
From Coquelicot Require Import Coquelicot.
From Verif Require Import QuadBall QuadFun QuadCell QuadGrid QuadTab.
Import ListNotations.
Open Scope R_scope.

Definition mem (l : list (Z * Z)) (a b : Z) : bool := existsb (fun p => (fst p =? a)%Z && (snd p =? b)%Z) l.
(** The middle of the cell of twice the size *)
Definition parent (f n : Z) : Z := (4 * f * (n / (4 * f)) + 2 * f)%Z.
Definition small_sel (f : Z) (bad : list (Z * Z)) (a b : Z) : bool := mem bad (parent f a) (parent f b).
Definition large_sel (bad : list (Z * Z)) (a b : Z) : bool := negb (mem bad a b).

Lemma cover f X : (f = 1 \/ f = 2 \/ f = 4)%Z -> 0 <= X <= 4 -> exists n x, In n (odds f) /\ Rabs x <= 1 /\ X = g n + g f * x.
Proof.
  intros Hf HX. assert (Pf : 0 < IZR f) by (apply IZR_lt; lia). assert (DI : (f * (32 / f) = 32)%Z) by (destruct Hf as [->|[->| ->]]; reflexivity). assert (D1 : (1 <= 32 / f)%Z) by (destruct Hf as [->|[->| ->]]; vm_compute; discriminate).
  set (v := 8 * X / IZR f). assert (V : 0 <= v) by (apply Rdiv_le_0_compat; lra). destruct (archimed v) as [U1 U2]. set (k := (up v - 1)%Z). assert (K1 : IZR k <= v) by (unfold k; rewrite minus_IZR; lra). assert (K2 : v < IZR k + 1) by (unfold k; rewrite minus_IZR; lra).
  assert (K0 : (0 <= k)%Z) by (assert (-1 < k)%Z by (apply lt_IZR; lra); lia). assert (VX : X = IZR f * v / 8) by (unfold v; field; lra).
  set (i := Z.min k (32 / f - 1)). assert (I0 : (0 <= i <= 32 / f - 1)%Z) by (unfold i; lia). assert (I1 : IZR i <= v <= IZR i + 1).
  { unfold i. destruct (Z.le_gt_cases k (32 / f - 1)) as [L|L]; [rewrite Z.min_l by exact L; lra|]. rewrite Z.min_r by lia. assert (E : IZR (32 / f) = 32 / IZR f) by (apply (f_equal IZR) in DI; rewrite mult_IZR in DI; rewrite <- DI; field; lra).
    rewrite minus_IZR, E. assert (IZR k >= IZR (32 / f)) by (apply Rle_ge, IZR_le; lia). rewrite E in H. assert (v <= 32 / IZR f) by (unfold v, Rdiv; apply Rmult_le_compat_r; [left; apply Rinv_0_lt_compat; exact Pf|lra]). lra. }
  exists ((2 * i + 1) * f)%Z, (2 * (v - IZR i) - 1). split; [|split].
  - unfold odds. apply in_map_iff. exists (Z.to_nat i). split; [rewrite Z2Nat.id by lia; reflexivity|]. apply in_seq. lia.
  - apply Rabs_le_between. lra.
  - unfold g. rewrite mult_IZR, plus_IZR, mult_IZR. rewrite VX. field.
Qed.
Lemma parent_ok f n x : (f = 1 \/ f = 2)%Z -> In n (odds f) -> Rabs x <= 1 -> exists x', In (parent f n) (odds (2 * f)) /\ Rabs x' <= 1 /\ g n + g f * x = g (parent f n) + g (2 * f) * x'.
Proof.
  intros Hf Hn Hx. apply in_map_iff in Hn. destruct Hn as (i & <- & Hi). apply in_seq in Hi. apply Rabs_le_between in Hx. unfold parent, odds.
  assert (E : ((2 * Z.of_nat i + 1) * f / (4 * f) = Z.of_nat i / 2)%Z).
  { destruct Hf as [-> | ->]; [change (4 * 1)%Z with 4%Z; rewrite Z.mul_1_r|change (4 * 2)%Z with 8%Z]; Z.to_euclidean_division_equations; lia. }
  rewrite E. set (q := (Z.of_nat i / 2)%Z). assert (Q : (Z.of_nat i = 2 * q \/ Z.of_nat i = 2 * q + 1)%Z) by (unfold q; Z.to_euclidean_division_equations; lia).
  assert (B : (Z.of_nat i < 32 / f)%Z) by (destruct Hf as [-> | ->]; cbn in Hi |- *; lia).
  assert (IN : In (4 * f * q + 2 * f)%Z (map (fun i => ((2 * Z.of_nat i + 1) * (2 * f))%Z) (seq 0 (Z.to_nat (32 / (2 * f)))))).
  { apply in_map_iff. exists (Z.to_nat q). split; [rewrite Z2Nat.id by lia; ring|]. apply in_seq. destruct Hf as [-> | ->]; [change (32 / (2 * 1))%Z with 16%Z; change (32 / 1)%Z with 32%Z in B|change (32 / (2 * 2))%Z with 8%Z; change (32 / 2)%Z with 16%Z in B]; lia. }
  assert (RI : IZR (Z.of_nat i) = 2 * IZR q \/ IZR (Z.of_nat i) = 2 * IZR q + 1) by (destruct Q as [Q|Q]; rewrite Q, ?plus_IZR, mult_IZR; [left|right]; reflexivity).
  destruct RI as [RI|RI]; [exists (x / 2 - 1 / 2)|exists (x / 2 + 1 / 2)]; (split; [exact IN|]); (split; [apply Rabs_le_between; lra|]); unfold g; rewrite !mult_IZR, !plus_IZR, !mult_IZR, RI; field.
Qed.

(** ** The tables *)
Lemma Forall2_flat {A B C} (P : B -> C -> Prop) (f : A -> list B) (h : A -> list C) l : (forall a, In a l -> List.Forall2 P (f a) (h a)) -> List.Forall2 P (flat_map f l) (flat_map h l).
Proof. intros H. induction l as [|a l IH]; [constructor|]. cbn [flat_map]. apply Forall2_app; [apply H; left; reflexivity|apply IH; intros b Hb; apply H; right; exact Hb]. Qed.
Lemma Forall2_map {A B C} (P : B -> C -> Prop) (f : A -> B) (h : A -> C) l : (forall a, In a l -> P (f a) (h a)) -> List.Forall2 P (map f l) (map h l).
Proof. intros H. induction l as [|a l IH]; [constructor|]. cbn [map]. constructor; [apply H; left; reflexivity|apply IH; intros b Hb; apply H; right; exact Hb]. Qed.
Lemma quarter_in M j mu : (0 < M)%Z -> In (j, mu) (quarter M) -> (0 <= j /\ 4 * j <= M /\ 0 < mu)%Z.
Proof.
  intros HM H. unfold quarter in H. destruct (Z.eqb_spec (M mod 4) 0) as [E|E].
  - apply in_map_iff in H. destruct H as (i & Hi & Hs). apply in_seq in Hs. injection Hi as <- <-. pose proof (Z.div_mod M 4 ltac:(lia)) as D. assert (Z.of_nat i <= M / 4)%Z by lia. split; [lia|]. split; [lia|]. destruct ((_ || _)%bool); lia.
  - destruct H as [H|[]]. injection H as <- <-. lia.
Qed.
Lemma bwave_ok bl bw l w M j mu : within bl l -> within bw w -> 0 <= l <= 8 -> 0 <= w -> (0 < M)%Z -> (0 <= j)%Z -> (4 * j <= M)%Z -> (0 < mu)%Z -> tab_ok (bwave bl bw M j mu) (rwave l w M j mu).
Proof.
  intros Hl Hw Bl Bw HM Hj HJ Hmu. apply IZR_lt in HM as PM. apply IZR_le in Hj as Pj. apply IZR_le in HJ as PJ. rewrite mult_IZR in PJ. apply IZR_lt in Hmu as Pmu. pose proof PI_RGT_0 as P0.
  set (a := 2 * PI * IZR j / IZR M). assert (A : 0 <= a <= PI / 2).
  { unfold a. split; [apply Rdiv_le_0_compat; [nra|exact PM]|]. apply (Rmult_le_reg_r (IZR M)); [exact PM|]. replace (2 * PI * IZR j / IZR M * IZR M) with (2 * PI * IZR j) by (field; lra). nra. }
  assert (A8 : 0 <= a <= 8 / 5) by (pose proof bPI_ok as W; apply within_int in W; cbn [bPI mid rad] in W; unfold SC in W; lra).
  assert (WA : within (bangle j M) a) by (unfold bangle, a; apply (bdiv_ok _ M); [exact HM|]; replace (2 * PI * IZR j) with (IZR (2 * j) * PI) by (rewrite mult_IZR; ring); apply bscale_ok, bPI_ok).
  assert (C : 0 <= cos a <= 1) by (split; [apply cos_ge_0; lra|apply COS_bound]). assert (S : 0 <= sin a <= 1) by (split; [apply sin_ge_0; lra|apply SIN_bound]).
  unfold bwave, rwave. cbv zeta. fold a. apply mktab_ok; unfold plain; cbn [r_l r_w r_a r_b].
  - split; [exact Bl|]. split; [apply Rdiv_le_0_compat; [nra|exact PM]|]. split; nra.
  - exact Hl.
  - apply bdiv_ok; [exact HM|]. rewrite Rmult_comm. apply bscale_ok, Hw.
  - apply bmul_ok; [exact Hl|apply bcos_ok; assumption].
  - apply bmul_ok; [exact Hl|apply bsin_ok; assumption].
Qed.
Lemma p10_pos n : (0 < p10 n)%Z. Proof. change (0 < 10 ^ Z.pos n)%Z. apply Z.pow_pos_nonneg; lia. Qed.
Definition entry_ok (e : Z * positive * (Z * positive) * Z) : bool := let '((nl, dl), (nw, dw), M) := e in ((0 <=? nl) && (nl <=? 8 * p10 dl) && (0 <=? nw) && (0 <? M))%Z.
Lemma tabs3_ok : List.Forall2 tab_ok tabs3 terms3.
Proof.
  unfold tabs3, terms3. apply Forall2_flat. assert (H : forallb entry_ok entries3 = true) by (vm_compute; reflexivity). rewrite forallb_forall in H. intros [[[nl dl] [nw dw]] M] He. specialize (H _ He). clear He. unfold entry_ok in H.
  rewrite !andb_true_iff in H. destruct H as [[[H1 H2] H3] H4]. apply Z.leb_le in H1, H2, H3. apply Z.ltb_lt in H4. pose proof (p10_pos dl) as P1. pose proof (p10_pos dw) as P2. pose proof (IZR_lt _ _ P1) as Q1. pose proof (IZR_lt _ _ P2) as Q2. apply IZR_le in H1, H2, H3. rewrite mult_IZR in H2.
  unfold bwaves, rwaves. apply Forall2_map. intros [j mu] Hj. cbn [fst snd]. destruct (quarter_in M j mu H4 Hj) as (J1 & J2 & J3). apply bwave_ok; [apply bfrac_ok, P1|apply bfrac_ok, P2| |apply Rdiv_le_0_compat; lra|exact H4|exact J1|exact J2|exact J3].
  split; [apply Rdiv_le_0_compat; lra|]. apply (Rmult_le_reg_r (IZR (p10 dl))); [exact Q1|]. unfold Rdiv. rewrite Rmult_assoc, Rinv_l by lra. lra.
Qed.

(** ** The layers *)
Definition eps3 : Z := (SC / 100)%Z.
Definition near3 (X Y Z : R) : Prop := Rabs (waves1 terms3 Z X Y - / sqrt (X ^ 2 + Y ^ 2 + Z ^ 2)) <= 1 / 100.
Lemma eps3_ok v : v <= IZR eps3 / IZR SC -> v <= 1 / 100.
Proof. intros H. eapply Rle_trans; [exact H|]. change eps3 with 2684354%Z. unfold SC. lra. Qed.
Lemma one_level nz : check_layer (fun _ _ => true) tabs3 nz 4 eps3 = true -> forall X Y Z, 0 <= X <= 4 -> 0 <= Y <= 4 -> g (nz - 4) <= Z <= g (nz + 4) -> near3 X Y Z.
Proof.
  intros H X Y Z HX HY HZ. destruct (cover 4 X ltac:(lia) HX) as (n & x & In_n & Bx & ->). destruct (cover 4 Y ltac:(lia) HY) as (m & y & In_m & By & ->). unfold g in HZ. rewrite minus_IZR, plus_IZR in HZ.
  replace Z with (g nz + g 4 * ((Z - g nz) / g 4)) by (unfold g; field). unfold near3. apply eps3_ok. apply (check_layer_ok _ tabs3 terms3 nz 4 eps3 tabs3_ok H n m _ x y In_n In_m eq_refl); [|exact Bx|exact By]. unfold g. apply Rabs_le_between. lra.
Qed.
Lemma two_level f nz bad : (f = 1 \/ f = 2)%Z -> check_layer (large_sel bad) tabs3 nz (2 * f) eps3 = true -> check_layer (small_sel f bad) tabs3 (nz - f) f eps3 = true -> check_layer (small_sel f bad) tabs3 (nz + f) f eps3 = true ->
  forall X Y Z, 0 <= X <= 4 -> 0 <= Y <= 4 -> g (nz - 2 * f) <= Z <= g (nz + 2 * f) -> near3 X Y Z.
Proof.
  intros Hf H H1 H2 X Y Z HX HY HZ. assert (Pf : 0 < IZR f) by (apply IZR_lt; lia). destruct (cover f X ltac:(lia) HX) as (n & x & In_n & Bx & EX). destruct (cover f Y ltac:(lia) HY) as (m & y & In_m & By & EY). unfold g in HZ. rewrite minus_IZR, plus_IZR, !mult_IZR in HZ.
  unfold near3. apply eps3_ok. destruct (small_sel f bad n m) eqn:E.
  - rewrite EX, EY. destruct (Rle_dec Z (g nz)) as [L|L].
    + replace Z with (g (nz - f) + g f * ((Z - g (nz - f)) / g f)) by (unfold g; field; lra). apply (check_layer_ok _ tabs3 terms3 _ f eps3 tabs3_ok H1 n m _ x y In_n In_m E); [|exact Bx|exact By].
      unfold g in L |- *. rewrite minus_IZR. apply Rabs_le_between. replace ((Z - (IZR nz - IZR f) / 16) / (IZR f / 16)) with ((16 * Z - IZR nz) / IZR f + 1) by (field; lra).
      assert ((16 * Z - IZR nz) / IZR f <= 0) by (unfold Rdiv; assert (0 < / IZR f) by (apply Rinv_0_lt_compat; exact Pf); nra). assert (-2 <= (16 * Z - IZR nz) / IZR f); [|lra]. apply (Rmult_le_reg_r (IZR f)); [exact Pf|]. replace ((16 * Z - IZR nz) / IZR f * IZR f) with (16 * Z - IZR nz) by (field; lra). lra.
    + replace Z with (g (nz + f) + g f * ((Z - g (nz + f)) / g f)) by (unfold g; field; lra). apply (check_layer_ok _ tabs3 terms3 _ f eps3 tabs3_ok H2 n m _ x y In_n In_m E); [|exact Bx|exact By].
      unfold g in L |- *. rewrite plus_IZR. apply Rabs_le_between. replace ((Z - (IZR nz + IZR f) / 16) / (IZR f / 16)) with ((16 * Z - IZR nz) / IZR f - 1) by (field; lra).
      assert (0 <= (16 * Z - IZR nz) / IZR f) by (apply Rdiv_le_0_compat; lra). assert ((16 * Z - IZR nz) / IZR f <= 2); [|lra]. apply (Rmult_le_reg_r (IZR f)); [exact Pf|]. replace ((16 * Z - IZR nz) / IZR f * IZR f) with (16 * Z - IZR nz) by (field; lra). lra.
  - destruct (parent_ok f n x Hf In_n Bx) as (x' & In_n' & Bx' & EX'). destruct (parent_ok f m y Hf In_m By) as (y' & In_m' & By' & EY'). rewrite EX, EY, EX', EY'.
    replace Z with (g nz + g (2 * f) * ((Z - g nz) / g (2 * f))) by (unfold g; rewrite mult_IZR; field; lra). apply (check_layer_ok _ tabs3 terms3 _ (2 * f) eps3 tabs3_ok H _ _ _ x' y' In_n' In_m'); [|  |exact Bx'|exact By'].
    + unfold large_sel. unfold small_sel in E. rewrite E. reflexivity.
    + unfold g. rewrite mult_IZR. apply Rabs_le_between. replace ((Z - IZR nz / 16) / (2 * IZR f / 16)) with ((16 * Z - IZR nz) / IZR f / 2) by (field; lra).
      assert (-2 <= (16 * Z - IZR nz) / IZR f <= 2); [|lra]. split; apply (Rmult_le_reg_r (IZR f)); try exact Pf; replace ((16 * Z - IZR nz) / IZR f * IZR f) with (16 * Z - IZR nz) by (field; lra); lra.
Qed.

(** The cells that are divided *)
Definition bad18 : list (Z * Z) := [(2, 2); (2, 6); (2, 10); (2, 14); (2, 18); (2, 22); (2, 26); (2, 30); (2, 34); (2, 50); (2, 54); (2, 58); (6, 2); (6, 6); (6, 10); (6, 14); (6, 18); (6, 22); (6, 26); (6, 30); (10, 2); (10, 6); (10, 10); (10, 14); (10, 18); (10, 22); (10, 26); (10, 30); (14, 2); (14, 6); (14, 10); (14, 14); (14, 18); (14, 22); (14, 26); (14, 38); (14, 42); (18, 2); (18, 6); (18, 10); (18, 14); (18, 18); (18, 22); (18, 38); (18, 42); (22, 2); (22, 6); (22, 10); (22, 14); (22, 18); (26, 2); (26, 6); (26, 10); (26, 14); (30, 2)]%Z.
Definition bad22 : list (Z * Z) := [(2, 2); (2, 6); (2, 10); (6, 2); (6, 6); (6, 10); (6, 14); (10, 2); (10, 6); (10, 10)]%Z.
Definition bad28 : list (Z * Z) := [(4, 4); (4, 12); (4, 20); (4, 28); (4, 36); (12, 4); (12, 12); (12, 20); (12, 28); (12, 36); (12, 44); (20, 4); (20, 12); (20, 20); (20, 28); (20, 36); (28, 4); (28, 12); (28, 20); (28, 28); (28, 36); (36, 4); (36, 12); (36, 20); (36, 28); (44, 12)]%Z.
Definition bad36 : list (Z * Z) := [(4, 4); (4, 12); (4, 20); (12, 4); (12, 12); (12, 20); (20, 4); (20, 12); (20, 20)]%Z.
Lemma run18 : check_layer (large_sel bad18) tabs3 18 2 eps3 && check_layer (small_sel 1 bad18) tabs3 17 1 eps3 && check_layer (small_sel 1 bad18) tabs3 19 1 eps3 = true. Proof. vm_cast_no_check (eq_refl true). Qed.
Lemma run22 : check_layer (large_sel bad22) tabs3 22 2 eps3 && check_layer (small_sel 1 bad22) tabs3 21 1 eps3 && check_layer (small_sel 1 bad22) tabs3 23 1 eps3 = true. Proof. vm_cast_no_check (eq_refl true). Qed.
Lemma run28 : check_layer (large_sel bad28) tabs3 28 4 eps3 && check_layer (small_sel 2 bad28) tabs3 26 2 eps3 && check_layer (small_sel 2 bad28) tabs3 30 2 eps3 = true. Proof. vm_cast_no_check (eq_refl true). Qed.
Lemma run36 : check_layer (large_sel bad36) tabs3 36 4 eps3 && check_layer (small_sel 2 bad36) tabs3 34 2 eps3 && check_layer (small_sel 2 bad36) tabs3 38 2 eps3 = true. Proof. vm_cast_no_check (eq_refl true). Qed.
Lemma run44 : check_layer (fun _ _ => true) tabs3 44 4 eps3 && check_layer (fun _ _ => true) tabs3 52 4 eps3 && check_layer (fun _ _ => true) tabs3 60 4 eps3 = true. Proof. vm_cast_no_check (eq_refl true). Qed.
Theorem all_near3 X Y Z : 0 <= X <= 4 -> 0 <= Y <= 4 -> 1 <= Z <= 4 -> near3 X Y Z.
Proof.
  intros HX HY HZ. pose proof run18 as R18. pose proof run22 as R22. pose proof run28 as R28. pose proof run36 as R36. pose proof run44 as R44. apply andb_true_iff in R18, R22, R28, R36, R44.
  destruct R18 as [R18 R18c]. destruct R22 as [R22 R22c]. destruct R28 as [R28 R28c]. destruct R36 as [R36 R36c]. destruct R44 as [R44 R44c]. apply andb_true_iff in R18, R22, R28, R36, R44.
  destruct R18 as [R18a R18b]. destruct R22 as [R22a R22b]. destruct R28 as [R28a R28b]. destruct R36 as [R36a R36b]. destruct R44 as [R44a R44b].
  destruct (Rle_dec Z (5 / 4)) as [L|L]; [apply (two_level 1 18 bad18 ltac:(lia) R18a R18b R18c); try assumption; unfold g; cbn; lra|].
  destruct (Rle_dec Z (3 / 2)) as [L1|L1]; [apply (two_level 1 22 bad22 ltac:(lia) R22a R22b R22c); try assumption; unfold g; cbn; lra|].
  destruct (Rle_dec Z 2) as [L2|L2]; [apply (two_level 2 28 bad28 ltac:(lia) R28a R28b R28c); try assumption; unfold g; cbn; lra|].
  destruct (Rle_dec Z (5 / 2)) as [L3|L3]; [apply (two_level 2 36 bad36 ltac:(lia) R36a R36b R36c); try assumption; unfold g; cbn; lra|].
  destruct (Rle_dec Z 3) as [L4|L4]; [apply (one_level 44 R44a); try assumption; unfold g; cbn; lra|].
  destruct (Rle_dec Z (7 / 2)) as [L5|L5]; [apply (one_level 52 R44b); try assumption; unfold g; cbn; lra|].
  apply (one_level 60 R44c); try assumption; unfold g; cbn; lra.
Qed.
