(** The waves between the boxes of an evaluation. *)
From Coq Require Import Reals ZArith List Lia Lra.
From Coquelicot Require Import Coquelicot.
From Verif Require Import Base ListFacts IndexModel DagSpec LapModel LapSpec LapArrays LapProofs TranModel TranArrays TranOps TranField TranEval TranMove TranTable TranSpec TranProofs MergeShiftModel MergeShiftSpec MergeShiftProofs WaveModel WaveSpec WaveTab WaveUp WaveFrom WaveShift WaveInto WaveChain WaveProps PotModel PotSpec PotFacts Pot97Model Pot97Spec Pot97Facts.
Import ListNotations.
Open Scope R_scope.

Lemma unit_along corner size (Hs : 0 < size) d i y : inside corner size i y ->
  in_unit (along d (units (side size (ilevel i)) (middle corner size i) y)) /\ in_unit (along d (units (side size (ilevel i)) y (middle corner size i))).
Proof.
  intros (H1 & H2 & H3). pose proof (side_pos size (ilevel i) Hs) as P. set (h := side size (ilevel i)) in *. set (c := middle corner size i) in *.
  assert (G : forall u v, Rabs (u - v) <= h / 2 -> Rabs ((u - v) / h) <= 1 / 2 /\ Rabs ((v - u) / h) <= 1 / 2).
  { intros u v H. assert (X : Rabs ((u - v) / h) <= 1 / 2) by (unfold Rdiv at 1; rewrite Rabs_mult, Rabs_inv, (Rabs_right h) by lra; apply Rmult_le_reg_r with h; [exact P|]; rewrite Rmult_assoc, Rinv_l by lra; lra). split; [exact X|]. replace ((v - u) / h) with (- ((u - v) / h)) by (field; lra). rewrite Rabs_Ropp. exact X. }
  destruct (G _ _ H1) as [A1 B1], (G _ _ H2) as [A2 B2], (G _ _ H3) as [A3 B3]. unfold in_unit, units, along. destruct d; cbn [px py pz]; rewrite ?Rabs_Ropp; auto 10.
Qed.

Lemma accurate_arrives q p eps corner size d s u y x v : 0 < size -> accurate q p eps -> ilevel s = ilevel u ->
  (Z.abs (ix s - ix u) <= 3)%Z -> (Z.abs (iy s - iy u) <= 3)%Z -> (Z.abs (iz s - iz u) <= 3)%Z -> (2 <= snd (seen_by d (ix s - ix u) (iy s - iy u) (iz s - iz u)) <= 3)%Z ->
  inside corner size s y -> inside corner size u x -> arrives q p corner size d s u y x v -> Rabs (v - side size (ilevel u) / dist x y) <= eps.
Proof.
  intros Hs HA El X Y Z Hd Iy Ix (h & g & Hh & Hg & ->). pose proof (side_pos size (ilevel u) Hs) as P.
  destruct (unit_along corner size Hs d s y Iy) as [Ua _]. destruct (unit_along corner size Hs d u x Ix) as [_ Ub].
  rewrite (grid_along corner size Hs d s u El). destruct (seen_by d (ix s - ix u) (iy s - iy u) (iz s - iz u)) as [[i j] k] eqn:E. cbn [snd] in Hd.
  assert (B : (-3 <= i <= 3)%Z /\ (-3 <= j <= 3)%Z) by (destruct d; cbn in E; injection E as <- <- <-; lia).
  specialize (HA _ _ i j k h g Ua Ub (proj1 B) (proj2 B) Hd Hh Hg). unfold grid. eapply Rle_trans; [|exact HA]. right. do 2 f_equal. clear HA Ua Ub Hh Hg.
  assert (Dx : dist x y = side size (ilevel u) * sqrt ((IZR i + px (along d (units (side size (ilevel s)) (middle corner size s) y)) + px (along d (units (side size (ilevel u)) x (middle corner size u)))) ^ 2 +
     (IZR j + py (along d (units (side size (ilevel s)) (middle corner size s) y)) + py (along d (units (side size (ilevel u)) x (middle corner size u)))) ^ 2 +
     (IZR k + pz (along d (units (side size (ilevel s)) (middle corner size s) y)) + pz (along d (units (side size (ilevel u)) x (middle corner size u)))) ^ 2)).
  { rewrite El. set (r := side size (ilevel u)) in *. rewrite <- (sqrt_square r) at 1 by lra. rewrite <- sqrt_mult_alt by nra. unfold dist. f_equal.
    assert (M : forall a b, a = r * (b : R) -> a ^ 2 = r * r * b ^ 2) by (intros; subst; ring). unfold units, middle, along. rewrite El. fold r. cbv zeta.
    destruct d; cbn in E; injection E as <- <- <-; cbn [px py pz]; rewrite ?opp_IZR, !minus_IZR; field; lra. }
  rewrite Dx. set (w := sqrt _). destruct (Req_dec w 0) as [->|W]; [rewrite Rmult_0_r; unfold Rdiv; rewrite Rinv_0; ring|]. field. split; [exact W|lra].
Qed.

Section Views.
Context (n : nat) (tb : table) (wt : wtab) (Et : laplace_table n = Ok tb) (Ew : wave_table n = Ok wt) (corner : pt) (size : R) (Hsize : 0 < size).

Lemma views_new t s l M : near_child t s -> upward tb corner size s l M ->
  exists views new, M_to_I tb wt M = Ok views /\ I_to_I wt s t views = Ok new /\ new_ok (q_nexp (w_q wt)) new.
Proof.
  intros Hn HU. destruct (both_tables n tb wt Et Ew) as (HS & Q & Ewt). rewrite Ewt. cbn [w_q the_waves]. set (q := w_q wt) in *.
  destruct (up_inv corner size Hsize tb HS s l M HU) as [HC _]. destruct (M_to_I_ok q tb Q HS _ M HC) as (views & EM & LV & HV).
  destruct (i_to_i_views Lap s t Hn) as (ps & Ep & _). pose proof (i_to_i_ok s t ps Hn Ep) as HP. pose proof (I_to_I_ok q tb Q s t ps (box_wave q tb corner size s l) views Ep HP HV) as EI.
  exists views. eexists. split; [exact EM|]. split; [exact EI|]. unfold new_ok. rewrite List.Forall_map. eapply List.Forall_impl; [|exact HP]. intros x (_ & _ & _ & B & _). cbn [fst snd]. split; [exact B|]. rewrite wave_list_len. apply (k_nexp q Q).
Qed.

Lemma expansion_length L : expansion (tb_p tb) L -> length L = ((tb_p tb + 1) * (tb_p tb + 2) / 2)%nat.
Proof. intros [H _]. exact H. Qed.
Lemma padd_expansion L1 L2 : expansion (tb_p tb) L1 -> expansion (tb_p tb) L2 -> expansion (tb_p tb) (padd L1 L2).
Proof.
  intros H1 H2. pose proof (expansion_length _ H1) as E1. pose proof (expansion_length _ H2) as E2. destruct H1 as [_ R1], H2 as [_ R2]. split; [rewrite padd_length; congruence|].
  intros i Hi. destruct (R1 i Hi) as [v1 V1], (R2 i Hi) as [v2 V2]. exists (v1 + v2). rewrite (padd_nth L1 L2 _ _ _ ltac:(congruence) V1 V2). unfold cadd. cbn [fst snd]. do 2 f_equal. ring.
Qed.
Lemma padd_value u L1 L2 x v1 v2 : x <> middle corner size u -> expansion (tb_p tb) L1 -> expansion (tb_p tb) L2 ->
  L_to_T (tb_p tb) (tb_sqf tb) (level_scale size (ilevel u)) (box_center corner size u) L1 x 0 = Ok v1 -> L_to_T (tb_p tb) (tb_sqf tb) (level_scale size (ilevel u)) (box_center corner size u) L2 x 0 = Ok v2 ->
  L_to_T (tb_p tb) (tb_sqf tb) (level_scale size (ilevel u)) (box_center corner size u) (padd L1 L2) x 0 = Ok (v1 + v2).
Proof.
  intros Hx H1 H2. destruct (both_tables n tb wt Et Ew) as (HS & _ & _). destruct (expansion_coefs _ _ H1) as [C1 _], (expansion_coefs _ _ H2) as [C2 _]. set (c1 := fun i m => nth (midx i m) L1 (0, 0)) in *. set (c2 := fun i m => nth (midx i m) L2 (0, 0)) in *.
  assert (D1 : 0 < norm3 (point_sub x (box_center corner size u))) by (rewrite box_center_middle, norm3_dist; apply dist_pos, Hx).
  destruct (add_coefs (tb_p tb) c1 c2 L1 L2 C1 C2) as (L & E & C3). rewrite add_padd in E by (rewrite !expansion_length by assumption; reflexivity). injection E as <-.
  assert (C4 : coefs (tb_p tb) (fun i m => (c1 i m : C) + (c2 i m : C))%C (padd L1 L2)) by (revert C3; apply coefs_ext; intros i m _; apply cadd_C).
  unfold L_to_T. rewrite (eval_l _ _ _ (level_scale size (ilevel u)) _ _ (HT tb HS) C1 D1 (scale_pos size Hsize _)), (eval_l _ _ _ (level_scale size (ilevel u)) _ _ (HT tb HS) C2 D1 (scale_pos size Hsize _)), (eval_l _ _ _ (level_scale size (ilevel u)) _ _ (HT tb HS) C4 D1 (scale_pos size Hsize _)). cbn [bind].
  intros E1 E2. injection E1 as <-. injection E2 as <-. rewrite val_plus. f_equal. ring.
Qed.
End Views.
