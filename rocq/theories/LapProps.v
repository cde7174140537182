(** C58-C60: Legendre functions, multipole and local expansions of the Laplace kernel. *)
From Coq Require Import Reals List Lia Lra Psatz.
From Coquelicot Require Import Coquelicot.
From Verif Require Import Base ListFacts LegSpec LegProofs LegAdd LegGen LapModel LapSpec LapArrays LapProofs.
Import ListNotations.
Open Scope R_scope.

(** legendre_Plm stores the associated Legendre function of degree i and order m at
    i (i + 1) / 2 + m, stays inside an array of (n + 1) (n + 2) / 2 entries and leaves the rest
    of a longer one alone. *)
Theorem C58_legendre : forall n x P, -1 <= x <= 1 -> ((n + 1) * (n + 2) / 2 <= length P)%nat ->
  exists P', legendre_Plm n x P = Ok P' /\ length P' = length P /\
    (forall i m, (m <= i <= n)%nat -> nth_error P' (i * (i + 1) / 2 + m) = Some (assoc_legendre i m x)) /\
    (forall k, ((n + 1) * (n + 2) / 2 <= k)%nat -> nth_error P' k = nth_error P k).
Proof.
  intros n x P Hx HL. rewrite size_tri in *. destruct (plm_frame n x Hx P P) as (P' & E & L & (_ & F) & H); [split; [exact HL|reflexivity]|].
  exists P'. split; [exact E|]. split; [exact L|]. split; [|exact F]. intros i m B. rewrite <- Q_assoc. apply H, B.
Qed.
Print Assumptions C58_legendre.

(** Every entry of such an array is one of those. *)
Theorem C58_all_entries : forall n k, (k < (n + 1) * (n + 2) / 2)%nat -> exists i m, (m <= i <= n)%nat /\ k = (i * (i + 1) / 2 + m)%nat.
Proof. intros n k H. rewrite size_tri in H. exact (midx_onto n k H). Qed.
Print Assumptions C58_all_entries.

(** Outside [-1, 1] the square root has no value. *)
Theorem C58_outside : forall n x P, x < -1 \/ 1 < x -> legendre_Plm n x P = Fail DivZero.
Proof. intros n x P H. unfold legendre_Plm, rsqrt. destruct (Rlt_dec (1 - x * x) 0) as [C|C]; [reflexivity|]. exfalso. apply C. nra. Qed.
Print Assumptions C58_outside.

(** The table of square roots of factorials. *)
Theorem C58_sqf : forall p, exists a, generate_sqf p = Ok a /\ length a = (2 * p + 3)%nat /\ forall i, (i < 2 * p + 3)%nat -> nth_error a i = Some (sqrt (INR (fact i))).
Proof. exact sqf_ok. Qed.
Print Assumptions C58_sqf.

Example C58_nonvacuous : exists P', legendre_Plm 2 (3 / 5) (repeat 0 7) = Ok P' /\ nth_error P' 1 = Some (3 / 5) /\ nth_error P' 2 = Some (- (4 / 5)) /\ nth_error P' 3 = Some (1 / 25) /\ nth_error P' 5 = Some (48 / 25) /\ nth_error P' 6 = Some 0.
Proof.
  destruct (C58_legendre 2 (3 / 5) (repeat 0 7)) as (P' & E & _ & H & F); [lra|cbn; lia|]. exists P'. split; [exact E|].
  assert (S : sqrt (1 - 3 / 5 * (3 / 5)) = 4 / 5) by (replace (1 - 3 / 5 * (3 / 5)) with (4 / 5 * (4 / 5)) by lra; apply sqrt_square; lra).
  assert (V : forall i m k v, (m <= i <= 2)%nat -> (i * (i + 1) / 2 + m = k)%nat -> (-1) ^ m * (4 / 5) ^ m * D i m (3 / 5) = v -> nth_error P' k = Some v).
  { intros i m k v B <- <-. rewrite H by exact B. unfold assoc_legendre. rewrite D_derive_n, S. reflexivity. }
  pose proof (D_rec 0 0 (3 / 5)) as D20. rewrite D_1_0, D_0_0 in D20. simpl INR in D20. pose proof (D_diag 1 (3 / 5)) as D22. rewrite D_1_1 in D22. simpl INR in D22.
  split; [apply (V 1%nat 0%nat); [lia|reflexivity|rewrite D_1_0; simpl pow; lra]|].
  split; [apply (V 1%nat 1%nat); [lia|reflexivity|rewrite D_1_1; simpl pow; lra]|].
  split; [apply (V 2%nat 0%nat); [lia|reflexivity|simpl pow; lra]|].
  split; [apply (V 2%nat 2%nat); [lia|reflexivity|rewrite D22; simpl pow; lra]|].
  rewrite F by (cbn; lia). reflexivity.
Qed.

(** S_to_M followed by M_to_T.  The sources lie within [a] of the centre, the target outside.
    The result differs from the potential of the sources by the truncation error of an
    expansion of degree p, whatever the scale. *)
Theorem C59_multipole : forall p sqf scale c l a, generate_sqf p = Ok sqf -> scale <> 0 -> (forall s, In s l -> 0 < dist c (cpos s) <= a) ->
  exists M l', S_to_M p sqf scale c l = Ok M /\ seen_charges c l l' /\ forall t phi, 0 <= a < dist c t ->
    exists v t', M_to_T p sqf scale c M t phi = Ok (phi + v) /\ seen c t t' /\
      Rabs (v - coulomb l' t') <= total_charge l / (dist c t - a) * (a / dist c t) ^ (p + 1).
Proof.
  intros p sqf scale c l a HT Hs Hl. destruct (multipole p sqf scale c l a HT Hs Hl) as (M & E & H). exists M, (moved c l). split; [exact E|].
  split; [apply moved_seen; intros; apply Hl; assumption|]. intros t phi Ha. destruct (H t phi Ha) as (v & Ev & B). exists v, (place c t). split; [exact Ev|]. rewrite Nat.add_1_r. split; [apply place_seen; lra|exact B].
Qed.
Print Assumptions C59_multipole.

(** S_to_L followed by L_to_T: the sources outside, the target inside. *)
Theorem C59_local : forall p sqf scale c l a, generate_sqf p = Ok sqf -> scale <> 0 -> 0 < a -> (forall s, In s l -> a <= dist c (cpos s)) ->
  exists L l', S_to_L p sqf scale c l = Ok L /\ seen_charges c l l' /\ forall t phi, 0 < dist c t < a ->
    exists v t', L_to_T p sqf scale c L t phi = Ok (phi + v) /\ seen c t t' /\
      Rabs (v - coulomb l' t') <= total_charge l / (a - dist c t) * (dist c t / a) ^ (p + 1).
Proof.
  intros p sqf scale c l a HT Hs Ha Hl. destruct (local_exp p sqf scale c l a HT Hs Hl Ha) as (M & E & H). exists M, (moved c l). split; [exact E|].
  split; [apply moved_seen; intros s Hin; pose proof (Hl s Hin); lra|]. intros t phi Ht. destruct (H t phi Ht) as (v & Ev & B). exists v, (place c t). split; [exact Ev|]. rewrite Nat.add_1_r. split; [apply place_seen; lra|exact B].
Qed.
Print Assumptions C59_local.

(** Away from the directions the code rounds, the positions are the ones given. *)
Lemma seen_regular c l l' : seen_charges c l l' -> (forall s, In s l -> regular c (cpos s)) -> l' = l.
Proof.
  intros H. induction H as [|s s' l l' [Hq (_ & _ & Hr)] _ IH]; intros R; [reflexivity|]. f_equal; [|apply IH; intros; apply R; right; assumption].
  specialize (Hr (R s (or_introl eq_refl))). destruct s, s'. cbn in *. congruence.
Qed.

Theorem C59_multipole_regular : forall p sqf scale c l a t phi, generate_sqf p = Ok sqf -> scale <> 0 -> 0 <= a < dist c t -> regular c t ->
  (forall s, In s l -> dist c (cpos s) <= a /\ regular c (cpos s)) ->
  exists M v, S_to_M p sqf scale c l = Ok M /\ M_to_T p sqf scale c M t phi = Ok (phi + v) /\
    Rabs (v - coulomb l t) <= total_charge l / (dist c t - a) * (a / dist c t) ^ (p + 1).
Proof.
  intros p sqf scale c l a t phi HT Hs Ha Rt Hl. assert (T : 0 < / 10 ^ 14) by (apply Rinv_0_lt_compat, pow_lt; lra).
  destruct (C59_multipole p sqf scale c l a HT Hs) as (M & l' & E & Hl' & H); [intros s Hin; destruct (Hl s Hin) as [B [C _]]; lra|].
  destruct (H t phi Ha) as (v & t' & Ev & (_ & _ & Ht) & B). rewrite (seen_regular c l l' Hl' ltac:(intros; apply Hl; assumption)), (Ht Rt) in B. eauto.
Qed.
Print Assumptions C59_multipole_regular.

Theorem C59_local_regular : forall p sqf scale c l a t phi, generate_sqf p = Ok sqf -> scale <> 0 -> dist c t < a -> regular c t ->
  (forall s, In s l -> a <= dist c (cpos s) /\ regular c (cpos s)) ->
  exists L v, S_to_L p sqf scale c l = Ok L /\ L_to_T p sqf scale c L t phi = Ok (phi + v) /\
    Rabs (v - coulomb l t) <= total_charge l / (a - dist c t) * (dist c t / a) ^ (p + 1).
Proof.
  intros p sqf scale c l a t phi HT Hs Ha Rt Hl. assert (T : 0 < / 10 ^ 14) by (apply Rinv_0_lt_compat, pow_lt; lra). assert (0 < dist c t) by (destruct Rt; lra).
  destruct (C59_local p sqf scale c l a HT Hs) as (M & l' & E & Hl' & H0); [lra|intros s Hin; apply Hl, Hin|].
  destruct (H0 t phi) as (v & t' & Ev & (_ & _ & Ht) & B); [lra|]. rewrite (seen_regular c l l' Hl' ltac:(intros; apply Hl; assumption)), (Ht Rt) in B. eauto.
Qed.
Print Assumptions C59_local_regular.

(** Adding the expansions of two sets of sources gives the expansion of both together. *)
Theorem C59_adds : forall p sqf scale c l1 l2, generate_sqf p = Ok sqf -> scale <> 0 -> (forall s, In s (l1 ++ l2) -> cpos s <> c) ->
  (exists M1 M2 M, S_to_M p sqf scale c l1 = Ok M1 /\ S_to_M p sqf scale c l2 = Ok M2 /\ S_to_M p sqf scale c (l1 ++ l2) = Ok M /\ add_expansion M1 M2 = Ok M) /\
  (exists L1 L2 L, S_to_L p sqf scale c l1 = Ok L1 /\ S_to_L p sqf scale c l2 = Ok L2 /\ S_to_L p sqf scale c (l1 ++ l2) = Ok L /\ add_expansion L1 L2 = Ok L).
Proof.
  intros p sqf scale c l1 l2 HT Hs H. apply table_ok in HT. split; apply adds_app; intros s Hin; [apply m_adds|apply l_adds]; auto.
Qed.
Print Assumptions C59_adds.

Example C59_nonvacuous : let c := mkPt 1 1 1 in let l := [mkCharge 2 (mkPt 2 1 1); mkCharge (-3) (mkPt 1 1 2)] in let t := mkPt 4 5 1 in
  forall sqf, generate_sqf 9 = Ok sqf -> exists M v, S_to_M 9 sqf (/ 8) c l = Ok M /\ M_to_T 9 sqf (/ 8) c M t 7 = Ok (7 + v) /\ Rabs (v - coulomb l t) <= 5 / 4 * (1 / 5) ^ 10.
Proof.
  cbv zeta. intros sqf HT. set (c := mkPt 1 1 1).
  assert (D1 : dist c (mkPt 2 1 1) = 1) by (unfold dist, c; cbn [px py pz]; replace (_ + _ + _) with (1 * 1) by ring; apply sqrt_square; lra).
  assert (D2 : dist c (mkPt 1 1 2) = 1) by (unfold dist, c; cbn [px py pz]; replace (_ + _ + _) with (1 * 1) by ring; apply sqrt_square; lra).
  assert (D3 : dist c (mkPt 4 5 1) = 5) by (unfold dist, c; cbn [px py pz]; replace (_ + _ + _) with (5 * 5) by ring; apply sqrt_square; lra).
  assert (O1 : off_axis c (mkPt 2 1 1) = 1) by (unfold off_axis, c; cbn [px py pz]; replace (_ + _) with (1 * 1) by ring; apply sqrt_square; lra).
  assert (O2 : off_axis c (mkPt 1 1 2) = 0) by (unfold off_axis, c; cbn [px py pz]; replace (_ + _) with 0 by ring; apply sqrt_0).
  assert (O3 : off_axis c (mkPt 4 5 1) = 5) by (unfold off_axis, c; cbn [px py pz]; replace (_ + _) with (5 * 5) by ring; apply sqrt_square; lra).
  assert (T : 0 < / 10 ^ 14 < 1) by (split; [apply Rinv_0_lt_compat, pow_lt; lra|]; rewrite <- Rinv_1; apply Rinv_lt_contravar; [rewrite Rmult_1_l; apply pow_lt; lra|apply Rlt_pow_R1; [lra|lia]]).
  destruct (C59_multipole_regular 9 sqf (/ 8) c [mkCharge 2 (mkPt 2 1 1); mkCharge (-3) (mkPt 1 1 2)] 1 (mkPt 4 5 1) 7 HT) as (M & v & E & Ev & B).
  - lra.
  - rewrite D3. lra.
  - split; [rewrite D3; lra|]. right. rewrite D3, O3. lra.
  - intros s [<-|[<-|[]]]; cbn [cpos]; unfold regular; rewrite ?D1, ?D2, ?O1, ?O2; lra.
  - exists M, v. split; [exact E|]. split; [exact Ev|]. eapply Rle_trans; [exact B|]. rewrite D3. unfold total_charge. cbn [fold_right cq].
    rewrite (Rabs_right 2), (Rabs_left (-3)) by lra. right. change (9 + 1)%nat with 10%nat. field.
Qed.

(** A source exactly at the centre of its box has no expansion: the code divides zero by zero
    and every coefficient of order above zero is a NaN. *)
Theorem C60_source_at_centre_refuted : forall p sqf scale c l s, In s l -> cpos s = c ->
  (exists e, S_to_M p sqf scale c l = Fail e) /\ (exists e, S_to_L p sqf scale c l = Fail e).
Proof.
  intros p sqf scale c l s Hin E. split; apply fold_fails with (x := s); try exact Hin; intros M; rewrite E.
  - unfold lap_s_to_m. rewrite !set_res_ok by (rewrite repeat_length; lia). cbn [bind]. rewrite angles_centre. reflexivity.
  - unfold lap_s_to_l. rewrite !set_res_ok by (rewrite repeat_length; lia). cbn [bind]. rewrite angles_centre. reflexivity.
Qed.
Print Assumptions C60_source_at_centre_refuted.

(** So is a target at the centre lost, although the local expansion is best there. *)
Theorem C60_target_at_centre_refuted : forall p sqf scale c M phi, M_to_T p sqf scale c M c phi = Fail DivZero /\ L_to_T p sqf scale c M c phi = Fail DivZero.
Proof.
  intros p sqf scale c M phi. unfold M_to_T, L_to_T, lap_m_to_t, lap_l_to_t. rewrite !set_res_ok by (rewrite repeat_length; lia). cbn [bind]. rewrite angles_centre. split; reflexivity.
Qed.
Print Assumptions C60_target_at_centre_refuted.

(** The centre is the only such place. *)
Theorem C60_only_centre : forall p sqf scale c l, generate_sqf p = Ok sqf -> scale <> 0 ->
  ((exists M, S_to_M p sqf scale c l = Ok M) <-> forall s, In s l -> cpos s <> c) /\ ((exists L, S_to_L p sqf scale c l = Ok L) <-> forall s, In s l -> cpos s <> c).
Proof.
  intros p sqf scale c l HT Hs. split; split.
  - intros [M E] s Hin Es. destruct (C60_source_at_centre_refuted p sqf scale c l s Hin Es) as [[e F] _]. congruence.
  - intros H. destruct (C59_adds p sqf scale c l [] HT Hs) as [(M & _ & _ & E & _) _]; [rewrite app_nil_r; exact H|]. eauto.
  - intros [M E] s Hin Es. destruct (C60_source_at_centre_refuted p sqf scale c l s Hin Es) as [_ [e F]]. congruence.
  - intros H. destruct (C59_adds p sqf scale c l [] HT Hs) as [_ (M & _ & _ & E & _)]; [rewrite app_nil_r; exact H|]. eauto.
Qed.
Print Assumptions C60_only_centre.

Example C60_nonvacuous : exists e, S_to_M 9 [] 1 (mkPt (1 / 2) (1 / 2) (1 / 2)) [mkCharge 1 (mkPt (1 / 2) (1 / 2) (1 / 2))] = Fail e.
Proof. eapply C60_source_at_centre_refuted; [left; reflexivity|reflexivity]. Qed.
