(** The exponential expansions of the Laplace kernel: C67 to C71. *)
From Coq Require Import Reals List Lia Lra ZArith Psatz Arith.
From Coquelicot Require Import Coquelicot.
From Verif Require Import Base ListFacts IndexModel LegSpec LegProofs LegAdd LapModel LapSpec LapArrays LapProofs SolidProofs SolidAdd SolidPair SolidTrans SolidMtl TranModel TranSpec TranArrays TranOps TranField TranMove TranDmat TranTable TranEval TranProofs TranProps DagSpec MergeShiftModel MergeShiftSpec MergeShiftProofs WaveModel WaveSpec WaveAlg WaveTab WaveUp WaveFrom WaveShift WaveInto WaveChain.
Import ListNotations.
Open Scope R_scope.

(** ** the tables *)
Lemma digits_cases n wt : wave_table n = Ok wt -> exists q p, members n = Ok q /\ nth_error expan_length n = Some p /\ qok q /\ wt = the_waves q p /\ (n = 3 \/ n = 6 \/ n = 9)%nat.
Proof.
  unfold wave_table. destruct (nth_res expan_length n) as [p|] eqn:Ep; [|discriminate]. cbn [bind]. assert (Np : nth_error expan_length n = Some p) by (unfold nth_res in Ep; destruct (nth_error expan_length n); [injection Ep as <-; reflexivity|discriminate]).
  destruct (members n) as [q|] eqn:Eq; [|discriminate]. cbn [bind]. assert (K : (n = 3 \/ n = 6 \/ n = 9)%nat) by (do 10 (destruct n as [|n]; [first [discriminate Eq|lia]|]); discriminate Eq).
  assert (Qk : qok q) by (destruct K as [->|[->| ->]]; injection Eq as <-; [apply case_3_ok|apply case_9_ok|apply case_9_ok]).
  rewrite (waves_ok q p Qk). intros H. injection H as <-. exists q, p. auto 10.
Qed.
Lemma both_tables n tb wt : laplace_table n = Ok tb -> wave_table n = Ok wt -> sound tb /\ qok (w_q wt) /\ wt = the_waves (w_q wt) (tb_p tb).
Proof.
  intros Et Ew. destruct (digits_cases n wt Ew) as (q & p & Eq & Ep & Qk & -> & K). unfold laplace_table, nth_res in Et. rewrite Ep in Et. cbn [bind] in Et.
  assert (Hp : (1 <= p)%nat) by (destruct K as [->|[->| ->]]; cbn in Ep; injection Ep as <-; lia). destruct (table_good p tb Hp Et) as [<- HS]. auto.
Qed.

(** For 3, 6 and 9 digits the constructor makes the tables without leaving an array, and all
    entries the expansions use are the exponentials they should be. *)
Theorem C67_table : forall n, (n = 3 \/ n = 6 \/ n = 9)%nat -> exists p wt, nth_error expan_length n = Some p /\ wave_table n = Ok wt /\
  let q := w_q wt in q = (if (n =? 3)%nat then case_3 else case_9) /\ place q (q_s q) = q_nexp q /\
  forall k, (k < q_s q)%nat -> nth_error (q_sm q) k = Some (place q k) /\ (2 <= cnt q k)%nat /\ Nat.even (cnt q k) = true /\
    (forall j x, (1 <= j <= cnt q k / 2)%nat -> (-3 <= x <= 3)%Z ->
       nth_resZ (w_xs wt) (Z.of_nat ((place q k + (j - 1)) * 7 + 3) + x) = Ok (cis (len q k * IZR x * cos (ang q k j))) /\
       nth_resZ (w_ys wt) (Z.of_nat ((place q k + (j - 1)) * 7 + 3) + x) = Ok (cis (len q k * IZR x * sin (ang q k j)))) /\
    (forall z, (0 <= z <= 3)%Z -> nth_resZ (w_zs wt) (4 * Z.of_nat k + z) = Ok (exp (- len q k * IZR z))) /\
    (forall d m, (m <= d <= p)%nat -> nth_res (w_knm wt) (k * ((p + 1) * (p + 2) / 2) + (d * (d + 1) / 2 + m)) = Ok (len q k ^ d / sqrt (INR (fact (d - m))) / sqrt (INR (fact (d + m))))) /\
    exists at_k, nth_error (q_smf q) k = Some at_k /\ forall j m, (1 <= j <= cnt q k / 2)%nat -> (1 <= m <= frq q k)%nat ->
      nth_res (w_ealphaj wt) (at_k + (j - 1) * frq q k + (m - 1)) = Ok (cis (INR m * ang q k j)).
Proof.
  intros n Hn. assert (X : exists p q, nth_error expan_length n = Some p /\ members n = Ok q /\ qok q /\ q = if (n =? 3)%nat then case_3 else case_9).
  { destruct Hn as [->|[->| ->]]; do 2 eexists; (split; [reflexivity|]); (split; [reflexivity|]); (split; [first [exact case_3_ok|exact case_9_ok]|reflexivity]). }
  destruct X as (p & q & Ep & Eq & Qk & Iq). exists p, (the_waves q p). split; [exact Ep|]. split; [unfold wave_table, nth_res; rewrite Ep, Eq; cbn [bind]; apply waves_ok, Qk|]. cbn [w_q the_waves w_xs w_ys w_zs w_knm w_ealphaj].
  split; [exact Iq|]. split; [apply (k_nexp q Qk)|]. intros k Hk. split; [apply (k_sm q Qk); lia|]. split; [apply (k_pos q Qk k Hk)|]. split; [apply Nat.even_spec; exists (cnt q k / 2)%nat; apply (k_even q Qk k Hk)|]. split; [|split; [|split]].
  - intros j x Hj Hx. pose proof (xy_get q cos k (j - 1) x Hk ltac:(lia) Hx) as A. pose proof (xy_get q sin k (j - 1) x Hk ltac:(lia) Hx) as B. replace (S (j - 1)) with j in A, B by lia. split; assumption.
  - intros z Hz. apply z_get; assumption.
  - intros d m Hm. apply (knm_get q p k d m Hk Hm).
  - exists (fplace q k). split; [apply (k_smf q Qk); lia|]. intros j m Hj Hm. apply (ea_get q k j m Hk Hj Hm).
Qed.
Print Assumptions C67_table.

(** Any other number of digits reads members that were never assigned. *)
Theorem C67_digits_refuted : forall n, (1 <= n <= 14)%nat -> n <> 3%nat -> n <> 6%nat -> n <> 9%nat -> (exists tb, laplace_table n = Ok tb) /\ wave_table n = Fail BadOp.
Proof.
  intros n H N3 N6 N9. split; [destruct (C61_table n H) as (tb & E & _); eauto|]. unfold wave_table, nth_res. assert (E : exists p, nth_error expan_length n = Some p) by (destruct (nth_error expan_length n) eqn:E; [eauto|apply nth_error_None in E; cbn in E; lia]).
  destruct E as [p ->]. cbn [bind]. do 15 (destruct n as [|n]; [first [reflexivity|congruence|lia]|]). lia.
Qed.
Print Assumptions C67_digits_refuted.

(** 6 digits get the quadrature of 9 digits, after that of 6 was made; its six arrays are
    lost.  The other two are freed. *)
Theorem C67_six_refuted : members 6 = Ok case_9 /\ members 6 = members 9 /\ In case_6 (run_switch 6) /\ q_nexp case_6 <> q_nexp case_9 /\
  arrays_made 6 = (arrays_freed + 6)%nat /\ arrays_made 3 = arrays_freed /\ arrays_made 9 = arrays_freed.
Proof. repeat split; try reflexivity; [left; reflexivity|discriminate]. Qed.
Print Assumptions C67_six_refuted.

Example C67_nonvacuous : exists wt, wave_table 3 = Ok wt /\ nth_resZ (w_zs wt) 3 = Ok (exp (- len case_3 0 * 3)) /\ nth_resZ (w_xs wt) 6 = Ok (cis (len case_3 0 * 3 * cos (ang case_3 0 1))) /\ cnt case_3 0 = 4%nat.
Proof.
  destruct (C67_table 3 ltac:(left; reflexivity)) as (p & wt & _ & E & Iq & _ & H). exists wt. split; [exact E|]. cbn [Nat.eqb] in Iq. rewrite Iq in H. destruct (H 0%nat ltac:(cbn; lia)) as (_ & _ & _ & X & Z & _).
  split; [exact (Z 3%Z ltac:(lia))|]. split; [exact (proj1 (X 1%nat 3%Z ltac:(cbn; lia) ltac:(lia)))|reflexivity].
Qed.

(** ** M_to_I *)

(** The series of a wave without the high frequencies exists and is unique. *)
Theorem C68_wave : forall p f lam v, (exists h, wave p f lam v h) /\ forall h h', wave p f lam v h -> wave p f lam v h' -> forall a, h a = h' a.
Proof.
  intros p f lam v. split; [exists (lp (sgn MZ * lam) (turn MZ (tov v)) p f); exact (wave_lp MZ p f lam v)|]. intros h h' H H' a. exact (lowpass_unique _ _ _ _ H H' a).
Qed.
Print Assumptions C68_wave.
(** With all frequencies it is the power series. *)
Theorem C68_all_frequencies : forall p lam v h, wave p p lam v h -> forall a, h a = exp_upto p (exponent lam v a).
Proof.
  intros p lam v h H a. rewrite (wave_is_lp MZ p p lam v h a H), lp_exp. f_equal. symmetry. apply (along_zeta MZ lam v a).
Qed.
Print Assumptions C68_all_frequencies.

(** M_to_I makes six views; that of direction [d] holds, for each length and angle, the
    weighted sum of the charges' waves from the middle of the box. *)
Theorem C68_M_to_I : forall n tb wt corner size i l M, laplace_table n = Ok tb -> wave_table n = Ok wt -> 0 < size -> upward tb corner size i l M ->
  let q := w_q wt in
  exists views, M_to_I tb wt M = Ok views /\ length views = 6%nat /\ forall d, exists E, nth_error views (Z.to_nat (fst (waves Lap d))) = Some E /\
    forall h, (forall k s, In s l -> wave (tb_p tb) (frq q k) (len q k) (along d (units (side size (ilevel i)) (middle corner size i) (cpos s))) (h k s)) ->
      holds_waves q E (fun k j => RtoC (wgt q k / INR (cnt q k)) * over l (fun s => h k s (ang q k j)))%C.
Proof.
  intros n tb wt corner size i l M Et Ew Hs HU q. destruct (both_tables n tb wt Et Ew) as (HS & Qk & Ewt). fold q in Qk, Ewt. rewrite Ewt.
  destruct (box_waves q tb corner size Qk HS Hs i l M HU) as (views & EM & LV & H). exists views. split; [exact EM|]. split; [exact LV|]. intros d. destruct (H d) as (E & HE & G). exists E. split; [|exact G]. destruct d; exact HE.
Qed.
Print Assumptions C68_M_to_I.

Lemma ex_tables n : (n = 3 \/ n = 6 \/ n = 9)%nat -> exists tb wt, laplace_table n = Ok tb /\ wave_table n = Ok wt /\ tb_p tb = nth n expan_length 0%nat /\ table_of_order (tb_p tb) = Ok tb.
Proof.
  intros H. destruct (C67_table n H) as (p & wt & Ep & Ew & _). destruct (C61_table n ltac:(lia)) as (tb & Et & Ep' & Eo & _). exists tb, wt. split; [exact Et|]. split; [exact Ew|]. split; [symmetry; apply nth_error_nth, Ep'|exact Eo].
Qed.
Example C68_nonvacuous : exists tb wt M views E h, laplace_table 3 = Ok tb /\ wave_table 3 = Ok wt /\ upward tb ex_corner 8 (child 0 ex_box) [ex_charge] M /\ M_to_I tb wt M = Ok views /\ nth_error views 5 = Some E /\
  wave 9 (frq (w_q wt) 0) (len (w_q wt) 0) (mkPt 0 0 (1 / 4)) h /\ nth_error E 0 = Some (RtoC (wgt (w_q wt) 0 / INR (cnt (w_q wt) 0)) * (RtoC 2 * h (ang (w_q wt) 0 1)))%C.
Proof.
  destruct (ex_tables 3 ltac:(lia)) as (tb & wt & Et & Ew & Ep & Eo). change (nth 3 expan_length 0%nat) with 9%nat in Ep. rewrite Ep in Eo. destruct (ex_child tb Eo) as [M HM]. exists tb, wt, M.
  destruct (C68_M_to_I 3 tb wt ex_corner 8 _ _ M Et Ew ltac:(lra) HM) as (views & EV & LV & H). destruct (H MZ) as (E & HE & G). destruct (C67_table 3 ltac:(lia)) as (_ & wt' & _ & Ew' & Iq & _). rewrite Ew in Ew'. injection Ew' as <-. cbn [Nat.eqb] in Iq.
  set (q := w_q wt) in *. set (v := along MZ (units (side 8 (ilevel (child (Z.of_nat 0) ex_box))) (middle ex_corner 8 (child (Z.of_nat 0) ex_box)) (cpos ex_charge))).
  assert (Ev : v = mkPt 0 0 (1 / 4)) by (unfold v; rewrite ex_mid1; change (ilevel _) with 3%Z; rewrite ex_side3; unfold along, units, ex_charge; cbn [px py pz cpos]; f_equal; field).
  exists views, E, (lp (sgn MZ * len q 0) (turn MZ (tov v)) 9 (frq q 0)). split; [exact Et|]. split; [exact Ew|]. split; [exact HM|]. split; [exact EV|]. split; [exact HE|]. split; [rewrite <- Ev; exact (wave_lp MZ 9 (frq q 0) (len q 0) v)|].
  rewrite Ep in G. destruct (G (fun k _ => lp (sgn MZ * len q k) (turn MZ (tov v)) 9 (frq q k))) as (_ & _ & K); [intros k s [<-|[]]; exact (wave_lp MZ 9 (frq q k) (len q k) v)|].
  rewrite Iq in K |- *. specialize (K 0%nat 1%nat ltac:(cbn; lia) ltac:(cbn; lia)). cbn [over fold_right] in K. change (place case_3 0 + (1 - 1))%nat with 0%nat in K. rewrite K. f_equal. cbn [cq ex_charge]. ring.
Qed.

(** ** e_to_e *)
Theorem C69_shift : forall n wt E F u w x y z, wave_table n = Ok wt -> let q := w_q wt in holds_waves q E u -> holds_waves q F w -> (-3 <= x <= 3)%Z -> (-3 <= y <= 3)%Z -> (0 <= z <= 3)%Z ->
  exists G, lap_e_to_e wt E F x y z = Ok G /\ holds_waves q G (fun k j => u k j + w k j * cexp (exponent (len q k) (mkPt (IZR x) (IZR y) (IZR z)) (ang q k j)))%C.
Proof.
  intros n wt E F u w x y z Ew q HE HF Hx Hy Hz. destruct (digits_cases n wt Ew) as (q' & p & _ & _ & Qk & -> & _). cbn [w_q the_waves] in q. subst q. rewrite (holds_list _ _ _ HE), (holds_list _ _ _ HF).
  eexists. split; [apply (e_to_e_ok q' p Qk); assumption|]. apply list_holds, (k_nexp q' Qk).
Qed.
Print Assumptions C69_shift.
(** Shifting twice is shifting by the sum. *)
Theorem C69_twice : forall n wt F x y z x' y' z', wave_table n = Ok wt -> let q := w_q wt in let zero := repeat (0, 0) (q_nexp q) in length F = q_nexp q ->
  (-3 <= x <= 3 /\ -3 <= x' <= 3 /\ -3 <= x + x' <= 3)%Z -> (-3 <= y <= 3 /\ -3 <= y' <= 3 /\ -3 <= y + y' <= 3)%Z -> (0 <= z /\ 0 <= z' /\ z + z' <= 3)%Z ->
  exists G H, lap_e_to_e wt zero F x y z = Ok G /\ lap_e_to_e wt zero G x' y' z' = Ok H /\ lap_e_to_e wt zero F (x + x') (y + y') (z + z') = Ok H.
Proof.
  intros n wt F x y z x' y' z' Ew q zero HF Hx Hy Hz. destruct (digits_cases n wt Ew) as (q' & p & _ & _ & Qk & -> & _). cbn [w_q the_waves] in q. subst q. destruct (any_holds q' F (k_nexp q' Qk) HF) as [w Hw]. apply holds_list in Hw. subst F.
  unfold zero. rewrite <- (zeros q' Qk (fun _ _ => (0, 0))) by reflexivity. do 2 eexists. split; [apply (e_to_e_ok q' p Qk); lia|]. split; [apply (e_to_e_ok q' p Qk); lia|]. rewrite (e_to_e_ok q' p Qk) by lia. f_equal. apply wave_list_ext. intros k j _ _. rewrite <- sfac_add. set (a := sfac q' x y z k j). set (b := sfac q' x' y' z' k j). change (@eq C) with (@eq (R * R)).
  apply injective_projections; unfold Cmult, Cplus; cbn [fst snd]; ring.
Qed.
Print Assumptions C69_twice.
Example C69_nonvacuous : exists wt G, wave_table 9 = Ok wt /\ let q := w_q wt in lap_e_to_e wt (repeat (0, 0) (q_nexp q)) (repeat (1, 0) (q_nexp q)) 3 (-2) 2 = Ok G /\
  nth_error G 0 = Some (0 + RtoC 1 * cexp (exponent (len q 0) (mkPt 3 (-2) 2) (ang q 0 1)))%C.
Proof.
  destruct (C67_table 9 ltac:(lia)) as (p & wt & _ & E & Iq & Pl & _). exists wt. cbn [Nat.eqb] in Iq. rewrite Iq in *. assert (H : forall c, holds_waves (w_q wt) (repeat c (q_nexp (w_q wt))) (fun _ _ => c)).
  { intros c. split; [apply repeat_length|]. rewrite Iq. split; [exact Pl|]. intros k j Hk Hj. apply nth_error_repeat. rewrite <- Pl. pose proof case_9_ok as Qk. clear - Hk Hj. assert (X : forall m, (k < m)%nat -> (place case_9 k + cnt case_9 k / 2 <= place case_9 m)%nat) by (induction m as [|m IH]; intros A; [lia|]; cbn [place]; destruct (Nat.eq_dec k m) as [<-|]; [lia|specialize (IH ltac:(lia)); lia]). specialize (X _ Hk). lia. }
  destruct (C69_shift 9 wt _ _ _ _ 3 (-2) 2 E (H (0, 0)) (H (1, 0)) ltac:(lia) ltac:(lia) ltac:(lia)) as (G & EG & _ & _ & HG). rewrite Iq in *. exists G. split; [exact E|]. cbv zeta. split; [exact EG|]. exact (HG 0%nat 1%nat ltac:(cbn; lia) ltac:(cbn; lia)).
Qed.

(** ** e_to_l *)
Lemma expansion_coefs p L : expansion p L -> coefs p (fun n m => nth (midx n m) L (0, 0)) L /\ reals p (fun n m => nth (midx n m) L (0, 0)).
Proof.
  intros [Len Hre]. split.
  - split; [rewrite Len; apply size_tri|]. intros n m B. apply nth_error_nth'. rewrite Len, size_tri. apply midx_lt; lia.
  - intros n Hn. destruct (Hre n Hn) as [v Ev]. unfold midx. rewrite Nat.add_0_r, (nth_error_nth _ _ _ Ev). reflexivity.
Qed.
Lemma coefs_expansion p c L : coefs p c L -> reals p c -> expansion p L.
Proof.
  intros [Len H] Hr. split; [rewrite Len; symmetry; apply size_tri|]. intros n Hn. exists (fst (c n 0%nat)). specialize (H n 0%nat ltac:(lia)). unfold midx in H. rewrite Nat.add_0_r in H. rewrite H. f_equal. rewrite (surjective_pairing (c n 0%nat)) at 1. f_equal. apply Hr, Hn.
Qed.
Lemma rtotal_rsum f n : rtotal f n = rsum f n. Proof. induction n as [|n IH]; [reflexivity|]. cbn [rtotal rsum]. rewrite IH. ring. Qed.

(** Whatever waves [E] holds and whatever [L] had, evaluating [L] afterwards gives twice the
    real part of the sum of the waves from the middle of the box more. *)
Theorem C70_e_to_l : forall n tb wt corner size u E e d L, laplace_table n = Ok tb -> wave_table n = Ok wt -> 0 < size -> let q := w_q wt in holds_waves q E e -> expansion (tb_p tb) L ->
  exists L', lap_e_to_l tb wt E (axis_of d) (plus_dir d) L = Ok L' /\ expansion (tb_p tb) L' /\
    forall x phi h, x <> middle corner size u ->
      (forall k, wave (tb_p tb) (frq q k) (len q k) (along d (units (side size (ilevel u)) (rounded (middle corner size u) x) (middle corner size u))) (h k)) ->
      exists v, L_to_T (tb_p tb) (tb_sqf tb) (level_scale size (ilevel u)) (box_center corner size u) L x phi = Ok v /\
        L_to_T (tb_p tb) (tb_sqf tb) (level_scale size (ilevel u)) (box_center corner size u) L' x phi =
          Ok (v + rtotal (fun k => rtotal (fun j => 2 * fst (e k (S j) * h k (ang q k (S j)))%C) (cnt q k / 2)) (q_s q)).
Proof.
  intros n tb wt corner size u E e d L Et Ew Hs q HE HL. destruct (both_tables n tb wt Et Ew) as (HS & Qk & Ewt). fold q in Qk, Ewt. rewrite Ewt. destruct (expansion_coefs _ _ HL) as [HC HR]. rewrite (holds_list _ _ _ HE).
  destruct (e_to_l_ok q tb Qk HS d e _ L HC) as (L' & c' & E' & HC' & HR' & HV). exists L'. split; [exact E'|]. split; [apply (coefs_expansion _ _ _ HC'); intros i Hi; unfold Cplus; cbn [snd]; rewrite (HR i Hi), (HR' i Hi); ring|].
  intros x phi h Hx Hh. assert (D1 : 0 < norm3 (point_sub x (box_center corner size u))) by (rewrite box_center_middle, norm3_dist; apply dist_pos, Hx).
  unfold L_to_T. rewrite (eval_l _ _ _ (level_scale size (ilevel u)) _ L (HT tb HS) HC D1 (scale_pos size Hs _)), (eval_l _ _ _ (level_scale size (ilevel u)) _ L' (HT tb HS) HC' D1 (scale_pos size Hs _)). cbn [bind]. rewrite (scaled_rel corner size Hs). eexists. split; [reflexivity|]. f_equal.
  rewrite val_plus, HV. rewrite Rplus_assoc. do 2 f_equal. unfold resum. etransitivity; [|symmetry; apply rtotal_rsum]. apply rsum_ext. intros k Hk. etransitivity; [|symmetry; apply rtotal_rsum]. apply rsum_ext. intros j Hj. do 3 f_equal. symmetry. apply (from_middle q tb corner size Hs d u _ k _ _ (Hh k)).
Qed.
Print Assumptions C70_e_to_l.

(** ** from the sources of the near boxes to the targets of a box *)

(** Every step that [merged] takes succeeds. *)
Theorem C71_total : forall n tb wt corner size t s l M V g, laplace_table n = Ok tb -> wave_table n = Ok wt -> 0 < size -> merged tb wt corner size t g V -> near_child t s -> upward tb corner size s l M ->
  exists views new V', M_to_I tb wt M = Ok views /\ I_to_I wt s t views = Ok new /\ add_views V new = Ok V'.
Proof.
  intros n tb wt corner size t s l M V g Et Ew Hs. destruct (both_tables n tb wt Et Ew) as (HS & Qk & ->). cbn [w_q the_waves]. apply (merged_total (w_q wt) tb corner size Qk HS Hs).
Qed.
Print Assumptions C71_total.
(** What a wave is worth is one number. *)
Theorem C71_worth : forall n tb wt corner size d s u y x, laplace_table n = Ok tb -> wave_table n = Ok wt -> exists v, arrives (w_q wt) (tb_p tb) corner size d s u y x v /\ forall v', arrives (w_q wt) (tb_p tb) corner size d s u y x v' -> v' = v.
Proof. intros n tb wt corner size d s u y x _ _. exists (worth (w_q wt) tb corner size d s u y x). split; [apply arrives_worth|apply arrives_unique]. Qed.
Print Assumptions C71_worth.

(** The child [u] of [t] gets, for every charge of the boxes that do not touch it, exactly
    what the quadrature makes of its wave in one of the directions in which the box is two or
    three boxes away; of the others it gets nothing. *)
Theorem C71_chain : forall n tb wt corner size t g V u, laplace_table n = Ok tb -> wave_table n = Ok wt -> 0 < size -> merged tb wt corner size t g V -> child_of t u -> ilevel u = (ilevel t + 1)%Z ->
  exists L (D : index -> dir), I_to_L tb wt (level_scale size (ilevel t)) u V = Ok L /\ expansion (tb_p tb) L /\
    (forall s l, In (s, l) g -> apart s u -> (2 <= snd (seen_by (D s) (ix s - ix u) (iy s - iy u) (iz s - iz u)) <= 3)%Z) /\
    forall x phi pot, x <> middle corner size u ->
      (forall s l c, In (s, l) g -> In c l -> (apart s u -> arrives (w_q wt) (tb_p tb) corner size (D s) s u (cpos c) (rounded (middle corner size u) x) (pot s c)) /\ (~ apart s u -> pot s c = 0)) ->
      L_to_T (tb_p tb) (tb_sqf tb) (level_scale size (ilevel u)) (box_center corner size u) L x phi = Ok (phi + / side size (ilevel u) * over_boxes g pot).
Proof.
  intros n tb wt corner size t g V u Et Ew Hs HM Hc Hl. destruct (both_tables n tb wt Et Ew) as (HS & Qk & Ewt). rewrite Ewt in HM |- *. cbn [w_q the_waves] in *.
  destruct (chain (w_q wt) tb corner size Qk HS Hs t g V u HM Hc Hl) as (L & EL & (c & HC & HR) & HD & HV). exists L, (fun s => the_dir s t u). split; [exact EL|]. split; [exact (coefs_expansion _ _ _ HC HR)|]. split; [exact HD|exact HV].
Qed.
Print Assumptions C71_chain.

Lemma afarb i j : ((2 <=? Z.abs (ix i - ix j)) || (2 <=? Z.abs (iy i - iy j)) || (2 <=? Z.abs (iz i - iz j)))%Z%bool = true <-> apart i j.
Proof.
  rewrite !Bool.orb_true_iff, !Z.leb_le. unfold apart. split.
  - intros [[H|H]|H]; [exists RefineModel.AX|exists RefineModel.AY|exists RefineModel.AZ]; exact H.
  - intros [[| |] H]; cbn [GeomModel.icoord] in H; auto.
Qed.
Lemma coulomb_app l1 l2 x : coulomb (l1 ++ l2) x = coulomb l1 x + coulomb l2 x.
Proof. unfold coulomb. induction l1 as [|c l IH]; cbn [app fold_right]; [ring|rewrite IH; ring]. Qed.
Lemma total_charge_app l1 l2 : total_charge (l1 ++ l2) = total_charge l1 + total_charge l2.
Proof. unfold total_charge. induction l1 as [|c l IH]; cbn [app fold_right]; [ring|rewrite IH; ring]. Qed.

(** If the quadrature is accurate to [eps] for these waves, so is the result. *)
Theorem C71_accuracy : forall n tb wt corner size t g V u eps x, laplace_table n = Ok tb -> wave_table n = Ok wt -> 0 < size -> merged tb wt corner size t g V -> child_of t u -> ilevel u = (ilevel t + 1)%Z ->
  regular (middle corner size u) x ->
  (forall s l c d v, In (s, l) g -> In c l -> (2 <= snd (seen_by d (ix s - ix u) (iy s - iy u) (iz s - iz u)) <= 3)%Z -> arrives (w_q wt) (tb_p tb) corner size d s u (cpos c) x v -> Rabs (v - side size (ilevel u) / dist x (cpos c)) <= eps) ->
  exists L, I_to_L tb wt (level_scale size (ilevel t)) u V = Ok L /\ forall phi, exists v, L_to_T (tb_p tb) (tb_sqf tb) (level_scale size (ilevel u)) (box_center corner size u) L x phi = Ok (phi + v) /\
    Rabs (v - coulomb (afar u g) x) <= eps * total_charge (afar u g) / side size (ilevel u).
Proof.
  intros n tb wt corner size t g V u eps x Et Ew Hs HM Hc Hl Hr Hq. destruct (C71_chain n tb wt corner size t g V u Et Ew Hs HM Hc Hl) as (L & D & EL & _ & HD & HV). exists L. split; [exact EL|]. intros phi.
  destruct (both_tables n tb wt Et Ew) as (HS & Qk & _). set (q := w_q wt) in *. pose proof (side_pos size (ilevel u) Hs) as P. set (h := side size (ilevel u)) in *.
  set (b := fun s => ((2 <=? Z.abs (ix s - ix u)) || (2 <=? Z.abs (iy s - iy u)) || (2 <=? Z.abs (iz s - iz u)))%Z%bool).
  set (pot := fun s c => if b s then worth q tb corner size (D s) s u (cpos c) x else 0). exists (/ h * over_boxes g pot). split.
  - apply HV.
    + intros ->. destruct Hr as [Hr _]. assert (T : 0 < / 10 ^ 14) by (apply Rinv_0_lt_compat, pow_lt; lra). assert (dist (middle corner size u) (middle corner size u) = 0) by (unfold dist; rewrite <- sqrt_0; f_equal; ring). lra.
    + intros s l c _ _. unfold pot. rewrite (regular_rounded _ _ Hr). split; intros Ha.
      * rewrite (proj2 (afarb s u) Ha : b s = true). apply arrives_worth.
      * destruct (b s) eqn:Eb; [exfalso; apply Ha, afarb, Eb|reflexivity].
  - assert (X : forall g', incl g' g -> Rabs (over_boxes g' pot - h * coulomb (afar u g') x) <= eps * total_charge (afar u g')).
    { induction g' as [|[s l] g' IH]; intros I; [cbn; rewrite Rmult_0_r, Rmult_0_r, Rminus_0_r, Rabs_R0; lra|]. specialize (IH (fun a H => I a (or_intror H))). rewrite over_boxes_sum in IH |- *. cbn [rlsum fst snd]. set (z := rlsum _ g') in *.
      unfold afar in IH |- *. cbn [flat_map fst snd]. fold (b s). set (r := flat_map _ g') in *. rewrite coulomb_app, total_charge_app.
      assert (Y : forall l', incl l' l -> Rabs (rlsum (fun c => cq c * pot s c) l' - h * coulomb (if b s then l' else []) x) <= eps * total_charge (if b s then l' else [])).
      { unfold pot. destruct (b s) eqn:Eb.
        - induction l' as [|c l' IHl]; intros J; [cbn; rewrite Rmult_0_r, Rmult_0_r, Rminus_0_r, Rabs_R0; lra|]. specialize (IHl (fun a H => J a (or_intror H))). cbn [rlsum]. unfold coulomb, total_charge in *. cbn [fold_right]. 
          assert (B : Rabs (worth q tb corner size (D s) s u (cpos c) x - h / dist x (cpos c)) <= eps) by (apply (Hq s l c (D s)); [apply I; left; reflexivity|apply J; left; reflexivity|apply (HD s l); [apply I; left; reflexivity|apply afarb, Eb]|apply arrives_worth]).
          set (w := worth _ _ _ _ _ _ _ _ _) in *. set (a := rlsum _ l') in *. set (co := fold_right _ 0 l') in IHl |- *. set (to := fold_right _ 0 l') in IHl |- *.
          eapply Rle_trans; [|eapply Rle_trans; [apply (Rplus_le_compat (Rabs (cq c) * Rabs (w - h / dist x (cpos c))) (Rabs (cq c) * eps)); [apply Rmult_le_compat_l; [apply Rabs_pos|exact B]|exact IHl]|right; ring]].
          rewrite <- Rabs_mult. eapply Rle_trans; [|apply Rabs_triang]. right. f_equal. unfold Rdiv. ring.
        - intros l' _. cbn. rewrite Rmult_0_r, Rmult_0_r, Rminus_0_r. right. replace (rlsum _ l') with 0; [apply Rabs_R0|]. clear. induction l' as [|c l IH]; cbn [rlsum]; [reflexivity|rewrite <- IH; ring]. }
      specialize (Y l (incl_refl l)). set (y := rlsum _ l) in *. eapply Rle_trans; [|eapply Rle_trans; [apply (Rplus_le_compat _ _ _ _ Y IH)|right; ring]]. eapply Rle_trans; [|apply Rabs_triang]. right. f_equal. ring. }
    specialize (X g (incl_refl g)). replace (/ h * over_boxes g pot - coulomb (afar u g) x) with (/ h * (over_boxes g pot - h * coulomb (afar u g) x)) by (field; lra). rewrite Rabs_mult, Rabs_inv, (Rabs_right h) by lra. unfold Rdiv. rewrite (Rmult_comm _ (/ h)). apply Rmult_le_compat_l; [left; apply Rinv_0_lt_compat, P|exact X].
Qed.
Print Assumptions C71_accuracy.

(** A box two boxes along x from the target box *)
Definition ex_t : index := mkIndex 1 0 0 2.
Definition ex_u : index := mkIndex 2 0 0 3.
Lemma ex_mid_u : middle ex_corner 8 ex_u = mkPt (5 / 2) (1 / 2) (1 / 2).
Proof. unfold middle. change (ilevel ex_u) with 3%Z. rewrite ex_side3. cbn. f_equal; lra. Qed.
Lemma ex_merged : exists tb wt V, laplace_table 3 = Ok tb /\ wave_table 3 = Ok wt /\ merged tb wt ex_corner 8 ex_t [(child 0 ex_box, [ex_charge])] V.
Proof.
  destruct (ex_tables 3 ltac:(lia)) as (tb & wt & Et & Ew & Ep & Eo). change (nth 3 expan_length 0%nat) with 9%nat in Ep. rewrite Ep in Eo. destruct (ex_child tb Eo) as [M HM]. exists tb, wt. assert (N : near_child ex_t (child (Z.of_nat 0) ex_box)) by (intros []; cbn; lia).
  destruct (C71_total 3 tb wt ex_corner 8 ex_t _ _ M _ [] Et Ew ltac:(lra) (mg_new _ _ _ _ _) N HM) as (views & new & V & E1 & E2 & E3). exists V. split; [exact Et|]. split; [exact Ew|]. exact (mg_add tb wt ex_corner 8 ex_t [] _ _ [ex_charge] M views new V (mg_new _ _ _ _ _) N eq_refl HM E1 E2 E3).
Qed.
Example C70_nonvacuous : exists tb wt L', laplace_table 3 = Ok tb /\ wave_table 3 = Ok wt /\ expansion 9 (new_expansion 9) /\ holds_waves (w_q wt) (repeat (1, 0) 57) (fun _ _ => RtoC 1) /\
  lap_e_to_l tb wt (repeat (1, 0) 57) AX true (new_expansion 9) = Ok L' /\ expansion 9 L'.
Proof.
  destruct (ex_tables 3 ltac:(lia)) as (tb & wt & Et & Ew & Ep & Eo). change (nth 3 expan_length 0%nat) with 9%nat in Ep. destruct (C67_table 3 ltac:(lia)) as (_ & wt' & _ & Ew' & Iq & Pl & _). rewrite Ew in Ew'. injection Ew' as <-. cbn [Nat.eqb] in Iq.
  assert (X : expansion 9 (new_expansion 9)) by (split; [reflexivity|]; intros n Hn; exists 0; unfold new_expansion; apply nth_error_repeat; change ((9 + 1) * (9 + 2) / 2)%nat with 55%nat; assert (n * (n + 1) / 2 < 55)%nat; [apply Nat.div_lt_upper_bound; [lia|nia]|lia]).
  assert (H : holds_waves (w_q wt) (repeat (1, 0) 57) (fun _ _ => RtoC 1)).
  { split; [rewrite repeat_length, Iq; reflexivity|]. split; [exact Pl|]. rewrite Iq. intros k j Hk Hj. apply nth_error_repeat. change 57%nat with (place case_3 9). change (q_s case_3) with 9%nat in Hk. assert (Y : forall m, (k < m)%nat -> (place case_3 k + cnt case_3 k / 2 <= place case_3 m)%nat) by (induction m as [|m IH]; intros A; [lia|]; cbn [place]; destruct (Nat.eq_dec k m) as [<-|]; [lia|specialize (IH ltac:(lia)); lia]). specialize (Y _ Hk). lia. }
  rewrite <- Ep in X. destruct (C70_e_to_l 3 tb wt ex_corner 8 ex_u _ _ PX _ Et Ew ltac:(lra) H X) as (L' & EL & XL & _). rewrite Ep in *. exists tb, wt, L'. auto 10.
Qed.
Example C71_nonvacuous : exists tb wt V L v, laplace_table 3 = Ok tb /\ wave_table 3 = Ok wt /\ merged tb wt ex_corner 8 ex_t [(child 0 ex_box, [ex_charge])] V /\ I_to_L tb wt (level_scale 8 2) ex_u V = Ok L /\
  arrives (w_q wt) 9 ex_corner 8 PX (child 0 ex_box) ex_u (cpos ex_charge) (mkPt (5 / 2) (1 / 2) 1) v /\
  L_to_T 9 (tb_sqf tb) (level_scale 8 3) (box_center ex_corner 8 ex_u) L (mkPt (5 / 2) (1 / 2) 1) 5 = Ok (5 + 2 * v) /\
  forall eps, Rabs (v - 1 / dist (mkPt (5 / 2) (1 / 2) 1) (cpos ex_charge)) <= eps -> Rabs (2 * v - coulomb [ex_charge] (mkPt (5 / 2) (1 / 2) 1)) <= eps * 2.
Proof.
  destruct ex_merged as (tb & wt & V & Et & Ew & HM). destruct (C61_table 3 ltac:(lia)) as (tb' & Et' & Ep & _). rewrite Et in Et'. injection Et' as <-. assert (P9 : tb_p tb = 9%nat) by (cbn in Ep; congruence).
  assert (Ap : apart (child 0 ex_box) ex_u) by (exists RefineModel.AX; cbn; lia).
  destruct (C71_chain 3 tb wt ex_corner 8 ex_t _ V ex_u Et Ew ltac:(lra) HM ltac:(intros []; cbn; lia) eq_refl) as (L & D & EL & _ & HD & HV).
  specialize (HD _ _ (or_introl eq_refl) Ap). assert (Dx : D (child 0 ex_box) = PX) by (destruct (D (child 0 ex_box)); cbn in HD; first [reflexivity|lia]).
  destruct (C71_worth 3 tb wt ex_corner 8 PX (child 0 ex_box) ex_u (cpos ex_charge) (mkPt (5 / 2) (1 / 2) 1) Et Ew) as (v & Hv & _). rewrite P9 in *. exists tb, wt, V, L, v.
  assert (Rg : regular (middle ex_corner 8 ex_u) (mkPt (5 / 2) (1 / 2) 1)) by (rewrite ex_mid_u; apply ex_up_regular; lra).
  split; [exact Et|]. split; [exact Ew|]. split; [exact HM|]. split; [exact EL|]. split; [exact Hv|]. split.
  - pose proof (HV (mkPt (5 / 2) (1 / 2) 1) 5 (fun _ _ => v)) as G. change (ilevel ex_u) with 3%Z in G. rewrite G.
    + f_equal. unfold over_boxes. cbn [fold_right fst snd cq ex_charge]. rewrite ex_side3. field.
    + rewrite ex_mid_u. intros F. injection F. lra.
    + intros s l c [E|[]] F. injection E as <- <-. destruct F as [<-|[]]. rewrite Dx. rewrite (regular_rounded _ _ Rg). split; [intros _; exact Hv|]. intros N. contradiction.
  - intros eps He. unfold coulomb. cbn [fold_right cq ex_charge]. change (cpos (mkCharge 2 _)) with (cpos ex_charge). set (dd := dist _ _) in *. replace (2 * v - (2 / dd + 0)) with (2 * (v - 1 / dd)) by (unfold Rdiv; ring). rewrite Rabs_mult, (Rabs_right 2) by lra. lra.
Qed.
