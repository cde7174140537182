(** C87: bessel_In, and the Yukawa expansions that use it. *)
From Coq Require Import Reals List Lia Lra.
From Verif Require Import Base LapModel LapSpec BesselSpec BesselProofs YukModel YukSpec YukBessel YukProps BesInModel BesInProofs.
Import ListNotations.
Open Scope R_scope.

(** bessel_In(nb, 0.5, x, 1, B) returns nb, and sqrt(PI / (2 x)) B[n] is the spherical function
    i_n(x) to fourteen digits. *)
Theorem C87_bessel_In : forall nb x, (1 <= nb <= 20)%nat -> / 10 ^ 4 <= x <= 10 ^ 2 -> exists vals, bessel_In nb x = Ok vals /\
  forall n, (n < nb)%nat -> exists v, nth_error vals n = Some v /\ Rabs (sqrt (PI / 2 / x) * v - sph_i n x) <= / 10 ^ 14 * sph_i n x.
Proof.
  intros nb x Hnb Hx. destruct (In_ok nb x Hnb Hx) as (vals & E & H). exists vals. split; [exact E|]. intros n Hn. destruct (H n Hn) as (v & Ev & C). exists v. split; [exact Ev|].
  assert (0 < / 10 ^ 4) by (apply Rinv_0_lt_compat, pow_lt; lra). rewrite ii_sph by lra. exact C.
Qed.
Print Assumptions C87_bessel_In.

(** The only value of Gamma it needs. *)
Theorem C87_gamma : exists g, Gamma (3 / 2) = Ok g /\ Rabs (g - sqrt PI / 2) <= / 10 ^ 18.
Proof.
  destruct gamma_ok as (g & E & H). pose proof root_PI as P. exists g. replace (3 / 2) with (alpha + 1) by (unfold alpha; lra). split; [exact E|]. unfold g_lo, g_hi in *. apply Rabs_le. lra.
Qed.
Print Assumptions C87_gamma.

(** Out of range it does not return nb. *)
Theorem C87_out_of_range : forall nb x, nb = 0%nat \/ x < 0 \/ 709 < x -> bessel_In nb x = Fail AssertFail.
Proof.
  intros nb x H. unfold bessel_In. destruct (Nat.leb_spec nb 0) as [|C]; [reflexivity|]. destruct (Rlt_dec x 0); [reflexivity|]. destruct (Rlt_dec bI_exparg x) as [|N]; [reflexivity|]. unfold bI_exparg in N. destruct H as [|[|]]; [lia|lra|lra].
Qed.
Print Assumptions C87_out_of_range.

Lemma eta14 : / 10 ^ 17 <= / 10 ^ 14 <= / 2.
Proof. split; [apply ip10; lia|apply Rle_trans with (/ 10 ^ 1); [apply ip10; lia|lra]]. Qed.

(** With it the statements of C76 and C77 hold without an assumption on the Bessel functions. *)
Theorem C87_bessel_i : forall nb x scale B, (nb <= 19)%nat -> (nb < length B)%nat -> 0 < scale <= 1 -> 0 < x <= 10 ^ 2 ->
  exists B', bessel_in_scaled bessel_In nb x scale B = Ok B' /\ forall n, (n <= nb)%nat -> exists b, nth_error B' n = Some b /\
    Rabs (b - sph_i n x / scale ^ n) <= / 10 ^ 14 * (sph_i n x / scale ^ n) + 2 / 10 ^ 300.
Proof. exact (C76_bessel_i bessel_In (/ 10 ^ 14) In_computes eta14). Qed.
Print Assumptions C87_bessel_i.

Theorem C87_multipole : forall p lambda sqf scale c l a, (1 <= p <= 18)%nat -> YukModel.generate_sqf p = Ok sqf -> 0 < lambda -> 0 < scale <= 1 ->
  (forall s, In s l -> 0 < dist c (cpos s) <= a) -> lambda * a <= 100 ->
  exists M l', yuk_S_to_M bessel_In p lambda sqf scale c l = Ok M /\ seen_charges c l l' /\
    forall t phi, 0 <= a < dist c t -> / 10 ^ 250 <= lambda * dist c t < 10 ^ 8 -> scale <= lambda * dist c t ->
    exists v t', yuk_M_to_T p lambda scale c M t phi = Ok (phi + v) /\ seen c t t' /\
      Rabs (v - screened lambda l' t') <= total_charge l * yuk_error p (/ 10 ^ 14) (lambda * a) (lambda * dist c t).
Proof. exact (C77_multipole bessel_In (/ 10 ^ 14) In_computes eta14). Qed.
Print Assumptions C87_multipole.

Theorem C87_local : forall p lambda sqf scale c l a, (1 <= p <= 18)%nat -> YukModel.generate_sqf p = Ok sqf -> 0 < lambda -> 0 < scale <= 1 ->
  (forall s, In s l -> a <= dist c (cpos s) /\ lambda * dist c (cpos s) < 10 ^ 8) -> / 10 ^ 250 <= lambda * a -> scale <= lambda * a ->
  exists L l', yuk_S_to_L p lambda sqf scale c l = Ok L /\ seen_charges c l l' /\
    forall t phi, 0 < dist c t < a -> lambda * dist c t <= 100 ->
    exists v t', yuk_L_to_T bessel_In p lambda scale c L t phi = Ok (phi + v) /\ seen c t t' /\
      Rabs (v - screened lambda l' t') <= total_charge l * yuk_error p (/ 10 ^ 14) (lambda * dist c t) (lambda * a).
Proof. exact (C77_local bessel_In (/ 10 ^ 14) In_computes eta14). Qed.
Print Assumptions C87_local.

Theorem C87_multipole_regular : forall digits p lambda sqf size lev c l a t phi, digits = 3%nat \/ digits = 6%nat -> yuk_p digits = Ok p -> YukModel.generate_sqf p = Ok sqf -> 0 < lambda -> 0 < size ->
  (forall s, In s l -> dist c (cpos s) <= a /\ regular c (cpos s)) -> lambda * a <= 100 ->
  0 <= a < dist c t -> regular c t -> size / 2 ^ lev <= dist c t -> / 10 ^ 250 <= lambda * dist c t < 10 ^ 8 ->
  exists M v, yuk_S_to_M bessel_In p lambda sqf (yuk_scale lambda size lev) c l = Ok M /\ yuk_M_to_T p lambda (yuk_scale lambda size lev) c M t phi = Ok (phi + v) /\
    Rabs (v - screened lambda l t) <= total_charge l * yuk_error p (/ 10 ^ 14) (lambda * a) (lambda * dist c t).
Proof. exact (C77_multipole_regular bessel_In (/ 10 ^ 14) In_computes eta14). Qed.
Print Assumptions C87_multipole_regular.

Theorem C87_local_regular : forall digits p lambda sqf size lev c l a t phi, digits = 3%nat \/ digits = 6%nat -> yuk_p digits = Ok p -> YukModel.generate_sqf p = Ok sqf -> 0 < lambda -> 0 < size ->
  (forall s, In s l -> a <= dist c (cpos s) /\ regular c (cpos s) /\ lambda * dist c (cpos s) < 10 ^ 8) -> / 10 ^ 250 <= lambda * a -> size / 2 ^ lev <= a ->
  dist c t < a -> regular c t -> lambda * dist c t <= 100 ->
  exists L v, yuk_S_to_L p lambda sqf (yuk_scale lambda size lev) c l = Ok L /\ yuk_L_to_T bessel_In p lambda (yuk_scale lambda size lev) c L t phi = Ok (phi + v) /\
    Rabs (v - screened lambda l t) <= total_charge l * yuk_error p (/ 10 ^ 14) (lambda * dist c t) (lambda * a).
Proof. exact (C77_local_regular bessel_In (/ 10 ^ 14) In_computes eta14). Qed.
Print Assumptions C87_local_regular.

Example C87_nonvacuous : (exists vals v, bessel_In 3 2 = Ok vals /\ nth_error vals 0 = Some v /\ Rabs (sqrt (PI / 2 / 2) * v - sinh 2 / 2) <= / 10 ^ 14 * (sinh 2 / 2)) /\
  (exists vals v, bessel_In 20 100 = Ok vals /\ nth_error vals 19 = Some v /\ Rabs (sqrt (PI / 2 / 100) * v - sph_i 19 100) <= / 10 ^ 14 * sph_i 19 100) /\
  bessel_In 3 (-1) = Fail AssertFail.
Proof.
  pose proof (inv10_le1 4). split; [|split].
  - destruct (C87_bessel_In 3 2 ltac:(lia) ltac:(lra)) as (vals & E & H0). destruct (H0 0%nat ltac:(lia)) as (v & Ev & C). exists vals, v. split; [exact E|]. split; [exact Ev|exact C].
  - destruct (C87_bessel_In 20 100 ltac:(lia) ltac:(lra)) as (vals & E & H0). destruct (H0 19%nat ltac:(lia)) as (v & Ev & C). exists vals, v. split; [exact E|]. split; [exact Ev|exact C].
  - apply C87_out_of_range. right. left. lra.
Qed.
