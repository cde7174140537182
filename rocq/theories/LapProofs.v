(** Multipole and local expansions: evaluation, truncation error. *)
From Coq Require Import Reals List Lia Lra Psatz.
From Verif Require Import Base ListFacts LegSpec LegProofs LegAdd LegGen LapModel LapSpec LapArrays.
Import ListNotations.
Open Scope R_scope.

Fixpoint sumlt (f : nat -> R) (k : nat) : R := match k with O => 0 | S j => sumlt f j + f j end.
Lemma sumlt_sum f n : sum_f_R0 f n = sumlt f (S n).
Proof. induction n as [|n IH]; [cbn; ring|]. cbn [sum_f_R0]. rewrite IH. reflexivity. Qed.
Lemma sumlt_shift f k : sumlt f (S k) = f 0%nat + sumlt (fun j => f (S j)) k.
Proof. induction k as [|k IH]; [cbn; ring|]. change (sumlt f (S (S k))) with (sumlt f (S k) + f (S k)). rewrite IH. cbn [sumlt]. ring. Qed.
Lemma sumlt_plus f g k : sumlt (fun j => f j + g j) k = sumlt f k + sumlt g k.
Proof. induction k as [|k IH]; cbn [sumlt]; [ring|]. rewrite IH. ring. Qed.
Lemma sumlt_ext f g k : (forall j, (j < k)%nat -> f j = g j) -> sumlt f k = sumlt g k.
Proof. induction k as [|k IH]; intros H; cbn [sumlt]; [reflexivity|]. rewrite IH, H by (try (intros; apply H); lia). reflexivity. Qed.
Lemma sumlt_scal a f k : sumlt (fun j => a * f j) k = a * sumlt f k.
Proof. induction k as [|k IH]; cbn [sumlt]; [ring|]. rewrite IH. ring. Qed.

Definition ratio (n m : nat) : R := sqrt (INR (fact (n - m))) / sqrt (INR (fact (n + m))).

Lemma ratio_w n m : ratio n m * ratio n m = w n m.
Proof.
  unfold ratio, w. pose proof (sqrt_fact_pos (n + m)). pose proof (sqrt_sqrt (INR (fact (n - m))) (pos_INR _)) as A. pose proof (sqrt_sqrt (INR (fact (n + m))) (pos_INR _)) as B.
  rewrite <- A at 3. rewrite <- B at 3. field. lra.
Qed.
Lemma ratio_0 n : ratio n 0 = 1.
Proof. unfold ratio. rewrite Nat.sub_0_r, Nat.add_0_r. pose proof (sqrt_fact_pos n). field. lra. Qed.

(** one term of the potential *)
Definition pterm (fr : nat -> R) (fe : nat -> cplx) (fl : nat -> nat -> R) (c : nat -> nat -> cplx) (n m : nat) : R :=
  eps m * creal (cmul (c n m) (fe m)) * fr n * fl n m * ratio n m.
Definition pot (p : nat) fr fe fl c : R := sumlt (fun n => sumlt (pterm fr fe fl c n) (S n)) (S p).

Lemma potential_ok p sqf pr pe leg fr (fe : nat -> cplx) fl c M :
  (forall i, (i <= 2 * p)%nat -> nth_error sqf i = Some (sqrt (INR (fact i)))) ->
  (forall j, (j <= p)%nat -> nth_error pr j = Some (fr j)) -> (forall j, (j <= p)%nat -> nth_error pe j = Some (fe j)) -> fe 0%nat = (1, 0) ->
  (forall i m, (m <= i <= p)%nat -> nth_error leg (midx i m) = Some (fl i m)) -> coefs p c M ->
  exists phi, potential_terms p sqf pr pe leg M = Ok phi /\ creal phi = pot p fr fe fl c.
Proof.
  intros Hs Hr He He0 Hl [_ HM]. unfold potential_terms. set (T := pterm fr fe fl c).
  match goal with |- context [bind (foldM ?F (seq 0 (S p)) _) _] => destruct (loop_ind _ F (fun k phi => creal phi = sumlt (fun n => T n 0%nat) k) 0 (S p) (0, 0)) as (phi1 & E1 & H1) end.
  - reflexivity.
  - intros n phi Hn Hp. cbn [Nat.add]. rewrite (nth_ok _ _ _ _ (HM n 0%nat ltac:(lia))), (nth_ok _ _ _ _ (Hr n ltac:(lia))), (nth_ok _ _ _ _ (Hl n 0%nat ltac:(lia))). cbn [bind]. eexists. split; [reflexivity|].
    cbn [sumlt]. rewrite <- Hp. unfold T, pterm, creal, cadd, cscale, cmul. rewrite ratio_0, He0. cbn [fst snd eps]. ring.
  - rewrite E1. cbn [bind].
    match goal with |- context [foldM ?F (seq 1 p) _] => destruct (loop_ind _ F (fun k phi => creal phi = sumlt (fun n => T n 0%nat) (S p) + sumlt (fun i => sumlt (fun j => T (S i) (S j)) (S i)) k) 1 p phi1) as (phi2 & E2 & H2) end.
    + rewrite H1. cbn [sumlt]. ring.
    + intros n phi Hn Hp. change (1 + n)%nat with (S n).
      match goal with |- context [foldM ?F (seq 1 (S n)) _] => destruct (loop_ind _ F (fun k phi' => creal phi' = creal phi + sumlt (fun j => T (S n) (S j)) k) 1 (S n) phi) as (phi3 & E3 & H3) end.
      * cbn [sumlt]. ring.
      * intros m phi' Hm Hp'. cbn beta. change (1 + m)%nat with (S m). rewrite (nth_ok _ _ _ _ (HM (S n) (S m) ltac:(lia))), (nth_ok _ _ _ _ (He (S m) ltac:(lia))), (nth_ok _ _ _ _ (Hr (S n) ltac:(lia))), (nth_ok _ _ _ _ (Hl (S n) (S m) ltac:(lia))), (nth_ok _ _ _ _ (Hs (S n - S m)%nat ltac:(lia))), (nth_ok _ _ _ _ (Hs (S n + S m)%nat ltac:(lia))). cbn [bind].
        pose proof (sqrt_fact_pos (S n + S m)). rewrite rdiv_ok by lra. cbn [bind]. eexists. split; [reflexivity|].
        cbn [sumlt]. rewrite <- Rplus_assoc, <- Hp'. unfold T, pterm, ratio, creal, cadd. cbn [fst eps]. field. lra.
      * exists phi3. split; [exact E3|]. rewrite H3, Hp. change (sumlt (fun i => sumlt (fun j => T (S i) (S j)) (S i)) (S n)) with (sumlt (fun i => sumlt (fun j => T (S i) (S j)) (S i)) n + sumlt (fun j => T (S n) (S j)) (S n)). ring.
    + exists phi2. split; [exact E2|]. rewrite H2. unfold pot. fold T. 
      rewrite (sumlt_ext (fun n => sumlt (T n) (S n)) (fun n => T n 0%nat + sumlt (fun j => T n (S j)) n)) by (intros j _; apply sumlt_shift).
      rewrite sumlt_plus. f_equal. rewrite sumlt_shift. cbn [sumlt]. ring.
Qed.

(** ** directions *)
Definition eff (d : pt) : pt :=
  let r := norm3 d in let proj := sqrt (px d * px d + py d * py d) in
  if Rle_dec r tiny then mkPt 0 0 r else if Rle_dec (proj / r) tiny then mkPt proj 0 (pz d) else d.

Lemma norm3_sq d : norm3 d * norm3 d = px d * px d + py d * py d + pz d * pz d.
Proof. apply sqrt_sqrt. nra. Qed.
Lemma norm3_nonneg d : 0 <= norm3 d.
Proof. apply sqrt_pos. Qed.
Lemma norm3_unique d r : 0 <= r -> r * r = px d * px d + py d * py d + pz d * pz d -> norm3 d = r.
Proof. intros H E. unfold norm3. rewrite <- E. apply sqrt_square, H. Qed.

Lemma angles_ok sgn d : sgn * sgn = 1 -> 0 < norm3 d -> exists ct e, angles sgn d = Ok (norm3 d, ct, e) /\ -1 <= ct <= 1 /\ fst e * fst e + snd e * snd e = 1 /\
  pz (eff d) = norm3 d * ct /\ px (eff d) = norm3 d * sqrt (1 - ct * ct) * fst e /\ py (eff d) = norm3 d * sqrt (1 - ct * ct) * (sgn * snd e).
Proof.
  intros Hs Hr. pose proof (norm3_sq d) as Sq. unfold angles. set (r := norm3 d) in *. set (proj := sqrt (px d * px d + py d * py d)).
  assert (Pp : 0 <= proj) by apply sqrt_pos. assert (Pq : proj * proj = px d * px d + py d * py d) by (apply sqrt_sqrt; nra).
  unfold eff. fold r proj. rewrite (rdiv_ok proj r) by lra.
  assert (HE : exists e, (if Rle_dec (proj / r) tiny then Ok (1, 0) else do c <- rdiv (px d) proj; do s <- rdiv (sgn * py d) proj; Ok (c, s)) = Ok e /\ fst e * fst e + snd e * snd e = 1 /\
    (if Rle_dec (proj / r) tiny then e = (1, 0) else 0 < proj /\ e = (px d / proj, sgn * py d / proj))).
  { destruct (Rle_dec (proj / r) tiny) as [C|C]; [exists (1, 0); cbn; split; [reflexivity|split; [ring|reflexivity]]|].
    assert (Pp' : 0 < proj). { destruct (Rle_lt_or_eq_dec _ _ Pp) as [L|E]; [exact L|]. exfalso. apply C. rewrite <- E. unfold Rdiv. rewrite Rmult_0_l. unfold tiny. left. apply Rinv_0_lt_compat, pow_lt. lra. }
    rewrite !rdiv_ok by lra. cbn [bind]. eexists. split; [reflexivity|]. cbn [fst snd]. split; [|split; [exact Pp'|reflexivity]].
    replace (px d / proj * (px d / proj) + sgn * py d / proj * (sgn * py d / proj)) with ((px d * px d + sgn * sgn * (py d * py d)) / (proj * proj)) by (field; lra). rewrite Hs, Rmult_1_l, <- Pq. field. lra. }
  destruct HE as (e & Ee & Ne & Ce). cbn [bind].
  destruct (Rle_dec r tiny) as [C|C].
  - exists 1, e. cbn [bind]. rewrite Ee. cbn [bind]. split; [reflexivity|]. split; [lra|]. split; [exact Ne|]. cbn [px py pz]. replace (1 - 1 * 1) with 0 by ring. rewrite sqrt_0. repeat split; ring.
  - rewrite rdiv_ok by lra. cbn [bind]. rewrite Ee. cbn [bind]. exists (pz d / r), e.
    assert (Bz : - r <= pz d <= r) by nra.
    split; [reflexivity|]. split; [split; [apply Rmult_le_reg_r with r|apply Rmult_le_reg_r with r]; try lra; unfold Rdiv; rewrite Rmult_assoc, Rinv_l by lra; lra|]. split; [exact Ne|].
    assert (Es : r * sqrt (1 - pz d / r * (pz d / r)) = proj).
    { replace (1 - pz d / r * (pz d / r)) with ((proj / r) * (proj / r)) by (field_simplify_eq; [nra|lra]). rewrite sqrt_square by (apply Rmult_le_pos; [exact Pp|left; apply Rinv_0_lt_compat, Hr]). field. lra. }
    rewrite Es. destruct (Rle_dec (proj / r) tiny) as [C2|C2].
    + subst e. cbn [px py pz fst snd]. repeat split; try ring. field. lra.
    + destruct Ce as [Pp' ->]. cbn [fst snd]. repeat split; try (field; lra). 
      replace (proj * (sgn * (sgn * py d / proj))) with (sgn * sgn * py d) by (field; lra). rewrite Hs. ring.
Qed.

Lemma eff_norm d : norm3 (eff d) = norm3 d.
Proof.
  pose proof (norm3_nonneg d). pose proof (norm3_sq d). unfold eff. destruct (Rle_dec (norm3 d) tiny); [|destruct (Rle_dec _ tiny); [|reflexivity]].
  - apply norm3_unique; [assumption|]. cbn [px py pz]. ring.
  - apply norm3_unique; [assumption|]. cbn [px py pz]. pose proof (sqrt_sqrt (px d * px d + py d * py d) ltac:(nra)). nra.
Qed.

(** ** one source, one target *)
Lemma cpow_mul a b m : cmul (cpow a m) (cpow b m) = cpow (cmul a b) m.
Proof. induction m as [|m IH]; cbn [cpow]; [unfold cmul; cbn; f_equal; ring|]. rewrite <- IH. unfold cmul. cbn [fst snd]. f_equal; ring. Qed.

Lemma cpow_rec e m : creal (cpow e (S (S m))) = 2 * fst e * creal (cpow e (S m)) - (fst e * fst e + snd e * snd e) * creal (cpow e m).
Proof. unfold creal. cbn [cpow]. unfold cmul. cbn [fst snd]. ring. Qed.

(** the sum over [m] is a Legendre polynomial of the angle between the two *)
Lemma one_degree n a b ea eb fr q : -1 <= a <= 1 -> -1 <= b <= 1 -> fst ea * fst ea + snd ea * snd ea = 1 -> fst eb * fst eb + snd eb * snd eb = 1 ->
  sumlt (pterm fr (cpow eb) (Q b) (term 1 (fun _ => q) (cpow ea) (Q a)) n) (S n) =
  q * fr n * D n 0 (a * b + sqrt (1 - a * a) * sqrt (1 - b * b) * creal (cmul ea eb)).
Proof.
  intros Ha Hb Na Nb. set (e := cmul ea eb). assert (Ne : fst e * fst e + snd e * snd e = 1).
  { unfold e, cmul. cbn [fst snd]. replace 1 with ((fst ea * fst ea + snd ea * snd ea) * (fst eb * fst eb + snd eb * snd eb)) by (rewrite Na, Nb; ring). ring. }
  set (sa := - sqrt (1 - a * a)). set (sb := - sqrt (1 - b * b)).
  assert (Ssa : sa * sa = 1 - a * a) by (unfold sa; rewrite Rmult_opp_opp; apply sqrt_sqrt; nra).
  assert (Ssb : sb * sb = 1 - b * b) by (unfold sb; rewrite Rmult_opp_opp; apply sqrt_sqrt; nra).
  replace (sqrt (1 - a * a) * sqrt (1 - b * b) * creal e) with (sa * sb * creal e) by (unfold sa, sb; ring).
  rewrite <- (addition a b (sa * sb * creal e) (fun m => (sa * sb) ^ m * creal (cpow e m)) n).
  - rewrite sumlt_sum, <- sumlt_scal. apply sumlt_ext. intros m Hm. unfold pterm, term, Q. fold sa sb.
    replace (creal (cmul (cscale (cpow ea m) (1 * q * (sa ^ m * D n m a) * (sqrt (INR (fact (n - m))) / sqrt (INR (fact (n + m)))))) (cpow eb m)))
      with (q * sa ^ m * D n m a * ratio n m * creal (cmul (cpow ea m) (cpow eb m))) by (unfold ratio, creal, cmul, cscale; cbn [fst snd]; ring).
    rewrite cpow_mul. fold e. rewrite <- ratio_w, Rpow_mult_distr. ring.
  - simpl. ring.
  - unfold creal. cbn [cpow]. unfold cmul. cbn [fst snd]. simpl pow. ring.
  - intros m. rewrite cpow_rec, Ne. simpl pow. rewrite <- Ssa, <- Ssb. unfold creal. ring.
Qed.

(** ** the four operations *)
Definition table (p : nat) (sqf : list R) : Prop := forall i, (i <= 2 * p + 2)%nat -> nth_error sqf i = Some (sqrt (INR (fact i))).

Lemma table_ok p sqf : generate_sqf p = Ok sqf -> table p sqf.
Proof. intros H i Hi. destruct (sqf_ok p) as (a & E & _ & T). rewrite E in H. injection H as <-. apply T. lia. Qed.

Lemma nth_upd0 A (a v : A) n : (0 < n)%nat -> nth_error (upd (repeat a n) 0 v) 0 = Some v.
Proof. intros H. apply upd_same. rewrite repeat_length. exact H. Qed.

Lemma s_to_m_ok p sqf d q scale c M r ct e : table p sqf -> coefs p c M -> angles (-1) d = Ok (r, ct, e) -> -1 <= ct <= 1 ->
  exists M', lap_s_to_m p sqf d q scale M = Ok M' /\ coefs p (fun n m => cadd (c n m) (term q (fun n => (r * scale) ^ n) (cpow e) (Q ct) n m)) M'.
Proof.
  intros HT HM HA Hc. unfold lap_s_to_m. rewrite !set_res_ok by (rewrite repeat_length; lia). cbn [bind]. rewrite HA. cbn [bind].
  destruct (fill_ok _ (fun v => Ok (v * (r * scale))) (fun n => (r * scale) ^ n) p (upd (repeat 0 (p + 1)) 0 1)) as (pr & Er & Hr); [rewrite upd_length, repeat_length; lia|apply nth_upd0; lia|intros j _; simpl; f_equal; ring|]. rewrite Er. cbn [bind].
  destruct (fill_ok cplx (fun v => Ok (cmul v e)) (cpow e) p (upd (repeat (0, 0) (p + 1)) 0 (1, 0))) as (pe & Ee & He); [rewrite upd_length, repeat_length; lia|apply (nth_upd0 cplx); lia|reflexivity|]. rewrite Ee. cbn [bind].
  destruct (plm_ok p ct Hc (repeat 0 ((p + 1) * (p + 2) / 2))) as (leg & El & _ & Hl); [rewrite repeat_length, size_tri; lia|]. rewrite El. cbn [bind].
  apply add_terms_ok; try assumption. intros i Hi. apply HT. lia.
Qed.

Lemma s_to_l_ok p sqf d q scale c M r ct e : table p sqf -> coefs p c M -> angles (-1) d = Ok (r, ct, e) -> -1 <= ct <= 1 -> 0 < r -> scale <> 0 ->
  exists M', lap_s_to_l p sqf d q scale M = Ok M' /\ coefs p (fun n m => cadd (c n m) (term q (fun n => 1 / r / (r * scale) ^ n) (cpow e) (Q ct) n m)) M'.
Proof.
  intros HT HM HA Hc Hr0 Hs. unfold lap_s_to_l. rewrite set_res_ok by (rewrite repeat_length; lia). cbn [bind]. rewrite HA. cbn [bind]. rewrite rdiv_ok by lra. cbn [bind]. rewrite set_res_ok by (rewrite repeat_length; lia). cbn [bind].
  assert (Nz : r * scale <> 0) by (apply Rmult_integral_contrapositive_currified; lra).
  destruct (fill_ok _ (fun v => rdiv v (r * scale)) (fun n => 1 / r / (r * scale) ^ n) p (upd (repeat 0 (p + 1)) 0 (1 / r))) as (pr & Er & Hr).
  { rewrite upd_length, repeat_length; lia. } { rewrite nth_upd0 by lia. f_equal. simpl. field. lra. } { intros j _. rewrite rdiv_ok by exact Nz. simpl. f_equal. field. repeat split; first [exact Hs|apply pow_nonzero, Nz|lra]. }
  rewrite Er. cbn [bind].
  destruct (fill_ok cplx (fun v => Ok (cmul v e)) (cpow e) p (upd (repeat (0, 0) (p + 1)) 0 (1, 0))) as (pe & Ee & He); [rewrite upd_length, repeat_length; lia|apply (nth_upd0 cplx); lia|reflexivity|]. rewrite Ee. cbn [bind].
  destruct (plm_ok p ct Hc (repeat 0 ((p + 1) * (p + 2) / 2))) as (leg & El & _ & Hl); [rewrite repeat_length, size_tri; lia|]. rewrite El. cbn [bind].
  apply add_terms_ok; try assumption. intros i Hi. apply HT. lia.
Qed.

Lemma m_to_t_ok p sqf d scale c M r ct e : table p sqf -> coefs p c M -> angles 1 d = Ok (r, ct, e) -> -1 <= ct <= 1 -> 0 < r -> scale <> 0 ->
  lap_m_to_t p sqf d scale M = Ok (pot p (fun n => 1 / r / (r * scale) ^ n) (cpow e) (Q ct) c).
Proof.
  intros HT HM HA Hc Hr0 Hs. unfold lap_m_to_t. rewrite set_res_ok by (rewrite repeat_length; lia). cbn [bind]. rewrite HA. cbn [bind]. rewrite rdiv_ok by lra. cbn [bind]. rewrite set_res_ok by (rewrite repeat_length; lia). cbn [bind].
  assert (Nz : r * scale <> 0) by (apply Rmult_integral_contrapositive_currified; lra).
  destruct (fill_ok _ (fun v => rdiv v (r * scale)) (fun n => 1 / r / (r * scale) ^ n) (p + 1) (upd (repeat 0 (p + 2)) 0 (1 / r))) as (pr & Er & Hr).
  { rewrite upd_length, repeat_length; lia. } { rewrite nth_upd0 by lia. f_equal. simpl. field. lra. } { intros j _. rewrite rdiv_ok by exact Nz. simpl. f_equal. field. repeat split; first [exact Hs|apply pow_nonzero, Nz|lra]. }
  rewrite Er. cbn [bind].
  destruct (fill_ok cplx (fun v => Ok (cmul v e)) (cpow e) (p + 1) (upd (repeat (0, 0) (p + 2)) 0 (1, 0))) as (pe & Ee & He); [rewrite upd_length, repeat_length; lia|apply (nth_upd0 cplx); lia|reflexivity|]. rewrite Ee. cbn [bind].
  destruct (plm_ok (p + 1) ct Hc (repeat 0 ((p + 2) * (p + 3) / 2))) as (leg & El & _ & Hl); [rewrite repeat_length, size_tri2, Nat.add_1_r; lia|]. rewrite El. cbn [bind].
  destruct (potential_ok p sqf pr pe leg (fun n => 1 / r / (r * scale) ^ n) (cpow e) (Q ct) c M) as (phi & Ep & Hp); try assumption.
  - intros i Hi. apply HT. lia.
  - intros j Hj. apply Hr. lia.
  - intros j Hj. apply He. lia.
  - reflexivity.
  - intros i m B. apply Hl. lia.
  - rewrite Ep. cbn [bind]. rewrite Hp. reflexivity.
Qed.

Lemma l_to_t_ok p sqf d scale c M r ct e : table p sqf -> coefs p c M -> angles 1 d = Ok (r, ct, e) -> -1 <= ct <= 1 ->
  lap_l_to_t p sqf d scale M = Ok (pot p (fun n => (r * scale) ^ n) (cpow e) (Q ct) c).
Proof.
  intros HT HM HA Hc. unfold lap_l_to_t. rewrite !set_res_ok by (rewrite repeat_length; lia). cbn [bind]. rewrite HA. cbn [bind].
  destruct (fill_ok _ (fun v => Ok (v * (r * scale))) (fun n => (r * scale) ^ n) (p + 1) (upd (repeat 0 (p + 2)) 0 1)) as (pr & Er & Hr); [rewrite upd_length, repeat_length; lia|apply nth_upd0; lia|intros j _; simpl; f_equal; ring|]. rewrite Er. cbn [bind].
  destruct (fill_ok cplx (fun v => Ok (cmul v e)) (cpow e) (p + 1) (upd (repeat (0, 0) (p + 2)) 0 (1, 0))) as (pe & Ee & He); [rewrite upd_length, repeat_length; lia|apply (nth_upd0 cplx); lia|reflexivity|]. rewrite Ee. cbn [bind].
  destruct (plm_ok (p + 1) ct Hc (repeat 0 ((p + 2) * (p + 3) / 2))) as (leg & El & _ & Hl); [rewrite repeat_length, size_tri2, Nat.add_1_r; lia|]. rewrite El. cbn [bind].
  destruct (potential_ok p sqf pr pe leg (fun n => (r * scale) ^ n) (cpow e) (Q ct) c M) as (phi & Ep & Hp); try assumption.
  - intros i Hi. apply HT. lia.
  - intros j Hj. apply Hr. lia.
  - intros j Hj. apply He. lia.
  - reflexivity.
  - intros i m B. apply Hl. lia.
  - rewrite Ep. cbn [bind]. rewrite Hp. reflexivity.
Qed.

(** ** sums over sources *)
Lemma pot_add p fr fe fl c c' : pot p fr fe fl (fun n m => cadd (c n m) (c' n m)) = pot p fr fe fl c + pot p fr fe fl c'.
Proof.
  unfold pot. rewrite <- sumlt_plus. apply sumlt_ext. intros n _. rewrite <- sumlt_plus. apply sumlt_ext. intros m _. unfold pterm, creal, cmul, cadd. cbn [fst snd]. ring.
Qed.
Lemma pot_zero p fr fe fl : pot p fr fe fl (fun _ _ => (0, 0)) = 0.
Proof.
  unfold pot. assert (Z : forall f k, (forall j, f j = 0) -> sumlt f k = 0) by (intros f k H; induction k as [|k IH]; cbn [sumlt]; [reflexivity|]; rewrite IH, H; ring).
  apply Z. intros n. apply Z. intros m. unfold pterm, creal, cmul. cbn [fst snd]. ring.
Qed.

Definition dot (a b : pt) : R := px a * px b + py a * py b + pz a * pz b.
Definition contrib (p : nat) (q : R) (g fr : nat -> R) (x : R) : R := sumlt (fun n => q * g n * fr n * D n 0 x) (S p).

Lemma pot_term p q g fr a b ea eb d t : 0 < norm3 d -> 0 < norm3 t -> angles (-1) d = Ok (norm3 d, a, ea) -> angles 1 t = Ok (norm3 t, b, eb) ->
  pot p fr (cpow eb) (Q b) (term q g (cpow ea) (Q a)) = contrib p q g fr (dot (eff d) (eff t) / (norm3 d * norm3 t)).
Proof.
  intros Hd Ht Ad At. destruct (angles_ok (-1) d ltac:(ring) Hd) as (a' & ea' & Ad' & Ba & Na & Za & Xa & Ya). rewrite Ad in Ad'. injection Ad' as <- <-.
  destruct (angles_ok 1 t ltac:(ring) Ht) as (b' & eb' & At' & Bb & Nb & Zb & Xb & Yb). rewrite At in At'. injection At' as <- <-.
  unfold pot, contrib. apply sumlt_ext. intros n _.
  replace (dot (eff d) (eff t) / (norm3 d * norm3 t)) with (a * b + sqrt (1 - a * a) * sqrt (1 - b * b) * creal (cmul ea eb)).
  - rewrite <- (one_degree n a b ea eb fr (q * g n) Ba Bb Na Nb). apply sumlt_ext. intros m _. unfold pterm, term, creal, cmul, cscale. cbn [fst snd]. ring.
  - unfold dot. rewrite Xa, Xb, Ya, Yb, Za, Zb. unfold creal, cmul. cbn [fst]. field. lra.
Qed.

(** [f] adds one source; the radial factor of a source at distance r is [G r] *)
Lemma sources_ok p (f : list cplx -> charge -> res (list cplx)) (G : R -> nat -> R) ctr l :
  (forall M c s a e, coefs p c M -> In s l -> -1 <= a <= 1 -> angles (-1) (point_sub (cpos s) ctr) = Ok (norm3 (point_sub (cpos s) ctr), a, e) ->
     exists M', f M s = Ok M' /\ coefs p (fun n m => cadd (c n m) (term (cq s) (G (norm3 (point_sub (cpos s) ctr))) (cpow e) (Q a) n m)) M') ->
  (forall s, In s l -> 0 < norm3 (point_sub (cpos s) ctr)) ->
  forall c M, coefs p c M -> exists M' c', foldM f l M = Ok M' /\ coefs p c' M' /\
    forall t b eb fr, 0 < norm3 t -> angles 1 t = Ok (norm3 t, b, eb) ->
      pot p fr (cpow eb) (Q b) c' = pot p fr (cpow eb) (Q b) c +
        fold_right (fun s v => let d := point_sub (cpos s) ctr in contrib p (cq s) (G (norm3 d)) fr (dot (eff d) (eff t) / (norm3 d * norm3 t)) + v) 0 l.
Proof.
  intros Hf Hl. induction l as [|s l IH]; intros c M HM.
  - exists M, c. split; [reflexivity|]. split; [exact HM|]. intros. cbn [fold_right]. ring.
  - set (d := point_sub (cpos s) ctr). assert (Hd : 0 < norm3 d) by (apply Hl; left; reflexivity).
    destruct (angles_ok (-1) d ltac:(ring) Hd) as (a & e & Ad & Ba & _). destruct (Hf M c s a e HM (or_introl eq_refl) Ba Ad) as (M1 & E1 & H1).
    destruct (IH ltac:(intros; apply Hf; try right; assumption) ltac:(intros; apply Hl; right; assumption) _ M1 H1) as (M' & c' & E' & H' & V').
    exists M', c'. cbn [foldM]. rewrite E1. cbn [bind]. split; [exact E'|]. split; [exact H'|]. intros t b eb fr Ht At. rewrite (V' t b eb fr Ht At), pot_add. cbn [fold_right]. fold d.
    rewrite (pot_term p (cq s) (G (norm3 d)) fr a b e eb d t Hd Ht Ad At). ring.
Qed.

Lemma new_coefs p : coefs p (fun _ _ => (0, 0)) (new_expansion p).
Proof.
  split; [unfold new_expansion; rewrite repeat_length; apply size_tri|]. intros n m B. unfold new_expansion.
  apply nth_error_repeat. rewrite size_tri. apply midx_lt; lia.
Qed.

(** ** truncation *)
Lemma trunc p q r r' R g x dd : 0 < r -> r < R -> -1 <= x <= 1 -> r' = R - r -> (forall n, g n = r ^ n / R ^ S n) -> 0 <= dd -> dd * dd = R * R - 2 * (r * R) * x + r * r ->
  Rabs (sumlt (fun n => q * g n * D n 0 x) (S p) - q / dd) <= Rabs q / r' * (r / R) ^ S p.
Proof.
  intros Hr HR Hx -> Hg Hd Ed. set (t := r / R). assert (Ht : 0 <= t < 1).
  { unfold t. split; [apply Rmult_le_pos; [lra|left; apply Rinv_0_lt_compat; lra]|]. apply Rmult_lt_reg_r with R; [lra|]. unfold Rdiv. rewrite Rmult_assoc, Rinv_l by lra. lra. }
  pose proof (tail x Hx t p Ht) as T. cbn beta zeta in T.
  assert (Eq : dd = R * sqrt (1 - 2 * x * t + t * t)).
  { pose proof (q_pos x Hx t ltac:(apply Rabs_def1; lra)) as Qp. cbn beta zeta in Qp. apply Rsqr_inj; [exact Hd|apply Rmult_le_pos; [lra|apply sqrt_pos]|]. unfold Rsqr. rewrite Ed.
    replace (R * sqrt (1 - 2 * x * t + t * t) * (R * sqrt (1 - 2 * x * t + t * t))) with (R * R * (sqrt (1 - 2 * x * t + t * t) * sqrt (1 - 2 * x * t + t * t))) by ring.
    rewrite sqrt_sqrt by lra. unfold t. field. lra. }
  assert (Qs : 0 < sqrt (1 - 2 * x * t + t * t)) by (apply sqrt_lt_R0; exact (q_pos x Hx t ltac:(apply Rabs_def1; lra))).
  replace (sumlt (fun n => q * g n * D n 0 x) (S p)) with (q / R * sum_f_R0 (fun n => D n 0 x * t ^ n) p).
  - rewrite Eq. replace (q / R * sum_f_R0 (fun n => D n 0 x * t ^ n) p - q / (R * sqrt (1 - 2 * x * t + t * t))) with (- (q / R) * (/ sqrt (1 - 2 * x * t + t * t) - sum_f_R0 (fun n => D n 0 x * t ^ n) p)) by (field; lra).
    rewrite Rabs_mult, Rabs_Ropp. unfold Rdiv at 1. rewrite Rabs_mult, (Rabs_pos_eq (/ R)) by (left; apply Rinv_0_lt_compat; lra).
    replace (Rabs q / (R - r) * t ^ S p) with (Rabs q * / R * (t ^ S p / (1 - t))) by (replace (1 - t) with ((R - r) / R) by (unfold t; field; lra); set (tp := t ^ S p); field; lra).
    apply Rmult_le_compat_l; [apply Rmult_le_pos; [apply Rabs_pos|left; apply Rinv_0_lt_compat; lra]|exact T].
  - rewrite sumlt_sum, <- sumlt_scal. apply sumlt_ext. intros n _. rewrite Hg. unfold t, Rdiv. rewrite Rpow_mult_distr. simpl pow. rewrite pow_inv. field. split; [apply pow_nonzero; lra|lra].
Qed.

(** ** positions *)
Definition shift (c d : pt) : pt := mkPt (px c + px d) (py c + py d) (pz c + pz d).
Definition place (c x : pt) : pt := shift c (eff (point_sub x c)).

Lemma norm3_dist c x : norm3 (point_sub x c) = dist c x.
Proof. unfold norm3, dist, point_sub. cbn [px py pz]. f_equal. ring. Qed.

Lemma dist_place_c c x : dist c (place c x) = dist c x.
Proof.
  rewrite <- norm3_dist, <- (norm3_dist c x), <- (eff_norm (point_sub x c)). f_equal. unfold place, shift, point_sub at 1. cbn [px py pz]. set (d := eff _). destruct d as [x1 x2 x3]. cbn [px py pz]. f_equal; ring.
Qed.

Lemma tiny_pos : 0 < tiny.
Proof. apply Rinv_0_lt_compat, pow_lt. lra. Qed.

Lemma place_seen c x : 0 < dist c x -> seen c x (place c x).
Proof.
  intros H. split; [apply dist_place_c|]. rewrite <- norm3_dist in H. set (d := point_sub x c) in *. pose proof tiny_pos as Tp. pose proof (norm3_sq d) as Sq.
  set (proj := sqrt (px d * px d + py d * py d)). assert (Pp : 0 <= proj) by apply sqrt_pos. assert (Pq : proj * proj = px d * px d + py d * py d) by (apply sqrt_sqrt; nra).
  assert (E : dist x (place c x) = norm3 (point_sub (eff d) d)). { rewrite <- norm3_dist. f_equal. unfold place, shift, d, point_sub. cbn [px py pz]. f_equal; ring. }
  rewrite E. rewrite <- norm3_dist. fold d. pose proof (Rmax_l 1 (norm3 d)) as M1. pose proof (Rmax_r 1 (norm3 d)) as M2. set (mx := Rmax 1 (norm3 d)) in *.
  assert (Up : forall u k, 0 <= k -> px u * px u + py u * py u + pz u * pz u <= k * k -> norm3 u <= k).
  { intros u k Hk Hu. pose proof (norm3_sq u). pose proof (norm3_nonneg u). destruct (Rle_dec (norm3 u) k); [assumption|nra]. }
  split.
  - fold tiny. assert (Hk : 0 <= 2 * tiny * mx) by nra. unfold eff. fold proj. destruct (Rle_dec (norm3 d) tiny) as [C|C]; [|destruct (Rle_dec (proj / norm3 d) tiny) as [C2|C2]].
    + apply Rle_trans with (2 * norm3 d); [|nra]. apply Up; [lra|]. unfold point_sub. cbn [px py pz]. assert (- norm3 d <= pz d) by nra. nra.
    + assert (C3 : proj <= tiny * norm3 d). { apply (Rmult_le_compat_r (norm3 d)) in C2; [|lra]. unfold Rdiv in C2. rewrite Rmult_assoc, Rinv_l in C2 by lra. lra. }
      apply Rle_trans with (2 * proj); [|nra]. apply Up; [lra|]. unfold point_sub. cbn [px py pz]. assert (- proj <= px d) by nra. nra.
    + apply Up; [exact Hk|]. unfold point_sub. cbn [px py pz]. nra.
  - intros [R1 R2]. fold tiny in R1, R2. rewrite <- norm3_dist in R1, R2. fold d in R1, R2.
    assert (Eo : off_axis c x = proj). { unfold off_axis, proj, d, point_sub. cbn [px py]. f_equal. ring. } rewrite Eo in R2.
    assert (Ed : eff d = d).
    { unfold eff. fold proj. destruct (Rle_dec (norm3 d) tiny) as [C|C]; [lra|]. destruct (Rle_dec (proj / norm3 d) tiny) as [C2|C2]; [|reflexivity].
      assert (C3 : proj <= tiny * norm3 d). { apply (Rmult_le_compat_r (norm3 d)) in C2; [|lra]. unfold Rdiv in C2. rewrite Rmult_assoc, Rinv_l in C2 by lra. lra. }
      destruct R2 as [R2|R2]; [|lra]. rewrite R2. assert (px d = 0) by nra. assert (py d = 0) by nra. destruct d as [a b e]. cbn [px py pz] in *. subst a b. reflexivity. }
    unfold place. fold d. rewrite Ed. unfold d, shift, point_sub. cbn [px py pz]. destruct x as [x1 x2 x3]. cbn [px py pz]. f_equal; ring.
Qed.

Lemma dist_sq a b : dist a b * dist a b = (px a - px b) ^ 2 + (py a - py b) ^ 2 + (pz a - pz b) ^ 2.
Proof. unfold dist. apply sqrt_sqrt. pose proof (pow2_ge_0 (px a - px b)). pose proof (pow2_ge_0 (py a - py b)). pose proof (pow2_ge_0 (pz a - pz b)). lra. Qed.

(** one source seen from one target, in either order of distance *)
Lemma dist_places c x t (d := point_sub x c) (u := point_sub t c) : 0 < norm3 d -> 0 < norm3 u ->
  let y := dot (eff d) (eff u) / (norm3 d * norm3 u) in
  -1 <= y <= 1 /\ dist (place c t) (place c x) * dist (place c t) (place c x) = norm3 u * norm3 u - 2 * (norm3 d * norm3 u) * y + norm3 d * norm3 d.
Proof.
  intros Hd Hu y. pose proof (norm3_sq (eff d)) as Sd. pose proof (norm3_sq (eff u)) as Su. rewrite eff_norm in Sd, Su.
  set (v := eff d) in *. set (w := eff u) in *. set (rd := norm3 d) in *. set (ru := norm3 u) in *.
  assert (Ey : rd * ru * y = dot v w) by (unfold y; field; lra). assert (Prod : 0 < rd * ru) by nra.
  assert (CS : dot v w * dot v w <= (rd * ru) * (rd * ru)).
  { replace (rd * ru * (rd * ru)) with ((rd * rd) * (ru * ru)) by ring. rewrite Sd, Su. unfold dot.
    pose proof (pow2_ge_0 (px v * py w - py v * px w)). pose proof (pow2_ge_0 (px v * pz w - pz v * px w)). pose proof (pow2_ge_0 (py v * pz w - pz v * py w)). nra. }
  split.
  - rewrite <- Ey in CS. assert (y * y <= 1) by (apply Rmult_le_reg_l with ((rd * ru) * (rd * ru)); nra). nra.
  - rewrite dist_sq. unfold place, shift. fold d u. fold v w. cbn [px py pz]. replace (2 * (rd * ru) * y) with (2 * dot v w) by lra. rewrite Sd, Su. unfold dot. ring.
Qed.

Definition moved (c : pt) (l : list charge) : list charge := map (fun s => mkCharge (cq s) (place c (cpos s))) l.

Lemma moved_seen c l : (forall s, In s l -> 0 < dist c (cpos s)) -> seen_charges c l (moved c l).
Proof.
  intros H. unfold seen_charges, moved. induction l as [|s l IH]; cbn; constructor; [split; [reflexivity|]|].
  - apply place_seen, H. left. reflexivity.
  - apply IH. intros. apply H. right. assumption.
Qed.

Lemma pow_frac_le a b n : 0 <= a <= b -> a ^ n <= b ^ n.
Proof. intros H. apply pow_incr. exact H. Qed.

Lemma sum_bound (l : list charge) (g h : charge -> R) K : 0 <= K -> (forall s, In s l -> Rabs (g s - h s) <= Rabs (cq s) * K) ->
  Rabs (fold_right (fun s v => g s + v) 0 l - fold_right (fun s v => h s + v) 0 l) <= total_charge l * K.
Proof.
  intros HK H. induction l as [|s l IH]; cbn [fold_right]; [rewrite Rminus_0_r, Rabs_R0; unfold total_charge; cbn; lra|].
  change (total_charge (s :: l)) with (Rabs (cq s) + total_charge l).
  set (A := fold_right (fun s v => g s + v) 0 l) in *. set (B := fold_right (fun s v => h s + v) 0 l) in *.
  replace (g s + A - (h s + B)) with ((g s - h s) + (A - B)) by ring. eapply Rle_trans; [apply Rabs_triang|].
  pose proof (H s (or_introl eq_refl)). specialize (IH ltac:(intros; apply H; right; assumption)). lra.
Qed.

Lemma coulomb_moved c l t : coulomb (moved c l) t = fold_right (fun s v => cq s / dist t (place c (cpos s)) + v) 0 l.
Proof. unfold coulomb, moved. induction l as [|s l IH]; [reflexivity|]. cbn [map fold_right cq cpos]. rewrite IH. reflexivity. Qed.

(** the constant of the error bound, for a source at distance [r] and one at distance [R] *)
Lemma err_mono r a R p : 0 <= r <= a -> a < R -> / (R - r) * (r / R) ^ p <= / (R - a) * (a / R) ^ p.
Proof.
  intros H1 H2. apply Rmult_le_compat; [left; apply Rinv_0_lt_compat; lra|apply pow_le, Rmult_le_pos; [lra|left; apply Rinv_0_lt_compat; lra]|apply Rinv_le_contravar; lra|].
  apply pow_incr. split; [apply Rmult_le_pos; [lra|left; apply Rinv_0_lt_compat; lra]|]. apply Rmult_le_compat_r; [left; apply Rinv_0_lt_compat; lra|lra].
Qed.
Lemma err_mono' r a R p : 0 < r < a -> a <= R -> / (R - r) * (r / R) ^ p <= / (a - r) * (r / a) ^ p.
Proof.
  intros H1 H2. apply Rmult_le_compat; [left; apply Rinv_0_lt_compat; lra|apply pow_le, Rmult_le_pos; [lra|left; apply Rinv_0_lt_compat; lra]|apply Rinv_le_contravar; lra|].
  apply pow_incr. split; [apply Rmult_le_pos; [lra|left; apply Rinv_0_lt_compat; lra]|]. apply Rmult_le_compat_l; [lra|]. apply Rinv_le_contravar; lra.
Qed.

Lemma Fold_ext (l : list charge) (g h : charge -> R) : (forall s, In s l -> g s = h s) -> fold_right (fun s v => g s + v) 0 l = fold_right (fun s v => h s + v) 0 l.
Proof. induction l as [|s l IH]; intros H; [reflexivity|]. cbn [fold_right]. rewrite (H s (or_introl eq_refl)), IH by (intros; apply H; right; assumption). reflexivity. Qed.

Theorem multipole p sqf scale c l a : generate_sqf p = Ok sqf -> scale <> 0 -> (forall s, In s l -> 0 < dist c (cpos s) <= a) ->
  exists M, S_to_M p sqf scale c l = Ok M /\ forall t phi, 0 <= a < dist c t ->
    exists v, M_to_T p sqf scale c M t phi = Ok (phi + v) /\
      Rabs (v - coulomb (moved c l) (place c t)) <= total_charge l / (dist c t - a) * (a / dist c t) ^ S p.
Proof.
  intros HT Hs Hl. apply table_ok in HT.
  destruct (sources_ok p (fun M s => lap_s_to_m p sqf (point_sub (cpos s) c) (cq s) scale M) (fun r n => (r * scale) ^ n) c l) with (c := fun _ _ : nat => (0, 0)) (M := new_expansion p) as (M & c' & E & HM & V).
  - intros M c0 s b e HM _ Hb Ha. apply s_to_m_ok; assumption.
  - intros s Hin. rewrite norm3_dist. apply Hl, Hin.
  - apply new_coefs.
  - exists M. split; [exact E|]. intros t phi Ha. set (u := point_sub t c). assert (Hu : 0 < norm3 u) by (unfold u; rewrite norm3_dist; lra).
    destruct (angles_ok 1 u ltac:(ring) Hu) as (b & eb & Au & Bb & _). unfold M_to_T. fold u.
    rewrite (m_to_t_ok p sqf u scale c' M (norm3 u) b eb HT HM Au Bb Hu Hs). cbn [bind]. eexists. split; [reflexivity|].
    rewrite (V u b eb _ Hu Au), pot_zero, Rplus_0_l, coulomb_moved.
    assert (ER : norm3 u = dist c t) by (unfold u; apply norm3_dist).
    replace (total_charge l / (dist c t - a) * (a / dist c t) ^ S p) with (total_charge l * (/ (dist c t - a) * (a / dist c t) ^ S p)) by (unfold Rdiv; ring).
    apply sum_bound; [apply Rmult_le_pos; [left; apply Rinv_0_lt_compat; lra|apply pow_le, Rmult_le_pos; [lra|left; apply Rinv_0_lt_compat; lra]]|].
    intros s Hin. cbn zeta. set (d := point_sub (cpos s) c). assert (Hd : 0 < norm3 d <= a) by (unfold d; rewrite norm3_dist; apply Hl, Hin).
    destruct (dist_places c (cpos s) t (proj1 Hd) Hu) as [By Ey]. fold d u in By, Ey. set (y := dot (eff d) (eff u) / (norm3 d * norm3 u)) in *.
    eapply Rle_trans; [unfold contrib; erewrite (sumlt_ext _ (fun n => cq s * (norm3 d ^ n / norm3 u ^ S n) * D n 0 y)); [exact (trunc p (cq s) (norm3 d) (norm3 u - norm3 d) (norm3 u) (fun n => norm3 d ^ n / norm3 u ^ S n) y _ ltac:(lra) ltac:(lra) By eq_refl (fun n => eq_refl) (sqrt_pos _) Ey)|]|].
    + intros n _. rewrite !Rpow_mult_distr. simpl pow. field. repeat split; try (apply pow_nonzero); lra.
    + unfold Rdiv at 1. rewrite Rmult_assoc. apply Rmult_le_compat_l; [apply Rabs_pos|]. rewrite ER. apply err_mono; lra.
Qed.

Theorem local_exp p sqf scale c l a : generate_sqf p = Ok sqf -> scale <> 0 -> (forall s, In s l -> a <= dist c (cpos s)) -> 0 < a ->
  exists L, S_to_L p sqf scale c l = Ok L /\ forall t phi, 0 < dist c t < a ->
    exists v, L_to_T p sqf scale c L t phi = Ok (phi + v) /\
      Rabs (v - coulomb (moved c l) (place c t)) <= total_charge l / (a - dist c t) * (dist c t / a) ^ S p.
Proof.
  intros HT Hs Hl Ha0. apply table_ok in HT.
  destruct (sources_ok p (fun M s => lap_s_to_l p sqf (point_sub (cpos s) c) (cq s) scale M) (fun r n => 1 / r / (r * scale) ^ n) c l) with (c := fun _ _ : nat => (0, 0)) (M := new_expansion p) as (M & c' & E & HM & V).
  - intros M c0 s b e HM Hin Hb Ha. apply s_to_l_ok; try assumption. rewrite norm3_dist. pose proof (Hl s Hin). lra.
  - intros s Hin. rewrite norm3_dist. pose proof (Hl s Hin). lra.
  - apply new_coefs.
  - exists M. split; [exact E|]. intros t phi Ha. set (u := point_sub t c). assert (Hu : 0 < norm3 u) by (unfold u; rewrite norm3_dist; lra).
    destruct (angles_ok 1 u ltac:(ring) Hu) as (b & eb & Au & Bb & _). unfold L_to_T. fold u.
    rewrite (l_to_t_ok p sqf u scale c' M (norm3 u) b eb HT HM Au Bb). cbn [bind]. eexists. split; [reflexivity|].
    rewrite (V u b eb _ Hu Au), pot_zero, Rplus_0_l, coulomb_moved.
    assert (ER : norm3 u = dist c t) by (unfold u; apply norm3_dist).
    replace (total_charge l / (a - dist c t) * (dist c t / a) ^ S p) with (total_charge l * (/ (a - dist c t) * (dist c t / a) ^ S p)) by (unfold Rdiv; ring).
    apply sum_bound; [apply Rmult_le_pos; [left; apply Rinv_0_lt_compat; lra|apply pow_le, Rmult_le_pos; [lra|left; apply Rinv_0_lt_compat; lra]]|].
    intros s Hin. cbn zeta. set (d := point_sub (cpos s) c). assert (Hd : a <= norm3 d) by (unfold d; rewrite norm3_dist; apply Hl, Hin).
    destruct (dist_places c (cpos s) t ltac:(fold d; lra) Hu) as [By Ey]. fold d u in By, Ey. set (y := dot (eff d) (eff u) / (norm3 d * norm3 u)) in *.
    eapply Rle_trans; [unfold contrib; erewrite (sumlt_ext _ (fun n => cq s * (norm3 u ^ n / norm3 d ^ S n) * D n 0 y)); [exact (trunc p (cq s) (norm3 u) (norm3 d - norm3 u) (norm3 d) (fun n => norm3 u ^ n / norm3 d ^ S n) y (dist (place c t) (place c (cpos s))) ltac:(lra) ltac:(lra) By eq_refl (fun n => eq_refl) (sqrt_pos _) ltac:(rewrite Ey; ring))|]|].
    + intros n _. rewrite !Rpow_mult_distr. simpl pow. field. repeat split; try (apply pow_nonzero); lra.
    + unfold Rdiv at 1. rewrite Rmult_assoc. apply Rmult_le_compat_l; [apply Rabs_pos|]. rewrite ER. apply err_mono'; lra.
Qed.

(** ** adding expansions *)
Lemma add_expansion_ok A B : (length B <= length A)%nat -> exists C, add_expansion A B = Ok C /\ length C = length A /\
  forall k a b, nth_error A k = Some a -> nth_error B k = Some b -> nth_error C k = Some (cadd a b).
Proof.
  intros HL. unfold add_expansion.
  match goal with |- context [foldM ?F _ A] => destruct (loop_ind _ F (fun j C => length C = length A /\ forall k, (k < length A)%nat ->
    nth_error C k = if (k <? j)%nat then match nth_error A k, nth_error B k with Some a, Some b => Some (cadd a b) | _, _ => None end else nth_error A k) 0 (length B) A) as (C & E & L & H) end.
  - split; [reflexivity|]. intros k _. reflexivity.
  - intros j C Hj [L H]. cbn [Nat.add]. destruct (nth_error A j) as [a|] eqn:Ea; [|apply nth_error_None in Ea; lia]. destruct (nth_error B j) as [b|] eqn:Eb; [|apply nth_error_None in Eb; lia].
    rewrite (nth_ok _ C j a) by (rewrite H by lia; rewrite Nat.ltb_irrefl; exact Ea). cbn [bind]. rewrite (nth_ok _ B j b Eb). cbn [bind]. rewrite set_res_ok by lia. eexists. split; [reflexivity|]. split; [rewrite upd_length; exact L|].
    intros k Hk. destruct (Nat.eq_dec j k) as [<-|N].
    + rewrite upd_same by lia. rewrite Ea, Eb. destruct (Nat.ltb_spec j (S j)); [reflexivity|lia].
    + rewrite upd_other by exact N. rewrite H by exact Hk. destruct (Nat.ltb_spec k j), (Nat.ltb_spec k (S j)); try reflexivity; lia.
  - exists C. split; [exact E|]. split; [exact L|]. intros k a b Ha Hb. assert (k < length B)%nat by (apply nth_error_Some; congruence). rewrite H by lia. rewrite Ha, Hb. destruct (Nat.ltb_spec k (length B)); [reflexivity|lia].
Qed.

Lemma add_coefs p c c' M M' : coefs p c M -> coefs p c' M' -> exists M2, add_expansion M M' = Ok M2 /\ coefs p (fun n m => cadd (c n m) (c' n m)) M2.
Proof.
  intros [L H] [L' H']. destruct (add_expansion_ok M M') as (M2 & E & L2 & H2); [lia|]. exists M2. split; [exact E|]. split; [lia|]. intros n m B. apply H2; auto.
Qed.

(** steps that add something independent of the expansion they add it to *)
Definition adds (p : nat) (f : list cplx -> res (list cplx)) (T : nat -> nat -> cplx) : Prop :=
  forall c M, coefs p c M -> exists M', f M = Ok M' /\ coefs p (fun n m => cadd (c n m) (T n m)) M'.

Lemma adds_list p A (f : list cplx -> A -> res (list cplx)) l : (forall s, In s l -> exists T, adds p (fun M => f M s) T) -> exists T, adds p (fun M => foldM f l M) T.
Proof.
  induction l as [|s l IH]; intros H.
  - exists (fun _ _ => (0, 0)). intros c M HM. exists M. split; [reflexivity|]. apply coefs_ext with (2 := HM). intros n m _. unfold cadd. cbn [fst snd]. rewrite !Rplus_0_r. apply surjective_pairing.
  - destruct (H s (or_introl eq_refl)) as [T1 H1]. destruct IH as [T2 H2]; [intros; apply H; right; assumption|]. exists (fun n m => cadd (T1 n m) (T2 n m)). intros c M HM.
    destruct (H1 c M HM) as (M1 & E1 & C1). destruct (H2 _ M1 C1) as (M2 & E2 & C2). exists M2. cbn [foldM]. rewrite E1. cbn [bind]. split; [exact E2|].
    apply coefs_ext with (2 := C2). intros n m _. unfold cadd. cbn [fst snd]. f_equal; ring.
Qed.

Lemma foldM_app A S (f : S -> A -> res S) l1 l2 s : foldM f (l1 ++ l2) s = bind (foldM f l1 s) (fun s => foldM f l2 s).
Proof. revert s. induction l1 as [|a l1 IH]; intros s; [reflexivity|]. cbn [app foldM]. destruct (f s a); cbn [bind]; [apply IH|reflexivity]. Qed.

Lemma adds_app p (f : list cplx -> charge -> res (list cplx)) l1 l2 : (forall s, In s (l1 ++ l2) -> exists T, adds p (fun M => f M s) T) ->
  exists M1 M2 M, foldM f l1 (new_expansion p) = Ok M1 /\ foldM f l2 (new_expansion p) = Ok M2 /\ foldM f (l1 ++ l2) (new_expansion p) = Ok M /\ add_expansion M1 M2 = Ok M.
Proof.
  intros H. destruct (adds_list p charge f l1) as [T1 A1]; [intros; apply H, in_or_app; auto|]. destruct (adds_list p charge f l2) as [T2 A2]; [intros; apply H, in_or_app; auto|].
  destruct (A1 _ _ (new_coefs p)) as (M1 & E1 & C1). destruct (A2 _ _ (new_coefs p)) as (M2 & E2 & C2). destruct (A2 _ _ C1) as (M & E & C). destruct (add_coefs p _ _ M1 M2 C1 C2) as (M' & E' & C').
  exists M1, M2, M. split; [exact E1|]. split; [exact E2|]. split; [rewrite foldM_app, E1; exact E|]. rewrite E'. f_equal. apply (coefs_unique p) with (1 := C'). apply coefs_ext with (2 := C). intros n m _. unfold cadd. cbn [fst snd]. f_equal; ring.
Qed.

Lemma dist_zero c x : dist c x <= 0 -> x = c.
Proof.
  intros H. assert (E : dist c x = 0) by (apply Rle_antisym; [exact H|apply sqrt_pos]). pose proof (dist_sq c x) as S. rewrite E in S.
  pose proof (pow2_ge_0 (px c - px x)). pose proof (pow2_ge_0 (py c - py x)). pose proof (pow2_ge_0 (pz c - pz x)). destruct c as [c1 c2 c3], x as [x1 x2 x3]. cbn [px py pz] in *. f_equal; nra.
Qed.
Lemma dist_pos c x : x <> c -> 0 < dist c x.
Proof. intros N. destruct (Rlt_le_dec 0 (dist c x)) as [H|H]; [exact H|]. exfalso. exact (N (dist_zero c x H)). Qed.

Lemma m_adds p sqf scale c s : table p sqf -> cpos s <> c -> exists T, adds p (fun M => lap_s_to_m p sqf (point_sub (cpos s) c) (cq s) scale M) T.
Proof.
  intros HT N. apply dist_pos in N. rewrite <- norm3_dist in N. destruct (angles_ok (-1) _ ltac:(ring) N) as (a & e & Ad & Ba & _). eexists. intros c0 M HM. exact (s_to_m_ok p sqf _ (cq s) scale c0 M _ a e HT HM Ad Ba).
Qed.
Lemma l_adds p sqf scale c s : table p sqf -> scale <> 0 -> cpos s <> c -> exists T, adds p (fun M => lap_s_to_l p sqf (point_sub (cpos s) c) (cq s) scale M) T.
Proof.
  intros HT Hs N. apply dist_pos in N. rewrite <- norm3_dist in N. destruct (angles_ok (-1) _ ltac:(ring) N) as (a & e & Ad & Ba & _). eexists. intros c0 M HM. exact (s_to_l_ok p sqf _ (cq s) scale c0 M _ a e HT HM Ad Ba N Hs).
Qed.

(** ** a point at the centre *)
Lemma angles_centre sgn c : angles sgn (point_sub c c) = Fail DivZero.
Proof.
  unfold angles. assert (Z : norm3 (point_sub c c) = 0) by (apply norm3_unique; [lra|]; unfold point_sub; cbn [px py pz]; ring). rewrite Z.
  destruct (Rle_dec 0 tiny) as [_|N]; [|pose proof tiny_pos; lra]. cbn [bind]. unfold rdiv. destruct (Req_EM_T 0 0); [reflexivity|contradiction].
Qed.

Lemma fold_fails A S (f : S -> A -> res S) l x s : In x l -> (forall s, f s x = Fail DivZero) ->
  exists e, foldM f l s = Fail e.
Proof.
  intros Hin Hx. revert s. induction l as [|y l IH]; intros s; [destruct Hin|]. cbn [foldM]. destruct Hin as [->|Hin]; [rewrite Hx; eexists; reflexivity|].
  destruct (f s y) as [s'|e]; cbn [bind]; [apply IH, Hin|eexists; reflexivity].
Qed.
