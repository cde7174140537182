(** Multipole and local expansions of the Yukawa kernel: evaluation, error. *)
From Coq Require Import Reals List Lia Lra Psatz.
From Coquelicot Require Rcomplements.
From Verif Require Import Base ListFacts LegSpec LegProofs LegAdd LapModel LapSpec LapArrays LapProofs BesselSpec BesselProofs BesselAdd YukModel YukSpec YukBessel.
Import ListNotations.
Open Scope R_scope.

(** ** the table *)
Definition ytable (p : nat) (sqf : list R) : Prop := forall n m, (m <= n <= p)%nat -> nth_error sqf (midx n m) = Some ((2 * INR n + 1) * w n m).

Lemma ysqf_ok p : exists sqf, YukModel.generate_sqf p = Ok sqf /\ length sqf = ((p + 1) * (p + 2) / 2)%nat /\ ytable p sqf.
Proof.
  unfold YukModel.generate_sqf. rewrite set_res_ok by (rewrite repeat_length; lia). cbn [bind].
  match goal with |- context [foldM ?F (seq 1 (2 * p)) ?s] => destruct (loop_ind _ F (fun k a => length a = (2 * p + 1)%nat /\ forall i, (i <= k)%nat -> nth_error a i = Some (INR (fact i))) 1 (2 * p) s) as (a & E & L & H) end.
  - split; [rewrite upd_length, repeat_length; reflexivity|]. intros i Hi. replace i with 0%nat by lia. apply nth_upd0. lia.
  - intros k a Hk [L H]. replace (1 + k - 1)%nat with k by lia. rewrite (nth_ok _ _ _ _ (H k ltac:(lia))). cbn [bind]. change (1 + k)%nat with (S k). rewrite set_res_ok by lia. eexists. split; [reflexivity|]. split; [rewrite upd_length; exact L|].
    intros i Hi. destruct (Nat.eq_dec i (S k)) as [->|N]; [rewrite upd_same by lia; f_equal; rewrite fact_simpl, mult_INR; ring|rewrite upd_other by lia; apply H; lia].
  - rewrite E. cbn [bind]. set (s0 := repeat 0 ((p + 1) * (p + 2) / 2)). assert (Ls : length s0 = tri (S p)) by (unfold s0; rewrite repeat_length; apply size_tri).
    match goal with |- context [foldM ?F (seq 0 (S p)) ?s] => destruct (loop_ind _ F (fun k st => fst st = tri k /\ length (snd st) = tri (S p) /\ forall n m, (m <= n)%nat -> (n < k)%nat -> nth_error (snd st) (midx n m) = Some ((2 * INR n + 1) * w n m)) 0 (S p) s) as ((ix & sqf) & E2 & _ & L2 & H2) end.
    + cbn [fst snd]. split; [reflexivity|]. split; [exact Ls|]. intros n m _ B. lia.
    + intros n [ix sqf] Hn (Ei & Lq & Hq). cbn [fst snd] in Ei, Lq, Hq. change (0 + n)%nat with n.
      match goal with |- context [foldM ?F (seq 0 (S n)) ?s] => destruct (loop_ind _ F (fun k st => fst st = (tri n + k)%nat /\ length (snd st) = tri (S p) /\ forall i m, (m <= i)%nat -> (i < n \/ (i = n /\ m < k))%nat -> nth_error (snd st) (midx i m) = Some ((2 * INR i + 1) * w i m)) 0 (S n) s) as ((ix' & sqf') & E3 & Ei' & L3 & H3) end.
      * cbn [fst snd]. split; [lia|]. split; [exact Lq|]. intros i m B [C|[_ C]]; [apply Hq; assumption|lia].
      * intros m [ix' sqf'] Hm (Ei' & L' & H'). cbn [fst snd] in Ei', L', H'. change (0 + m)%nat with m. rewrite (nth_ok _ _ _ _ (H (n - m)%nat ltac:(lia))), (nth_ok _ _ _ _ (H (n + m)%nat ltac:(lia))). cbn [bind].
        pose proof (INR_fact_lt_0 (n + m)). rewrite rdiv_ok by lra. cbn [bind]. subst ix'. rewrite <- midx_tri. pose proof (midx_lt n m p ltac:(lia) ltac:(lia)) as Bm. rewrite set_res_ok by lia. cbn [bind].
        eexists. split; [reflexivity|]. cbn [fst snd]. split; [rewrite midx_tri; lia|]. split; [rewrite upd_length; exact L'|].
        intros i m' B C. destruct (Nat.eq_dec (midx n m) (midx i m')) as [Eq|Ne].
        -- destruct (midx_inj n m i m' ltac:(lia) B Eq) as [-> ->]. rewrite upd_same by lia. f_equal. unfold w. field. lra.
        -- rewrite upd_other by exact Ne. apply H'; [exact B|]. destruct C as [C|[-> C]]; [left; exact C|right; split; [reflexivity|]]. destruct (Nat.eq_dec m' m) as [->|]; [contradiction|lia].
      * exists (ix', sqf'). split; [exact E3|]. cbn [fst snd] in *. split; [rewrite Ei', tri_S; reflexivity|]. split; [exact L3|]. intros i m B C. apply H3; [exact B|]. destruct (Nat.eq_dec i n) as [->|]; [right; split; [reflexivity|lia]|left; lia].
    + rewrite E2. cbn [bind fst snd] in *. exists sqf. split; [reflexivity|]. split; [rewrite L2; symmetry; apply size_tri|]. intros n m B. apply H2; lia.
Qed.
Lemma ytable_ok p sqf : YukModel.generate_sqf p = Ok sqf -> ytable p sqf.
Proof. intros H. destruct (ysqf_ok p) as (a & E & _ & T). rewrite E in H. injection H as <-. exact T. Qed.

(** ** coefficients: those of the Laplace proofs times the root of (n-m)!/(n+m)! *)
Definition ycoefs (p : nat) (c : nat -> nat -> cplx) (M : list cplx) : Prop := coefs p (fun n m => cscale (c n m) (ratio n m)) M.

Lemma yadd_terms_ok p sqf q bessel pe leg fr fe fl c M : ytable p sqf ->
  (forall j, (j <= p)%nat -> nth_error bessel j = Some (fr j)) -> (forall j, (j <= p)%nat -> nth_error pe j = Some (fe j)) ->
  (forall i m, (m <= i <= p)%nat -> nth_error leg (midx i m) = Some (fl i m)) -> ycoefs p c M ->
  exists M', yuk_add_terms p sqf q bessel pe leg M = Ok M' /\ ycoefs p (fun n m => cadd (c n m) (term q (fun n => (2 * INR n + 1) * fr n) fe fl n m)) M'.
Proof.
  intros Hs Hr He Hl HM. unfold yuk_add_terms, ycoefs in *. set (g := fun n m => cscale (cadd (c n m) (term q (fun n => (2 * INR n + 1) * fr n) fe fl n m)) (ratio n m)). set (c0 := fun n m => cscale (c n m) (ratio n m)) in *.
  match goal with |- context [foldM ?F _ M] => destruct (loop_ind _ F (fun k M' => coefs p (fun i j => if (i <? k)%nat then g i j else c0 i j) M') 0 (S p) M) as (M' & E & H) end.
  - exact HM.
  - intros n M1 Hn H1. cbn [Nat.add].
    match goal with |- context [foldM ?F _ M1] => destruct (loop_ind _ F (fun k M' => coefs p (fun i j => if ((i <? n) || ((i =? n) && (j <? k)))%nat%bool then g i j else c0 i j) M') 0 (S n) M1) as (M2 & E2 & H2) end.
    + apply (coefs_ext p (fun i j => if (i <? n)%nat then g i j else c0 i j)); [|exact H1]. intros i j B. replace (j <? 0)%nat with false by reflexivity. rewrite Bool.andb_false_r, Bool.orb_false_r. reflexivity.
    + intros m M2 Hm H2. cbn [Nat.add]. rewrite (nth_ok _ _ _ _ (Hr n ltac:(lia))), (nth_ok _ _ _ _ (Hs n m ltac:(lia))), (nth_ok _ _ _ _ (Hl n m ltac:(lia))), (nth_ok _ _ _ _ (He m ltac:(lia))). cbn [bind].
      pose proof (proj2 H2 n m ltac:(lia)) as Hold. cbn beta in Hold. rewrite Nat.ltb_irrefl, Nat.eqb_refl, Nat.ltb_irrefl in Hold. cbn [orb andb] in Hold. rewrite (nth_ok _ _ _ _ Hold). cbn [bind].
      match goal with |- context [set_res M2 _ ?V] => destruct (coefs_set p c0 _ g M2 n m V H2) as [E3 H3] end.
      * lia.
      * unfold g, c0, term. fold (ratio n m). rewrite <- ratio_w. unfold cadd, cscale. cbn [fst snd]. f_equal; ring.
      * eexists. split; [exact E3|]. apply (coefs_ext p _ _ _) with (2 := H3). intros i j B. cbn beta.
        replace ((i <? n)%nat || (i =? n)%nat && (j <? S m)%nat)%bool with (((i <? n)%nat || (i =? n)%nat && (j <? m)%nat) || (i =? n)%nat && (j =? m)%nat)%bool; [reflexivity|].
        rewrite <- Bool.orb_assoc, <- Bool.andb_orb_distrib_r. f_equal. f_equal. destruct (Nat.ltb_spec j m), (Nat.eqb_spec j m), (Nat.ltb_spec j (S m)); cbn; try reflexivity; lia.
    + exists M2. split; [exact E2|]. apply (coefs_ext p _ _ _) with (2 := H2). intros i j B. cbn beta.
      replace ((i <? n)%nat || (i =? n)%nat && (j <? S n)%nat)%bool with (i <? S n)%nat; [reflexivity|].
      destruct (Nat.ltb_spec i n), (Nat.eqb_spec i n), (Nat.ltb_spec i (S n)), (Nat.ltb_spec j (S n)); cbn; try reflexivity; lia.
  - exists M'. split; [exact E|]. apply (coefs_ext p _ _ _) with (2 := H). intros i j B. cbn beta. destruct (Nat.ltb_spec i (S p)); [reflexivity|lia].
Qed.

Lemma ypotential_ok p bessel pe leg fr (fe : nat -> cplx) fl c M :
  (forall j, (j <= p)%nat -> nth_error bessel j = Some (fr j)) -> (forall j, (j <= p)%nat -> nth_error pe j = Some (fe j)) -> fe 0%nat = (1, 0) ->
  (forall i m, (m <= i <= p)%nat -> nth_error leg (midx i m) = Some (fl i m)) -> ycoefs p c M ->
  exists phi, yuk_potential_terms p bessel pe leg M = Ok phi /\ creal phi = pot p fr fe fl c.
Proof.
  intros Hr He He0 Hl [_ HM]. unfold yuk_potential_terms. set (T := pterm fr fe fl c).
  match goal with |- context [bind (foldM ?F (seq 0 (S p)) _) _] => destruct (loop_ind _ F (fun k phi => creal phi = sumlt (fun n => T n 0%nat) k) 0 (S p) (0, 0)) as (phi1 & E1 & H1) end.
  - reflexivity.
  - intros n phi Hn Hp. cbn [Nat.add]. rewrite (nth_ok _ _ _ _ (HM n 0%nat ltac:(lia))), (nth_ok _ _ _ _ (Hr n ltac:(lia))), (nth_ok _ _ _ _ (Hl n 0%nat ltac:(lia))). cbn [bind]. eexists. split; [reflexivity|].
    cbn [sumlt]. rewrite <- Hp. unfold T, pterm, creal, cadd, cscale, cmul. rewrite ratio_0, He0. cbn [fst snd eps]. ring.
  - rewrite E1. cbn [bind].
    match goal with |- context [foldM ?F (seq 1 p) _] => destruct (loop_ind _ F (fun k phi => creal phi = sumlt (fun n => T n 0%nat) (S p) + sumlt (fun i => sumlt (fun j => T (S i) (S j)) (S i)) k) 1 p phi1) as (phi2 & E2 & H2) end.
    + rewrite H1. cbn [sumlt]. ring.
    + intros n phi Hn Hp. change (1 + n)%nat with (S n).
      match goal with |- context [foldM ?F (seq 1 (S n)) _] => destruct (loop_ind _ F (fun k phi' => creal phi' = creal phi + sumlt (fun j => T (S n) (S j)) k) 1 (S n) phi) as (phi3 & E3 & H3) end.
      * cbn [sumlt]. ring.
      * intros m phi' Hm Hp'. cbn beta. change (1 + m)%nat with (S m). rewrite (nth_ok _ _ _ _ (HM (S n) (S m) ltac:(lia))), (nth_ok _ _ _ _ (He (S m) ltac:(lia))), (nth_ok _ _ _ _ (Hr (S n) ltac:(lia))), (nth_ok _ _ _ _ (Hl (S n) (S m) ltac:(lia))). cbn [bind].
        eexists. split; [reflexivity|]. cbn [sumlt]. rewrite <- Rplus_assoc, <- Hp'. unfold T, pterm, creal, cadd, cmul, cscale. cbn [fst snd eps]. ring.
      * exists phi3. split; [exact E3|]. rewrite H3, Hp. change (sumlt (fun i => sumlt (fun j => T (S i) (S j)) (S i)) (S n)) with (sumlt (fun i => sumlt (fun j => T (S i) (S j)) (S i)) n + sumlt (fun j => T (S n) (S j)) (S n)). ring.
    + exists phi2. split; [exact E2|]. rewrite H2. unfold pot. fold T.
      rewrite (sumlt_ext (fun n => sumlt (T n) (S n)) (fun n => T n 0%nat + sumlt (fun j => T n (S j)) n)) by (intros j _; apply sumlt_shift).
      rewrite sumlt_plus. f_equal. rewrite sumlt_shift. cbn [sumlt]. ring.
Qed.

(** ** the four operations *)
Lemma ys_step p sqf (bes : R -> res (list R)) (fr : nat -> R) q d c M r ct e : ytable p sqf -> ycoefs p c M -> angles (-1) d = Ok (r, ct, e) -> -1 <= ct <= 1 ->
  (exists B, bes r = Ok B /\ forall n, (n <= p)%nat -> nth_error B n = Some (fr n)) ->
  exists M', (do (r, ctheta, ephi) <- angles (-1) d; do pe <- set_res (repeat (0, 0) (p + 1)) 0 (1, 0); do pe <- fill (fun v => Ok (cmul v ephi)) p pe; do bessel <- bes r;
              do leg <- legendre_Plm p ctheta (repeat 0 ((p + 1) * (p + 2) / 2)); yuk_add_terms p sqf q bessel pe leg M) = Ok M' /\
    ycoefs p (fun n m => cadd (c n m) (term q (fun n => (2 * INR n + 1) * fr n) (cpow e) (Q ct) n m)) M'.
Proof.
  intros HT HM HA Hc (B & EB & HB). rewrite HA. cbn [bind]. rewrite set_res_ok by (rewrite repeat_length; lia). cbn [bind].
  destruct (fill_ok cplx (fun v => Ok (cmul v e)) (cpow e) p (upd (repeat (0, 0) (p + 1)) 0 (1, 0))) as (pe & Ee & He); [rewrite upd_length, repeat_length; lia|apply (nth_upd0 cplx); lia|reflexivity|]. rewrite Ee. cbn [bind].
  rewrite EB. cbn [bind].
  destruct (plm_ok p ct Hc (repeat 0 ((p + 1) * (p + 2) / 2))) as (leg & El & _ & Hl); [rewrite repeat_length, size_tri; lia|]. rewrite El. cbn [bind].
  apply yadd_terms_ok; assumption.
Qed.

Lemma yt_step p (bes : R -> res (list R)) (fr : nat -> R) d c M r ct e : ycoefs p c M -> angles 1 d = Ok (r, ct, e) -> -1 <= ct <= 1 ->
  (exists B, bes r = Ok B /\ forall n, (n <= p)%nat -> nth_error B n = Some (fr n)) ->
  (do (r, ctheta, ephi) <- angles 1 d; do pe <- set_res (repeat (0, 0) (p + 2)) 0 (1, 0); do pe <- fill (fun v => Ok (cmul v ephi)) (p + 1) pe; do bessel <- bes r;
   do leg <- legendre_Plm (p + 1) ctheta (repeat 0 ((p + 2) * (p + 3) / 2)); do phi <- yuk_potential_terms p bessel pe leg M; Ok (creal phi)) =
  Ok (pot p fr (cpow e) (Q ct) c).
Proof.
  intros HM HA Hc (B & EB & HB). rewrite HA. cbn [bind]. rewrite set_res_ok by (rewrite repeat_length; lia). cbn [bind].
  destruct (fill_ok cplx (fun v => Ok (cmul v e)) (cpow e) (p + 1) (upd (repeat (0, 0) (p + 2)) 0 (1, 0))) as (pe & Ee & He); [rewrite upd_length, repeat_length; lia|apply (nth_upd0 cplx); lia|reflexivity|]. rewrite Ee. cbn [bind].
  rewrite EB. cbn [bind].
  destruct (plm_ok (p + 1) ct Hc (repeat 0 ((p + 2) * (p + 3) / 2))) as (leg & El & _ & Hl); [rewrite repeat_length, size_tri2, Nat.add_1_r; lia|]. rewrite El. cbn [bind].
  destruct (ypotential_ok p B pe leg fr (cpow e) (Q ct) c M) as (phi & Ep & Hp); try assumption.
  - intros j Hj. apply He. lia.
  - reflexivity.
  - intros i m Bm. apply Hl. lia.
  - rewrite Ep. cbn [bind]. rewrite Hp. reflexivity.
Qed.

(** sums over sources *)
Lemma ysources_ok p (f : list cplx -> charge -> res (list cplx)) (G : R -> nat -> R) ctr l :
  (forall M c s a e, ycoefs p c M -> In s l -> -1 <= a <= 1 -> angles (-1) (point_sub (cpos s) ctr) = Ok (norm3 (point_sub (cpos s) ctr), a, e) ->
     exists M', f M s = Ok M' /\ ycoefs p (fun n m => cadd (c n m) (term (cq s) (G (norm3 (point_sub (cpos s) ctr))) (cpow e) (Q a) n m)) M') ->
  (forall s, In s l -> 0 < norm3 (point_sub (cpos s) ctr)) ->
  forall c M, ycoefs p c M -> exists M' c', foldM f l M = Ok M' /\ ycoefs p c' M' /\
    forall t b eb fr, 0 < norm3 t -> angles 1 t = Ok (norm3 t, b, eb) ->
      pot p fr (cpow eb) (Q b) c' = pot p fr (cpow eb) (Q b) c +
        fold_right (fun s v => let d := point_sub (cpos s) ctr in contrib p (cq s) (G (norm3 d)) fr (dot (eff d) (eff t) / (norm3 d * norm3 t)) + v) 0 l.
Proof.
  intros Hf Hl. induction l as [|s l IH]; intros c M HM.
  - exists M, c. split; [reflexivity|]. split; [exact HM|]. intros. cbn [fold_right]. ring.
  - set (d := point_sub (cpos s) ctr). assert (Hd : 0 < norm3 d) by (apply Hl; left; reflexivity).
    destruct (angles_ok (-1) d ltac:(ring) Hd) as (a & e & Ad & Ba & _). destruct (Hf M c s a e HM (or_introl eq_refl) Ba Ad) as (M1 & E1 & H1).
    destruct (IH ltac:(intros; apply Hf; try right; assumption) ltac:(intros; apply Hl; right; assumption) _ M1 H1) as (M' & c' & E' & H' & V').
    exists M', c'. cbn [foldM]. rewrite E1. cbn [bind]. split; [exact E'|]. split; [exact H'|]. intros t b eb fr Ht At. rewrite (V' t b eb fr Ht At), pot_add. cbn [fold_right]. fold d.
    rewrite (pot_term p (cq s) (G (norm3 d)) fr a b e eb d t Hd Ht Ad At). ring.
Qed.
Lemma ynew_coefs p : ycoefs p (fun _ _ => (0, 0)) (new_expansion p).
Proof. unfold ycoefs. apply (coefs_ext p (fun _ _ => (0, 0))); [|apply new_coefs]. intros. unfold cscale. cbn [fst snd]. f_equal; ring. Qed.

(** ** the error of one pair; [g] the regular functions as computed, [x] the nearer and [y]
    the farther distance *)
Lemma exp_le a b : a <= b -> exp a <= exp b.
Proof. intros H. destruct (Rle_lt_or_eq_dec _ _ H) as [L|L]; [left; apply exp_increasing, L|rewrite L; lra]. Qed.
Lemma inv_le a b : 0 < a <= b -> / b <= / a.
Proof. intros H. apply Rinv_le_contravar; lra. Qed.

Lemma sumlt_abs f g k : (forall n, (n < k)%nat -> Rabs (f n) <= g n) -> Rabs (sumlt f k) <= sumlt g k.
Proof. induction k as [|k IH]; intros H; cbn [sumlt]; [rewrite Rabs_R0; lra|]. eapply Rle_trans; [apply Rabs_triang|]. pose proof (IH ltac:(intros; apply H; lia)). pose proof (H k ltac:(lia)). lra. Qed.
Lemma sumlt_const_le f k K : 0 <= K -> (forall n, (n < k)%nat -> f n <= K) -> sumlt f k <= INR k * K.
Proof. intros HK. induction k as [|k IH]; intros H; cbn [sumlt]; [simpl; lra|]. rewrite S_INR. pose proof (IH ltac:(intros; apply H; lia)). pose proof (H k ltac:(lia)). lra. Qed.

Lemma pair_error p eta scale x y c dd g q : (p <= 18)%nat -> 0 <= eta -> 0 < x < y -> 0 < scale <= y -> -1 <= c <= 1 -> 0 <= dd -> dd * dd = y * y - 2 * (x * y) * c + x * x ->
  (forall n, (n <= p)%nat -> Rabs (g n * scale ^ n - ii n x) <= eta * ii n x + 2 * enmten * scale ^ n) ->
  Rabs (sumlt (fun n => q * ((2 * INR n + 1) * g n) * (PI / 2 * scale ^ n * kk n y) * D n 0 c) (S p) - q * (PI / 2) * (exp (- dd) / dd)) <= Rabs q * yuk_error p eta x y.
Proof.
  intros Hp Heta Hx Hs Hc Hdd Ed Hg. pose proof PI_RGT_0 as Pp. pose proof enmten_pos as Pe.
  pose proof (addition_path p x y c dd Hx Hc Hdd Ed) as A. pose proof (addition_dir p x y Hx) as A1.
  assert (Dd : y - x <= dd). { assert ((y - x) * (y - x) <= dd * dd) by (rewrite Ed; assert (0 < x * y) by nra; nra). nra. }
  assert (Tr : Rabs (CN p x y c - exp (- dd) / dd) <= truncation p x y).
  { eapply Rle_trans; [exact A|]. unfold truncation. rewrite Nat.add_1_r. apply Rmult_le_compat_r; [apply pow_le, Rmult_le_pos; [lra|left; apply Rinv_0_lt_compat; lra]|].
    pose proof (pos_INR p). apply Rmult_le_compat_r; [apply Rmult_le_pos; [left; apply exp_pos|]; assert (0 <= x * x / ((2 * INR p + 1) * (2 * INR p + 3))) by (apply Rmult_le_pos; [nra|left; apply Rinv_0_lt_compat; nra]); lra|].
    assert (I1 : / dd <= / (y - x)) by (apply inv_le; lra). assert (I0 : 0 < / dd) by (apply Rinv_0_lt_compat; lra).
    replace (2 * (dd + x) / (dd * dd)) with (2 * (/ dd + x * (/ dd * / dd))) by (field; lra). replace (2 * y / ((y - x) * (y - x))) with (2 * (/ (y - x) + x * (/ (y - x) * / (y - x)))) by (field; lra). assert (/ dd * / dd <= / (y - x) * / (y - x)) by nra. nra. }
  set (e := fun n => (2 * INR n + 1) * (g n * scale ^ n - ii n x) * kk n y * D n 0 c).
  replace (sumlt (fun n => q * ((2 * INR n + 1) * g n) * (PI / 2 * scale ^ n * kk n y) * D n 0 c) (S p)) with (q * (PI / 2) * (CN p x y c + sumlt e (S p))).
  2:{ unfold CN. rewrite sumlt_sum, <- sumlt_plus, <- sumlt_scal. apply sumlt_ext. intros n _. unfold e. ring. }
  assert (Er : Rabs (sumlt e (S p)) <= eta * (exp (- (y - x)) / (y - x)) + / 10 ^ 260 / y).
  { eapply Rle_trans; [apply (sumlt_abs e (fun n => eta * ((2 * INR n + 1) * ii n x * kk n y * D n 0 1) + 2 * enmten * ((2 * INR n + 1) * scale ^ n * kk n y)))|].
    - intros n Hn. specialize (Hg n ltac:(lia)). unfold e. rewrite !Rabs_mult. pose proof (legendre_le_1 n c Hc) as L. pose proof (kk_pos n y ltac:(lra)) as K. pose proof (pos_INR n) as Pn. rewrite (Rabs_pos_eq (kk n y)), (Rabs_pos_eq (2 * INR n + 1)) by lra.
      rewrite (proj1 (D_one n)). set (h := Rabs (g n * scale ^ n - ii n x)) in *. pose proof (Rabs_pos (D n 0 c)) as PD. assert (Ph : 0 <= h) by apply Rabs_pos. assert (Pk : 0 <= (2 * INR n + 1) * kk n y) by (apply Rmult_le_pos; lra).
      apply Rle_trans with ((2 * INR n + 1) * kk n y * h); [replace ((2 * INR n + 1) * h * kk n y * Rabs (D n 0 c)) with ((2 * INR n + 1) * kk n y * h * Rabs (D n 0 c)) by ring; assert (0 <= (2 * INR n + 1) * kk n y * h) by (apply Rmult_le_pos; assumption); nra|].
      apply Rle_trans with ((2 * INR n + 1) * kk n y * (eta * ii n x + 2 * enmten * scale ^ n)); [apply Rmult_le_compat_l; assumption|right; ring].
    - rewrite sumlt_plus, !sumlt_scal. apply Rplus_le_compat.
      + apply Rmult_le_compat_l; [exact Heta|]. rewrite <- sumlt_sum. exact A1.
      + apply Rle_trans with (2 * enmten * (INR (S p) * (10 ^ 38 * / y))).
        * apply Rmult_le_compat_l; [lra|]. apply sumlt_const_le; [apply Rmult_le_pos; [apply pow_le; lra|left; apply Rinv_0_lt_compat; lra]|]. intros n Hn. pose proof (kk_up n y ltac:(lra)) as K. pose proof (pos_INR n) as Pn. pose proof (pow_lt scale n ltac:(lra)) as Ps. pose proof (oddm_ge n) as Og.
          apply Rle_trans with ((2 * INR n + 1) * scale ^ n * (oddm n / y ^ S n)); [apply Rmult_le_compat_l; [apply Rmult_le_pos; lra|exact K]|].
          pose proof (pow_lt y n ltac:(lra)) as Py. replace ((2 * INR n + 1) * scale ^ n * (oddm n / y ^ S n)) with (((2 * INR n + 1) * oddm n) * (scale / y) ^ n * / y) by (unfold Rdiv; rewrite Rpow_mult_distr, pow_inv; simpl pow; field; split; lra).
          rewrite <- oddm_S. cbn [oddm]. apply Rmult_le_compat_r; [left; apply Rinv_0_lt_compat; lra|]. pose proof (odd_38 n ltac:(lia)) as O. pose proof (odd_ge n).
          assert (Q1 : 0 <= (scale / y) ^ n <= 1). { split; [apply pow_le, Rmult_le_pos; [lra|left; apply Rinv_0_lt_compat; lra]|]. rewrite <- (pow1 n). apply pow_incr. split; [apply Rmult_le_pos; [lra|left; apply Rinv_0_lt_compat; lra]|]. apply Rmult_le_reg_r with y; [lra|]. unfold Rdiv. rewrite Rmult_assoc, Rinv_l by lra. lra. }
          nra.
        * replace (2 * enmten * (INR (S p) * (10 ^ 38 * / y))) with ((2 * INR (S p) * (enmten * 10 ^ 38)) * / y) by ring. apply Rmult_le_compat_r; [left; apply Rinv_0_lt_compat; lra|].
          assert (Sp : INR (S p) <= 19) by (change 19 with (IZR (Z.of_nat 19)); rewrite <- INR_IZR_INZ; apply le_INR; lia). pose proof (pos_INR (S p)).
          assert (E1 : enmten * 10 ^ 38 = / 10 ^ 262). { unfold enmten. replace (10 ^ 300) with (10 ^ 262 * 10 ^ 38) by (rewrite <- pow_add; reflexivity). pose proof (pow_lt 10 262 ltac:(lra)). pose proof (pow_lt 10 38 ltac:(lra)). field; split; lra. }
          rewrite E1. replace (/ 10 ^ 260) with (100 * / 10 ^ 262). 2:{ replace (10 ^ 262) with (10 ^ 260 * 100) by (replace 262%nat with (260 + 2)%nat by reflexivity; rewrite pow_add; ring). pose proof (pow_lt 10 260 ltac:(lra)). field; lra. }
          assert (0 < / 10 ^ 262) by (apply Rinv_0_lt_compat, pow_lt; lra). nra. }
  replace (q * (PI / 2) * (CN p x y c + sumlt e (S p)) - q * (PI / 2) * (exp (- dd) / dd)) with (q * (PI / 2 * ((CN p x y c - exp (- dd) / dd) + sumlt e (S p)))) by ring.
  rewrite Rabs_mult. apply Rmult_le_compat_l; [apply Rabs_pos|]. rewrite Rabs_mult, (Rabs_pos_eq (PI / 2)) by lra. unfold yuk_error. apply Rmult_le_compat_l; [lra|]. eapply Rle_trans; [apply Rabs_triang|]. lra.
Qed.

Lemma yuk_error_mono p eta x a y b : 0 <= eta -> 0 < x <= a -> a < b -> b <= y -> yuk_error p eta x y <= yuk_error p eta a b.
Proof.
  intros Heta Hx Hab Hb. pose proof PI_RGT_0 as Pp. unfold yuk_error. apply Rmult_le_compat_l; [lra|].
  assert (I1 : / (y - x) <= / (b - a)) by (apply inv_le; lra). assert (I0 : 0 < / (y - x)) by (apply Rinv_0_lt_compat; lra). assert (J1 : / y <= / b) by (apply inv_le; lra). assert (J0 : 0 < / y) by (apply Rinv_0_lt_compat; lra).
  apply Rplus_le_compat; [apply Rplus_le_compat|].
  - unfold truncation. pose proof (pos_INR p) as Pn. rewrite Nat.add_1_r. simpl pow.
    set (E := fun x => exp (x * x / (2 * (2 * INR p + 3))) * (1 + x * x / ((2 * INR p + 1) * (2 * INR p + 3)))).
    assert (E0 : forall x, 0 <= E x). { intros z. unfold E. apply Rmult_le_pos; [left; apply exp_pos|]. assert (0 <= z * z / ((2 * INR p + 1) * (2 * INR p + 3))) by (apply Rmult_le_pos; [apply Rle_0_sqr|left; apply Rinv_0_lt_compat; nra]). lra. }
    assert (Em : E x <= E a). { unfold E. assert (Sq : x * x <= a * a) by nra. apply Rmult_le_compat; [left; apply exp_pos| | |].
      - assert (0 <= x * x / ((2 * INR p + 1) * (2 * INR p + 3))) by (apply Rmult_le_pos; [apply Rle_0_sqr|left; apply Rinv_0_lt_compat; nra]). lra.
      - apply exp_le. apply Rmult_le_compat_r; [left; apply Rinv_0_lt_compat; lra|exact Sq].
      - apply Rplus_le_compat_l. apply Rmult_le_compat_r; [left; apply Rinv_0_lt_compat; nra|exact Sq]. }
    fold (E x) (E a).
    replace (2 * y / ((y - x) * (y - x)) * E x * (x / y * (x / y) ^ p)) with (2 * (/ (y - x) * / (y - x)) * E x * (x * (x / y) ^ p)) by (field; split; lra).
    replace (2 * b / ((b - a) * (b - a)) * E a * (a / b * (a / b) ^ p)) with (2 * (/ (b - a) * / (b - a)) * E a * (a * (a / b) ^ p)) by (field; split; lra).
    assert (U : 0 <= x / y <= a / b). { split; [apply Rmult_le_pos; lra|]. apply Rmult_le_compat; lra. }
    assert (Up : 0 <= (x / y) ^ p <= (a / b) ^ p) by (split; [apply pow_le; lra|apply pow_incr; exact U]).
    assert (S1 : 0 <= / (y - x) * / (y - x) <= / (b - a) * / (b - a)) by (split; nra).
    apply Rmult_le_compat; [apply Rmult_le_pos; [lra|apply E0]|apply Rmult_le_pos; lra| |apply Rmult_le_compat; lra]. apply Rmult_le_compat; [lra|apply E0|lra|exact Em].
  - apply Rmult_le_compat_l; [exact Heta|]. apply Rmult_le_compat; [left; apply exp_pos|lra|apply exp_le; lra|exact I1].
  - apply Rmult_le_compat_l; [left; apply Rinv_0_lt_compat, pow_lt; lra|exact J1].
Qed.

Lemma yuk_error_nonneg p eta a b : 0 <= eta -> 0 < a < b -> 0 <= yuk_error p eta a b.
Proof.
  intros He H. unfold yuk_error, truncation. pose proof PI_RGT_0. pose proof (pos_INR p). apply Rmult_le_pos; [lra|]. apply Rplus_le_le_0_compat; [apply Rplus_le_le_0_compat|].
  - apply Rmult_le_pos; [|apply pow_le, Rmult_le_pos; [lra|left; apply Rinv_0_lt_compat; lra]]. apply Rmult_le_pos; [apply Rmult_le_pos; [lra|left; apply Rinv_0_lt_compat; nra]|]. apply Rmult_le_pos; [left; apply exp_pos|].
    assert (0 <= a * a / ((2 * INR p + 1) * (2 * INR p + 3))) by (apply Rmult_le_pos; [nra|left; apply Rinv_0_lt_compat; nra]). lra.
  - apply Rmult_le_pos; [exact He|]. apply Rmult_le_pos; [left; apply exp_pos|left; apply Rinv_0_lt_compat; lra].
  - apply Rmult_le_pos; left; apply Rinv_0_lt_compat; [apply pow_lt; lra|lra].
Qed.

Lemma screened_moved lambda c l t : screened lambda (moved c l) t = fold_right (fun s v => cq s * (PI / 2) * (exp (- (lambda * dist t (place c (cpos s)))) / (lambda * dist t (place c (cpos s)))) + v) 0 l.
Proof. unfold screened, moved. induction l as [|s l IH]; [reflexivity|]. cbn [map fold_right cq cpos]. rewrite IH. reflexivity. Qed.

(** the entries of an array, zero beyond its end *)
Definition entry (rb : res (list R)) (n : nat) : R := match rb with Ok B => nth n B 0 | Fail _ => 0 end.
Lemma entry_ok B n b : nth_error B n = Some b -> entry (Ok B) n = b.
Proof. intros H. cbn. apply nth_error_nth with (d := 0) in H. exact H. Qed.
Lemma entry_all rb B p : rb = Ok B -> (p < length B)%nat -> forall n, (n <= p)%nat -> nth_error B n = Some (entry rb n).
Proof. intros -> HL n Hn. cbn. apply nth_error_nth'. lia. Qed.

Section Expansions.
Variables (bIn : bessel_I) (eta : R).
Hypothesis HI : computes_I bIn eta.
Hypothesis Heta : / 10 ^ 17 <= eta <= / 2.
Variables (p : nat) (lambda : R) (sqf : list R) (scale : R) (c : pt) (l : list charge) (a : R).
Hypothesis Hp : (1 <= p <= 18)%nat.
Hypothesis HT : YukModel.generate_sqf p = Ok sqf.
Hypothesis Hlam : 0 < lambda.
Hypothesis Hscale : 0 < scale <= 1.

Let eta_pos : 0 <= eta.
Proof. assert (0 < / 10 ^ 17) by (apply Rinv_0_lt_compat, pow_lt; lra). lra. Qed.

Lemma in_vals nb x : (nb <= 19)%nat -> 0 < x <= 10 ^ 2 -> exists g, (exists B, bessel_in_scaled bIn nb x scale (repeat 0 (nb + 1)) = Ok B /\ forall n, (n <= nb)%nat -> nth_error B n = Some (g n)) /\
  (forall n, (n <= nb)%nat -> Rabs (g n * scale ^ n - ii n x) <= eta * ii n x + 2 * enmten * scale ^ n) /\ g = entry (bessel_in_scaled bIn nb x scale (repeat 0 (nb + 1))).
Proof.
  intros Hn Hx. destruct (in_ok bIn eta HI Heta nb x scale (repeat 0 (nb + 1)) Hn ltac:(rewrite repeat_length; lia) Hscale Hx) as (B & E & C). rewrite E. exists (entry (Ok B)).
  assert (V : forall n, (n <= nb)%nat -> nth_error B n = Some (entry (Ok B) n)) by (intros n H; destruct (C n H) as (b & Eb & _); rewrite Eb, (entry_ok B n b Eb); reflexivity).
  split; [exists B; split; [reflexivity|exact V]|]. split; [|reflexivity]. intros n H. destruct (C n H) as (b & Eb & Cb). rewrite (entry_ok B n b Eb). exact Cb.
Qed.

Theorem ymultipole : (forall s, In s l -> 0 < dist c (cpos s) <= a) -> lambda * a <= 10 ^ 2 ->
  exists M, yuk_S_to_M bIn p lambda sqf scale c l = Ok M /\ forall t phi, a < dist c t -> 0 <= a -> / 10 ^ 250 <= lambda * dist c t < 10 ^ 8 -> scale <= lambda * dist c t ->
    exists v, yuk_M_to_T p lambda scale c M t phi = Ok (phi + v) /\
      Rabs (v - screened lambda (moved c l) (place c t)) <= total_charge l * yuk_error p eta (lambda * a) (lambda * dist c t).
Proof.
  intros Hl Ha. pose proof (ytable_ok p sqf HT) as YT.
  set (G := fun r n => (2 * INR n + 1) * entry (bessel_in_scaled bIn p (lambda * r) scale (repeat 0 (p + 1))) n).
  destruct (ysources_ok p (fun M s => yuk_s_to_m bIn p lambda sqf (point_sub (cpos s) c) (cq s) scale M) G c l) with (c := fun _ _ : nat => (0, 0)) (M := new_expansion p) as (M & c' & E & HM & V).
  - intros M c0 s b e HM Hin Hb HA. destruct (Hl s Hin) as [D1 D2]. rewrite <- norm3_dist in D1, D2. set (d := point_sub (cpos s) c) in *.
    destruct (in_vals p (lambda * norm3 d) ltac:(lia) ltac:(nra)) as (g & HB & _ & Eg). unfold G. rewrite <- Eg.
    apply (ys_step p sqf (fun r => bessel_in_scaled bIn p (lambda * r) scale (repeat 0 (p + 1))) g (cq s) d c0 M (norm3 d) b e YT HM HA Hb HB).
  - intros s Hin. rewrite norm3_dist. apply Hl, Hin.
  - apply ynew_coefs.
  - exists M. split; [exact E|]. intros t phi Hat Ha0 Hx Hsx. set (u := point_sub t c). assert (ER : norm3 u = dist c t) by (unfold u; apply norm3_dist). assert (Hu : 0 < norm3 u) by lra.
    destruct (angles_ok 1 u ltac:(ring) Hu) as (b & eb & Au & Bb & _). unfold yuk_M_to_T, yuk_m_to_t. fold u.
    destruct (kn_ok (p + 1) (lambda * norm3 u) scale (repeat 0 (p + 2)) ltac:(lia) ltac:(rewrite repeat_length; lia) ltac:(rewrite ER; exact Hx) ltac:(rewrite ER; lra)) as (B & EB & HB).
    rewrite (yt_step p (fun r => bessel_kn_scaled (p + 1) (lambda * r) scale (repeat 0 (p + 2))) (fun n => PI / 2 * scale ^ n * kk n (lambda * norm3 u)) u c' M (norm3 u) b eb HM Au Bb) by (exists B; split; [exact EB|intros n Hn; apply HB; lia]).
    cbn [bind]. eexists. split; [reflexivity|]. rewrite (V u b eb _ Hu Au), pot_zero, Rplus_0_l, screened_moved.
    destruct l as [|s0 l0] eqn:El.
    { cbn [fold_right]. rewrite Rminus_0_r, Rabs_R0. unfold total_charge. cbn [fold_right]. lra. }
    assert (A0 : 0 < a) by (destruct (Hl s0 (or_introl eq_refl)); lra). rewrite <- El in *. clear El.
    assert (Y0 : 0 <= yuk_error p eta (lambda * a) (lambda * dist c t)) by (apply yuk_error_nonneg; [exact eta_pos|split; nra]).
    apply sum_bound; [exact Y0|]. intros s Hin. cbn zeta. set (d := point_sub (cpos s) c). assert (Hd : 0 < norm3 d <= a) by (unfold d; rewrite norm3_dist; apply Hl, Hin).
    destruct (dist_places c (cpos s) t (proj1 Hd) Hu) as [By Ey]. fold d u in By, Ey. set (y := dot (eff d) (eff u) / (norm3 d * norm3 u)) in *.
    destruct (in_vals p (lambda * norm3 d) ltac:(lia) ltac:(nra)) as (g & _ & Hg & Eg). unfold contrib, G. rewrite <- Eg.
    eapply Rle_trans; [apply (pair_error p eta scale (lambda * norm3 d) (lambda * norm3 u) y (lambda * dist (place c t) (place c (cpos s))) g (cq s))|].
    + lia.
    + exact eta_pos.
    + rewrite ER. split; nra.
    + rewrite ER. lra.
    + exact By.
    + apply Rmult_le_pos; [lra|apply sqrt_pos].
    + replace (lambda * dist (place c t) (place c (cpos s)) * (lambda * dist (place c t) (place c (cpos s)))) with (lambda * lambda * (dist (place c t) (place c (cpos s)) * dist (place c t) (place c (cpos s)))) by ring. rewrite Ey. ring.
    + exact Hg.
    + apply Rmult_le_compat_l; [apply Rabs_pos|]. rewrite ER. apply yuk_error_mono; [exact eta_pos|split; nra|nra|lra].
Qed.

Theorem ylocal : (forall s, In s l -> a <= dist c (cpos s) /\ lambda * dist c (cpos s) < 10 ^ 8) -> / 10 ^ 250 <= lambda * a -> scale <= lambda * a ->
  exists L, yuk_S_to_L p lambda sqf scale c l = Ok L /\ forall t phi, 0 < dist c t < a -> lambda * dist c t <= 10 ^ 2 ->
    exists v, yuk_L_to_T bIn p lambda scale c L t phi = Ok (phi + v) /\
      Rabs (v - screened lambda (moved c l) (place c t)) <= total_charge l * yuk_error p eta (lambda * dist c t) (lambda * a).
Proof.
  intros Hl Ha Hsc. pose proof (ytable_ok p sqf HT) as YT.
  assert (La : 0 < lambda * a) by (assert (0 < / 10 ^ 250) by (apply Rinv_0_lt_compat, pow_lt; lra); lra).
  assert (A0 : 0 < a) by nra.
  set (G := fun r n => (2 * INR n + 1) * (PI / 2 * scale ^ n * kk n (lambda * r))).
  destruct (ysources_ok p (fun M s => yuk_s_to_l p lambda sqf (point_sub (cpos s) c) (cq s) scale M) G c l) with (c := fun _ _ : nat => (0, 0)) (M := new_expansion p) as (L & c' & E & HM & V).
  - intros M c0 s b e HM Hin Hb HA. destruct (Hl s Hin) as [D1 D2]. rewrite <- norm3_dist in D1, D2. set (d := point_sub (cpos s) c) in *.
    assert (Hx : / 10 ^ 250 <= lambda * norm3 d) by (apply Rle_trans with (lambda * a); [exact Ha|apply Rmult_le_compat_l; lra]).
    assert (Hs' : scale <= lambda * norm3 d) by (apply Rle_trans with (lambda * a); [exact Hsc|apply Rmult_le_compat_l; lra]).
    destruct (kn_ok p (lambda * norm3 d) scale (repeat 0 (p + 1)) ltac:(lia) ltac:(rewrite repeat_length; lia) ltac:(split; assumption) ltac:(lra)) as (B & EB & HB).
    apply (ys_step p sqf (fun r => bessel_kn_scaled p (lambda * r) scale (repeat 0 (p + 1))) (fun n => PI / 2 * scale ^ n * kk n (lambda * norm3 d)) (cq s) d c0 M (norm3 d) b e YT HM HA Hb).
    exists B. split; [exact EB|]. intros n Hn. apply HB. lia.
  - intros s Hin. rewrite norm3_dist. destruct (Hl s Hin). lra.
  - apply ynew_coefs.
  - exists L. split; [exact E|]. intros t phi Ht Hx. set (u := point_sub t c). assert (ER : norm3 u = dist c t) by (unfold u; apply norm3_dist). assert (Hu : 0 < norm3 u) by lra.
    destruct (angles_ok 1 u ltac:(ring) Hu) as (b & eb & Au & Bb & _). unfold yuk_L_to_T, yuk_l_to_t. fold u.
    destruct (in_vals (p + 1) (lambda * norm3 u) ltac:(lia) ltac:(rewrite ER; split; nra)) as (g & (B & EB & HB) & Hg & _). replace (p + 1 + 1)%nat with (p + 2)%nat in EB by lia.
    rewrite (yt_step p (fun r => bessel_in_scaled bIn (p + 1) (lambda * r) scale (repeat 0 (p + 2))) g u c' L (norm3 u) b eb HM Au Bb) by (exists B; split; [exact EB|intros n Hn; apply HB; lia]).
    cbn [bind]. eexists. split; [reflexivity|]. rewrite (V u b eb _ Hu Au), pot_zero, Rplus_0_l, screened_moved.
    assert (Y0 : 0 <= yuk_error p eta (lambda * dist c t) (lambda * a)) by (apply yuk_error_nonneg; [exact eta_pos|split; nra]).
    apply sum_bound; [exact Y0|]. intros s Hin. cbn zeta. set (d := point_sub (cpos s) c). assert (Hd : a <= norm3 d) by (unfold d; rewrite norm3_dist; apply Hl, Hin).
    destruct (dist_places c (cpos s) t ltac:(unfold d in Hd; lra) Hu) as [By Ey]. fold d u in By, Ey. set (y := dot (eff d) (eff u) / (norm3 d * norm3 u)) in *.
    unfold contrib, G.
    rewrite (sumlt_ext _ (fun n => cq s * ((2 * INR n + 1) * g n) * (PI / 2 * scale ^ n * kk n (lambda * norm3 d)) * D n 0 y)) by (intros n _; ring).
    eapply Rle_trans; [apply (pair_error p eta scale (lambda * norm3 u) (lambda * norm3 d) y (lambda * dist (place c t) (place c (cpos s))) g (cq s))|].
    + lia.
    + exact eta_pos.
    + rewrite ER. split; nra.
    + split; [lra|]. apply Rle_trans with (lambda * a); [exact Hsc|apply Rmult_le_compat_l; lra].
    + exact By.
    + apply Rmult_le_pos; [lra|apply sqrt_pos].
    + replace (lambda * dist (place c t) (place c (cpos s)) * (lambda * dist (place c t) (place c (cpos s)))) with (lambda * lambda * (dist (place c t) (place c (cpos s)) * dist (place c t) (place c (cpos s)))) by ring. rewrite Ey. ring.
    + intros n Hn. apply Hg. lia.
    + apply Rmult_le_compat_l; [apply Rabs_pos|]. rewrite ER. apply yuk_error_mono; [exact eta_pos|split; [nra|lra]|nra|nra].
Qed.
End Expansions.

(** sources beyond 100 screening lengths *)
Lemma ybeyond bIn p lambda sqf scale c l : YukModel.generate_sqf p = Ok sqf -> (1 <= p <= 18)%nat -> 0 < lambda -> 0 < scale -> (forall s, In s l -> 10 ^ 2 < lambda * dist c (cpos s)) ->
  exists M, yuk_S_to_M bIn p lambda sqf scale c l = Ok M /\ forall t phi, / 10 ^ 250 <= lambda * dist c t < 10 ^ 8 -> scale <= lambda * dist c t -> yuk_M_to_T p lambda scale c M t phi = Ok phi.
Proof.
  intros HT Hp Hlam Hs Hl. pose proof (ytable_ok p sqf HT) as YT.
  assert (Pos : forall s, In s l -> 0 < norm3 (point_sub (cpos s) c)) by (intros s Hin; rewrite norm3_dist; pose proof (Hl s Hin); assert (0 <= dist c (cpos s)) by apply sqrt_pos; destruct (Rle_lt_or_eq_dec 0 (dist c (cpos s))) as [L|L]; [assumption|exact L|rewrite <- L in *; lra]).
  destruct (ysources_ok p (fun M s => yuk_s_to_m bIn p lambda sqf (point_sub (cpos s) c) (cq s) scale M) (fun _ n => (2 * INR n + 1) * 0) c l) with (c := fun _ _ : nat => (0, 0)) (M := new_expansion p) as (M & c' & E & HM & V).
  - intros M c0 s b e HM Hin Hb HA. pose proof (Hl s Hin) as D1. rewrite <- norm3_dist in D1. set (d := point_sub (cpos s) c) in *.
    destruct (in_large bIn p (lambda * norm3 d) scale (repeat 0 (p + 1)) ltac:(rewrite repeat_length; lia) D1) as (B & EB & HB).
    apply (ys_step p sqf (fun r => bessel_in_scaled bIn p (lambda * r) scale (repeat 0 (p + 1))) (fun _ => 0) (cq s) d c0 M (norm3 d) b e YT HM HA Hb). exists B. split; [exact EB|exact HB].
  - exact Pos.
  - apply ynew_coefs.
  - exists M. split; [exact E|]. intros t phi Hx Hsx. set (u := point_sub t c). assert (ER : norm3 u = dist c t) by (unfold u; apply norm3_dist).
    assert (Hu : 0 < norm3 u). { rewrite ER. assert (0 <= dist c t) by apply sqrt_pos. assert (0 < / 10 ^ 250) by (apply Rinv_0_lt_compat, pow_lt; lra). destruct (Rle_lt_or_eq_dec 0 (dist c t)) as [L|L]; [assumption|exact L|rewrite <- L in *; lra]. }
    destruct (angles_ok 1 u ltac:(ring) Hu) as (b & eb & Au & Bb & _). unfold yuk_M_to_T, yuk_m_to_t. fold u.
    destruct (kn_ok (p + 1) (lambda * norm3 u) scale (repeat 0 (p + 2)) ltac:(lia) ltac:(rewrite repeat_length; lia) ltac:(rewrite ER; exact Hx) ltac:(rewrite ER; lra)) as (B & EB & HB).
    rewrite (yt_step p (fun r => bessel_kn_scaled (p + 1) (lambda * r) scale (repeat 0 (p + 2))) (fun n => PI / 2 * scale ^ n * kk n (lambda * norm3 u)) u c' M (norm3 u) b eb HM Au Bb) by (exists B; split; [exact EB|intros n Hn; apply HB; lia]).
    cbn [bind]. rewrite (V u b eb _ Hu Au), pot_zero, Rplus_0_l.
    assert (Z : forall f k, (forall j, f j = 0) -> sumlt f k = 0) by (intros f k H; induction k as [|k IH]; cbn [sumlt]; [reflexivity|]; rewrite IH, H; ring).
    match goal with |- Ok (phi + ?v) = _ => assert (v = 0) as ->; [|rewrite Rplus_0_r; reflexivity] end.
    clear. induction l as [|s l IH]; [reflexivity|]. cbv zeta in *. cbn [fold_right]. rewrite IH. unfold contrib. rewrite Rplus_0_r.
    induction (S p) as [|k IHk]; cbn [sumlt]; [reflexivity|]. rewrite IHk. ring.
Qed.

(** what a source adds does not depend on what is there *)
Lemma y_adds p f : (exists T, forall c M, ycoefs p c M -> exists M', f M = Ok M' /\ ycoefs p (fun n m => cadd (c n m) (T n m)) M') -> exists T, adds p f T.
Proof.
  intros [T H]. exists (fun n m => cscale (T n m) (ratio n m)). intros c M HM.
  assert (R0 : forall n m, ratio n m <> 0). { intros n m. unfold ratio. pose proof (sqrt_fact_pos (n - m)). pose proof (sqrt_fact_pos (n + m)). assert (0 < / sqrt (INR (fact (n + m)))) by (apply Rinv_0_lt_compat; assumption). unfold Rdiv. nra. }
  destruct (H (fun n m => cscale (c n m) (/ ratio n m)) M) as (M' & E & C).
  - unfold ycoefs. apply (coefs_ext p c); [|exact HM]. intros n m _. specialize (R0 n m). destruct (c n m). unfold cscale. cbn [fst snd]. f_equal; field; exact R0.
  - exists M'. split; [exact E|]. apply coefs_ext with (2 := C). intros n m _. specialize (R0 n m). unfold cadd, cscale. cbn [fst snd]. f_equal; field; exact R0.
Qed.
Lemma ym_adds bIn eta p lambda sqf scale c s : computes_I bIn eta -> / 10 ^ 17 <= eta <= / 2 -> (1 <= p <= 18)%nat -> YukModel.generate_sqf p = Ok sqf -> 0 < lambda -> 0 < scale <= 1 -> cpos s <> c ->
  exists T, adds p (fun M => yuk_s_to_m bIn p lambda sqf (point_sub (cpos s) c) (cq s) scale M) T.
Proof.
  intros HI He Hp HT Hlam Hs N. apply ytable_ok in HT. apply dist_pos in N. rewrite <- norm3_dist in N. destruct (angles_ok (-1) _ ltac:(ring) N) as (a & e & Ad & Ba & _). apply y_adds. set (d := point_sub (cpos s) c) in *.
  assert (HB : exists g B, bessel_in_scaled bIn p (lambda * norm3 d) scale (repeat 0 (p + 1)) = Ok B /\ forall n, (n <= p)%nat -> nth_error B n = Some (g n)).
  { destruct (Rle_lt_dec (lambda * norm3 d) (10 ^ 2)) as [L|L].
    - destruct (in_ok bIn eta HI He p (lambda * norm3 d) scale (repeat 0 (p + 1)) ltac:(lia) ltac:(rewrite repeat_length; lia) Hs ltac:(split; [nra|exact L])) as (B & EB & C). exists (entry (Ok B)), B. split; [exact EB|]. intros n Hn. destruct (C n Hn) as (b & Eb & _). rewrite Eb, (entry_ok B n b Eb). reflexivity.
    - destruct (in_large bIn p (lambda * norm3 d) scale (repeat 0 (p + 1)) ltac:(rewrite repeat_length; lia) L) as (B & EB & HB). exists (fun _ => 0), B. split; assumption. }
  destruct HB as (g & HB). eexists. intros c0 M HM. exact (ys_step p sqf (fun r => bessel_in_scaled bIn p (lambda * r) scale (repeat 0 (p + 1))) g (cq s) d c0 M (norm3 d) a e HT HM Ad Ba HB).
Qed.
Lemma yl_adds p lambda sqf scale c s : (1 <= p <= 18)%nat -> YukModel.generate_sqf p = Ok sqf -> / 10 ^ 250 <= lambda * dist c (cpos s) < 10 ^ 8 -> 0 < scale <= lambda * dist c (cpos s) ->
  exists T, adds p (fun M => yuk_s_to_l p lambda sqf (point_sub (cpos s) c) (cq s) scale M) T.
Proof.
  intros Hp HT Hx Hs. apply ytable_ok in HT. assert (N : 0 < dist c (cpos s)). { assert (0 <= dist c (cpos s)) by apply sqrt_pos. destruct (Rle_lt_or_eq_dec 0 (dist c (cpos s))) as [L|L]; [assumption|exact L|rewrite <- L in *; lra]. }
  rewrite <- norm3_dist in N, Hx, Hs. destruct (angles_ok (-1) _ ltac:(ring) N) as (a & e & Ad & Ba & _). apply y_adds. set (d := point_sub (cpos s) c) in *.
  destruct (kn_ok p (lambda * norm3 d) scale (repeat 0 (p + 1)) ltac:(lia) ltac:(rewrite repeat_length; lia) Hx Hs) as (B & EB & HB).
  eexists. intros c0 M HM. apply (ys_step p sqf (fun r => bessel_kn_scaled p (lambda * r) scale (repeat 0 (p + 1))) (fun n => PI / 2 * scale ^ n * kk n (lambda * norm3 d)) (cq s) d c0 M (norm3 d) a e HT HM Ad Ba). exists B. split; [exact EB|]. intros n Hn. apply HB. lia.
Qed.
