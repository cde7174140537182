(** Multipole and local expansions of the Helmholtz kernel: evaluation, error. *)
From Coq Require Import Reals ZArith List Lia Lra Psatz.
From Coquelicot Require Rcomplements.
From Verif Require Import Base ListFacts LegSpec LegProofs LegAdd LapModel LapSpec LapArrays LapProofs BesselSpec BesselProofs BesselAdd OscSpec OscProofs YukModel YukSpec YukBessel YukProofs HelmModel HelmSpec HelmBessel HelmPair.
Import ListNotations.
Open Scope R_scope.

(** ** the multipole expansion *)
Definition flat (c : nat -> nat -> cplx) : Prop := forall n, snd (c n 0%nat) = 0.

Lemma hpotential_m p bessel pe leg fb (fe : nat -> cplx) fl c M :
  (forall j, (j <= p)%nat -> nth_error bessel j = Some (fb j)) -> (forall j, (j <= p)%nat -> nth_error pe j = Some (fe j)) -> fe 0%nat = (1, 0) ->
  (forall i m, (m <= i <= p)%nat -> nth_error leg (midx i m) = Some (fl i m)) -> ycoefs p c M -> flat c ->
  helm_potential_m p bessel pe leg M = Ok (pot p (fun n => fst (fb n)) fe fl c, pot p (fun n => snd (fb n)) fe fl c).
Proof.
  intros Hr He He0 Hl [_ HM] Fl. unfold helm_potential_m. set (T := pterm (fun n => fst (fb n)) fe fl c). set (U := pterm (fun n => snd (fb n)) fe fl c).
  match goal with |- context [bind (foldM ?F (seq 0 (S p)) _) _] => destruct (loop_ind _ F (fun k phi => phi = (sumlt (fun n => T n 0%nat) k, sumlt (fun n => U n 0%nat) k)) 0 (S p) (0, 0)) as (phi1 & E1 & H1) end.
  - reflexivity.
  - intros n phi Hn Hp. cbn [Nat.add]. rewrite (nth_ok _ _ _ _ (HM n 0%nat ltac:(lia))), (nth_ok _ _ _ _ (Hr n ltac:(lia))), (nth_ok _ _ _ _ (Hl n 0%nat ltac:(lia))). cbn [bind]. eexists. split; [reflexivity|].
    cbn [sumlt]. rewrite Hp. unfold T, U, pterm, creal, cadd, cscale, cmul. rewrite ratio_0, He0, (Fl n). cbn [fst snd eps]. f_equal; ring.
  - rewrite E1. cbn [bind]. subst phi1.
    match goal with |- context [foldM ?F (seq 1 p) ?s] => destruct (loop_ind _ F (fun k phi => phi = (sumlt (fun n => T n 0%nat) (S p) + sumlt (fun i => sumlt (fun j => T (S i) (S j)) (S i)) k, sumlt (fun n => U n 0%nat) (S p) + sumlt (fun i => sumlt (fun j => U (S i) (S j)) (S i)) k)) 1 p s) as (phi2 & E2 & H2) end.
    + cbn [sumlt]. rewrite !Rplus_0_r. reflexivity.
    + intros n phi Hn Hp. change (1 + n)%nat with (S n).
      match goal with |- context [foldM ?F (seq 1 (S n)) _] => destruct (loop_ind _ F (fun k phi' => phi' = (fst phi + sumlt (fun j => T (S n) (S j)) k, snd phi + sumlt (fun j => U (S n) (S j)) k)) 1 (S n) phi) as (phi3 & E3 & H3) end.
      * cbn [sumlt]. rewrite !Rplus_0_r. apply surjective_pairing.
      * intros m phi' Hm Hp'. cbn beta. change (1 + m)%nat with (S m). rewrite (nth_ok _ _ _ _ (HM (S n) (S m) ltac:(lia))), (nth_ok _ _ _ _ (He (S m) ltac:(lia))), (nth_ok _ _ _ _ (Hr (S n) ltac:(lia))), (nth_ok _ _ _ _ (Hl (S n) (S m) ltac:(lia))). cbn [bind].
        eexists. split; [reflexivity|]. cbn [sumlt]. rewrite Hp'. unfold T, U, pterm, creal, cadd, cmul, cscale. cbn [fst snd eps]. f_equal; ring.
      * exists phi3. split; [exact E3|]. rewrite H3, Hp. cbn [fst snd]. f_equal; cbn [sumlt]; ring.
    + rewrite E2, H2. f_equal.
      assert (Z : forall T, sumlt (fun n => T n 0%nat) (S p) + sumlt (fun i => sumlt (fun j => T (S i) (S j)) (S i)) p = sumlt (fun n => sumlt (T n) (S n)) (S p)).
      { intros V. rewrite (sumlt_ext (fun n => sumlt (V n) (S n)) (fun n => V n 0%nat + sumlt (fun j => V n (S j)) n)) by (intros j _; apply sumlt_shift).
        rewrite sumlt_plus. f_equal. rewrite (sumlt_shift (fun n => sumlt (fun j => V n (S j)) n)). cbn [sumlt]. ring. }
      rewrite !Z. reflexivity.
Qed.

Lemma ht_step p (bes : R -> res (list cplx)) (fb : nat -> cplx) d c M r ct e : ycoefs p c M -> flat c -> angles 1 d = Ok (r, ct, e) -> -1 <= ct <= 1 ->
  (exists B, bes r = Ok B /\ forall n, (n <= p)%nat -> nth_error B n = Some (fb n)) ->
  (do (r, ctheta, ephi) <- angles 1 d; do pe <- set_res (repeat (0, 0) (p + 1)) 0 (1, 0); do pe <- fill (fun v => Ok (cmul v ephi)) p pe; do bessel <- bes r;
   do leg <- legendre_Plm p ctheta (repeat 0 ((p + 1) * (p + 2) / 2)); helm_potential_m p bessel pe leg M) =
  Ok (pot p (fun n => fst (fb n)) (cpow e) (Q ct) c, pot p (fun n => snd (fb n)) (cpow e) (Q ct) c).
Proof.
  intros HM Fl HA Hc (B & EB & HB). rewrite HA. cbn [bind]. rewrite set_res_ok by (rewrite repeat_length; lia). cbn [bind].
  destruct (fill_ok cplx (fun v => Ok (cmul v e)) (cpow e) p (upd (repeat (0, 0) (p + 1)) 0 (1, 0))) as (pe & Ee & He); [rewrite upd_length, repeat_length; lia|apply (nth_upd0 cplx); lia|reflexivity|]. rewrite Ee. cbn [bind].
  rewrite EB. cbn [bind].
  destruct (plm_ok p ct Hc (repeat 0 ((p + 1) * (p + 2) / 2))) as (leg & El & _ & Hl); [rewrite repeat_length, size_tri; lia|]. rewrite El. cbn [bind].
  apply hpotential_m; try assumption. reflexivity.
Qed.

(** sums over sources *)
Lemma hsources_ok p (f : list cplx -> charge -> res (list cplx)) (G : R -> nat -> R) ctr l :
  (forall M c s a e, ycoefs p c M -> In s l -> -1 <= a <= 1 -> angles (-1) (point_sub (cpos s) ctr) = Ok (norm3 (point_sub (cpos s) ctr), a, e) ->
     exists M', f M s = Ok M' /\ ycoefs p (fun n m => cadd (c n m) (term (cq s) (G (norm3 (point_sub (cpos s) ctr))) (cpow e) (Q a) n m)) M') ->
  (forall s, In s l -> 0 < norm3 (point_sub (cpos s) ctr)) ->
  forall c M, ycoefs p c M -> flat c -> exists M' c', foldM f l M = Ok M' /\ ycoefs p c' M' /\ flat c' /\
    forall t b eb fr, 0 < norm3 t -> angles 1 t = Ok (norm3 t, b, eb) ->
      pot p fr (cpow eb) (Q b) c' = pot p fr (cpow eb) (Q b) c +
        fold_right (fun s v => let d := point_sub (cpos s) ctr in contrib p (cq s) (G (norm3 d)) fr (dot (eff d) (eff t) / (norm3 d * norm3 t)) + v) 0 l.
Proof.
  intros Hf Hl. induction l as [|s l IH]; intros c M HM Fl.
  - exists M, c. split; [reflexivity|]. split; [exact HM|]. split; [exact Fl|]. intros. cbn [fold_right]. ring.
  - set (d := point_sub (cpos s) ctr). assert (Hd : 0 < norm3 d) by (apply Hl; left; reflexivity).
    destruct (angles_ok (-1) d ltac:(ring) Hd) as (a & e & Ad & Ba & _). destruct (Hf M c s a e HM (or_introl eq_refl) Ba Ad) as (M1 & E1 & H1).
    destruct (IH ltac:(intros; apply Hf; try right; assumption) ltac:(intros; apply Hl; right; assumption) _ M1 H1) as (M' & c' & E' & H' & F' & V').
    { intros n. unfold term, cadd, cscale. cbn [fst snd cpow]. rewrite (Fl n). ring. }
    exists M', c'. cbn [foldM]. rewrite E1. cbn [bind]. split; [exact E'|]. split; [exact H'|]. split; [exact F'|]. intros t b eb fr Ht At. rewrite (V' t b eb fr Ht At), pot_add. cbn [fold_right]. fold d.
    rewrite (pot_term p (cq s) (G (norm3 d)) fr a b e eb d t Hd Ht Ad At). ring.
Qed.

(** ** the local expansion: entry n n + j holds the coefficient of degree n, order j - n *)
Definition dm (n j : nat) : nat := (if n <=? j then j - n else n - j)%nat.
Definition epow (e : cplx) (n j : nat) : cplx := if (n <=? j)%nat then cpow e (j - n) else conj (cpow e (n - j)).
Definition lcoefs (p : nat) (g : nat -> nat -> cplx) (L : list cplx) : Prop :=
  length L = ((p + 1) * (p + 1))%nat /\ forall n j, (n <= p)%nat -> (j <= 2 * n)%nat -> nth_error L (n * n + j) = Some (g n j).

Lemma both_powers_ok p e : exists pe, both_powers p e = Ok pe /\ forall n j, (n <= p)%nat -> (j <= 2 * n)%nat -> nth_error pe (p + j - n) = Some (epow e n j).
Proof.
  unfold both_powers. rewrite set_res_ok by (rewrite repeat_length; lia). cbn [bind].
  match goal with |- context [foldM ?F (seq 1 p) ?s] => destruct (loop_ind _ F (fun k pe => length pe = (2 * p + 1)%nat /\ forall m, (m <= k)%nat -> nth_error pe (p + m) = Some (cpow e m) /\ nth_error pe (p - m) = Some (conj (cpow e m))) 1 p s) as (pe & E & L & H) end.
  - split; [rewrite upd_length, repeat_length; reflexivity|]. intros m Hm. replace m with 0%nat by lia. rewrite Nat.add_0_r, Nat.sub_0_r, upd_same by (rewrite repeat_length; lia). split; [reflexivity|]. cbn [cpow]. unfold conj. cbn [fst snd]. rewrite Ropp_0. reflexivity.
  - intros k pe Hk [L H]. change (1 + k)%nat with (S k). replace (p + S k - 1)%nat with (p + k)%nat by lia. rewrite (nth_ok _ _ _ _ (proj1 (H k ltac:(lia)))). cbn [bind]. rewrite set_res_ok by lia. cbn [bind].
    rewrite (nth_ok _ (upd pe (p + S k) _) (p + S k) (cmul (cpow e k) e)) by (apply upd_same; lia). cbn [bind]. rewrite set_res_ok by (rewrite upd_length; lia). eexists. split; [reflexivity|]. split; [rewrite !upd_length; exact L|].
    intros m Hm. destruct (Nat.eq_dec m (S k)) as [->|N].
    + split; [rewrite upd_other by lia; apply upd_same; lia|apply upd_same; rewrite upd_length; lia].
    + rewrite !upd_other by lia. apply H. lia.
  - exists pe. split; [exact E|]. intros n j Hn Hj. unfold epow. destruct (Nat.leb_spec n j) as [C|C].
    + replace (p + j - n)%nat with (p + (j - n))%nat by lia. apply H. lia.
    + replace (p + j - n)%nat with (p - (n - j))%nat by lia. apply H. lia.
Qed.

Lemma lcoefs_ext p g g' L : (forall n j, (n <= p)%nat -> (j <= 2 * n)%nat -> g n j = g' n j) -> lcoefs p g L -> lcoefs p g' L.
Proof. intros E [Ln H]. split; [exact Ln|]. intros n j A B. rewrite <- E by assumption. apply H; assumption. Qed.
Lemma lcoefs_set p (P : nat -> nat -> bool) (g c : nat -> nat -> cplx) L n j v :
  lcoefs p (fun i k => if P i k then g i k else c i k) L -> (n <= p)%nat -> (j <= 2 * n)%nat -> v = g n j ->
  set_res L (n * n + j) v = Ok (upd L (n * n + j) v) /\ lcoefs p (fun i k => if (P i k || (i =? n) && (k =? j))%nat%bool then g i k else c i k) (upd L (n * n + j) v).
Proof.
  intros [Ln H] Hn Hj ->. assert (Hlt : (n * n + j < length L)%nat) by (rewrite Ln; nia). split; [apply set_res_ok, Hlt|]. split; [rewrite upd_length; exact Ln|]. intros i k Hi Hk.
  destruct (Nat.eq_dec i n) as [->|Ni]; [destruct (Nat.eq_dec k j) as [->|Nk]|].
  - rewrite upd_same by exact Hlt. rewrite !Nat.eqb_refl. cbn [andb]. rewrite Bool.orb_true_r. reflexivity.
  - rewrite upd_other by lia. rewrite (H n k Hn Hk). destruct (Nat.eqb_spec k j); [contradiction|]. rewrite Bool.andb_false_r, Bool.orb_false_r. reflexivity.
  - rewrite upd_other by nia. rewrite (H i k Hi Hk). destruct (Nat.eqb_spec i n); [contradiction|]. cbn [andb]. rewrite Bool.orb_false_r. reflexivity.
Qed.

(** what a source adds to the coefficients *)
Definition lterm (q : R) (fb : nat -> cplx) (e : cplx) (fl : nat -> nat -> R) (n j : nat) : cplx :=
  cmul (cscale (cscale (cscale (fb n) q) ((2 * INR n + 1) * w n (dm n j))) (fl n (dm n j))) (epow e n j).

Lemma dm_le n j : (j <= 2 * n)%nat -> (dm n j <= n)%nat.
Proof. intros H. unfold dm. destruct (Nat.leb_spec n j); lia. Qed.

Lemma hadd_terms_ok p sqf q bessel pe leg fb e fl g L : ytable p sqf ->
  (forall j, (j <= p)%nat -> nth_error bessel j = Some (fb j)) -> (forall n j, (n <= p)%nat -> (j <= 2 * n)%nat -> nth_error pe (p + j - n) = Some (epow e n j)) ->
  (forall i m, (m <= i <= p)%nat -> nth_error leg (midx i m) = Some (fl i m)) -> lcoefs p g L ->
  exists L', helm_add_terms p sqf q bessel pe leg L = Ok L' /\ lcoefs p (fun n j => cadd (g n j) (lterm q fb e fl n j)) L'.
Proof.
  intros Hs Hr He Hl HM. unfold helm_add_terms. set (h := fun n j => cadd (g n j) (lterm q fb e fl n j)).
  match goal with |- context [foldM ?F (seq 0 (S p)) ?s] => destruct (loop_ind _ F (fun k st => fst st = (k * k)%nat /\ lcoefs p (fun i j => if (i <? k)%nat then h i j else g i j) (snd st)) 0 (S p) s) as ([cu L'] & E & _ & H) end.
  - split; [reflexivity|exact HM].
  - intros n [cu L1] Hn [E1 H1]. cbn [fst snd] in E1, H1. cbn [Nat.add].
    match goal with |- context [foldM ?F (seq 0 (2 * n + 1)) ?s] => destruct (loop_ind _ F (fun k st => fst st = (n * n + k)%nat /\ lcoefs p (fun i j => if ((i <? n) || ((i =? n) && (j <? k)))%nat%bool then h i j else g i j) (snd st)) 0 (2 * n + 1) s) as ([cu2 L2] & E2 & C2 & H2) end.
    + cbn [fst snd]. split; [lia|]. apply (lcoefs_ext p (fun i j => if (i <? n)%nat then h i j else g i j)); [|exact H1]. intros i j _ _. replace (j <? 0)%nat with false by reflexivity. rewrite Bool.andb_false_r, Bool.orb_false_r. reflexivity.
    + intros j [cu2 L2] Hj [C2 H2]. cbn [fst snd] in C2, H2. cbn [Nat.add]. fold (dm n j). pose proof (dm_le n j ltac:(lia)) as Dj.
      rewrite (nth_ok _ _ _ _ (Hr n ltac:(lia))), (nth_ok _ _ _ _ (Hs n (dm n j) ltac:(lia))), (nth_ok _ _ _ _ (Hl n (dm n j) ltac:(lia))), (nth_ok _ _ _ _ (He n j ltac:(lia) ltac:(lia))). cbn [bind].
      pose proof (proj2 H2 n j ltac:(lia) ltac:(lia)) as Hold. cbn beta in Hold. rewrite Nat.ltb_irrefl, Nat.eqb_refl, Nat.ltb_irrefl in Hold. cbn [orb andb] in Hold. rewrite C2, (nth_ok _ _ _ _ Hold). cbn [bind].
      match goal with |- context [set_res L2 _ ?V] => destruct (lcoefs_set p _ h g L2 n j V H2) as [E3 H3] end; [lia|lia|reflexivity|].
      rewrite E3. cbn [bind]. eexists. split; [reflexivity|]. cbn [fst snd]. split; [lia|]. apply lcoefs_ext with (2 := H3). intros i k _ _. cbn beta.
      replace ((i <? n)%nat || (i =? n)%nat && (k <? S j)%nat)%bool with (((i <? n)%nat || (i =? n)%nat && (k <? j)%nat) || (i =? n)%nat && (k =? j)%nat)%bool; [reflexivity|].
      rewrite <- Bool.orb_assoc, <- Bool.andb_orb_distrib_r. f_equal. f_equal. destruct (Nat.ltb_spec k j), (Nat.eqb_spec k j), (Nat.ltb_spec k (S j)); cbn; try reflexivity; lia.
    + exists (cu2, L2). rewrite E1 in *. rewrite E2. split; [reflexivity|]. cbn [fst snd] in *. split; [rewrite C2; nia|]. apply lcoefs_ext with (2 := H2). intros i k Hi Hk. cbn beta.
      replace ((i <? n)%nat || (i =? n)%nat && (k <? 2 * n + 1)%nat)%bool with (i <? S n)%nat; [reflexivity|].
      destruct (Nat.ltb_spec i n), (Nat.eqb_spec i n), (Nat.ltb_spec i (S n)), (Nat.ltb_spec k (2 * n + 1)); cbn; try reflexivity; lia.
  - rewrite E. cbn [bind fst snd] in *. exists L'. split; [reflexivity|]. apply lcoefs_ext with (2 := H). intros i j Hi _. cbn beta. destruct (Nat.ltb_spec i (S p)); [reflexivity|lia].
Qed.

(** the value of the expansion: both parts are linear in the coefficients *)
Definition lre (p : nat) (fr : nat -> R) (e : cplx) (fl : nat -> nat -> R) (g : nat -> nat -> cplx) : R :=
  sumlt (fun n => sumlt (fun j => fst (cmul (g n j) (epow e n j)) * fr n * fl n (dm n j)) (2 * n + 1)) (S p).
Definition lim (p : nat) (fr : nat -> R) (e : cplx) (fl : nat -> nat -> R) (g : nat -> nat -> cplx) : R :=
  sumlt (fun n => sumlt (fun j => snd (cmul (g n j) (epow e n j)) * fr n * fl n (dm n j)) (2 * n + 1)) (S p).

Lemma hpotential_l p bessel pe leg fr e fl g L :
  (forall j, (j <= p)%nat -> nth_error bessel j = Some (fr j)) -> (forall n j, (n <= p)%nat -> (j <= 2 * n)%nat -> nth_error pe (p + j - n) = Some (epow e n j)) ->
  (forall i m, (m <= i <= p)%nat -> nth_error leg (midx i m) = Some (fl i m)) -> lcoefs p g L ->
  helm_potential_l p bessel pe leg L = Ok (lre p fr e fl g, lim p fr e fl g).
Proof.
  intros Hr He Hl [_ HM]. unfold helm_potential_l.
  set (T := fun n j => fst (cmul (g n j) (epow e n j)) * fr n * fl n (dm n j)). set (U := fun n j => snd (cmul (g n j) (epow e n j)) * fr n * fl n (dm n j)).
  match goal with |- context [foldM ?F (seq 0 (S p)) ?s] => destruct (loop_ind _ F (fun k st => st = ((k * k)%nat, (sumlt (fun n => sumlt (T n) (2 * n + 1)) k, sumlt (fun n => sumlt (U n) (2 * n + 1)) k))) 0 (S p) s) as ([cu phi] & E & H) end.
  - reflexivity.
  - intros n st Hn ->. cbn [Nat.add].
    match goal with |- context [foldM ?F (seq 0 (2 * n + 1)) (?c0, (?x0, ?y0))] => destruct (loop_ind _ F (fun k st => st = ((n * n + k)%nat, (x0 + sumlt (T n) k, y0 + sumlt (U n) k))) 0 (2 * n + 1) (c0, (x0, y0))) as (st2 & E2 & H2) end.
    + cbn [sumlt]. rewrite !Rplus_0_r, Nat.add_0_r. reflexivity.
    + intros j st Hj ->. cbn [Nat.add]. fold (dm n j). pose proof (dm_le n j ltac:(lia)) as Dj.
      rewrite (nth_ok _ _ _ _ (HM n j ltac:(lia) ltac:(lia))), (nth_ok _ _ _ _ (Hr n ltac:(lia))), (nth_ok _ _ _ _ (Hl n (dm n j) ltac:(lia))), (nth_ok _ _ _ _ (He n j ltac:(lia) ltac:(lia))). cbn [bind].
      eexists. split; [reflexivity|]. cbn [sumlt]. f_equal; [lia|]. unfold T, U, cadd, cscale. cbn [fst snd]. f_equal; ring.
    + eexists. split; [exact E2|]. rewrite H2. f_equal; nia.
  - rewrite E. injection H as -> ->. cbn [bind]. reflexivity.
Qed.

Lemma lre_add p fr e fl g g' : lre p fr e fl (fun n j => cadd (g n j) (g' n j)) = lre p fr e fl g + lre p fr e fl g'.
Proof. unfold lre. rewrite <- sumlt_plus. apply sumlt_ext. intros n _. rewrite <- sumlt_plus. apply sumlt_ext. intros m _. unfold cmul, cadd. cbn [fst snd]. ring. Qed.
Lemma lim_add p fr e fl g g' : lim p fr e fl (fun n j => cadd (g n j) (g' n j)) = lim p fr e fl g + lim p fr e fl g'.
Proof. unfold lim. rewrite <- sumlt_plus. apply sumlt_ext. intros n _. rewrite <- sumlt_plus. apply sumlt_ext. intros m _. unfold cmul, cadd. cbn [fst snd]. ring. Qed.
Lemma sumlt_0 f k : (forall j, f j = 0) -> sumlt f k = 0.
Proof. intros H. induction k as [|k IH]; cbn [sumlt]; [reflexivity|]. rewrite IH, H. ring. Qed.
Lemma l_zero p fr e fl : lre p fr e fl (fun _ _ => (0, 0)) = 0 /\ lim p fr e fl (fun _ _ => (0, 0)) = 0.
Proof. unfold lre, lim. split; apply sumlt_0; intros n; apply sumlt_0; intros j; unfold cmul; cbn [fst snd]; ring. Qed.

(** orders of both signs together *)
Lemma sumlt_split f a b : sumlt f (a + b) = sumlt f a + sumlt (fun i => f (a + i)%nat) b.
Proof. induction b as [|b IH]; [rewrite Nat.add_0_r; cbn [sumlt]; ring|]. rewrite Nat.add_succ_r. cbn [sumlt]. rewrite IH. ring. Qed.
Lemma sumlt_rev (h : nat -> R) n : sumlt (fun j => h (n - j)%nat) n = sumlt (fun i => h (S i)) n.
Proof.
  induction n as [|n IH]; [reflexivity|]. rewrite sumlt_shift. cbn [sumlt]. rewrite <- IH, Nat.sub_0_r. rewrite (sumlt_ext (fun j => h (S n - S j)%nat) (fun j => h (n - j)%nat)) by (intros j _; reflexivity). ring.
Qed.
Lemma sum_even (h : nat -> R) n : sumlt (fun j => h (dm n j)) (2 * n + 1) = sumlt (fun m => eps m * h m) (S n).
Proof.
  replace (2 * n + 1)%nat with (n + S n)%nat by lia. rewrite sumlt_split, (sumlt_ext (fun j => h (dm n j)) (fun j => h (n - j)%nat)) by (intros j Hj; unfold dm; destruct (Nat.leb_spec n j); [lia|reflexivity]).
  rewrite sumlt_rev, (sumlt_ext (fun i => h (dm n (n + i))) h) by (intros i _; unfold dm; destruct (Nat.leb_spec n (n + i)); [f_equal; lia|lia]).
  rewrite (sumlt_shift h), (sumlt_shift (fun m => eps m * h m)). cbn [eps]. rewrite (sumlt_scal 2). ring.
Qed.
Lemma sum_odd (h : nat -> R) n : h 0%nat = 0 -> sumlt (fun j => if (n <=? j)%nat then h (j - n)%nat else - h (n - j)%nat) (2 * n + 1) = 0.
Proof.
  intros H0. replace (2 * n + 1)%nat with (n + S n)%nat by lia. rewrite sumlt_split, (sumlt_ext _ (fun j => -1 * h (n - j)%nat)) by (intros j Hj; destruct (Nat.leb_spec n j); [lia|ring]).
  rewrite (sumlt_scal (-1) (fun j => h (n - j)%nat)), sumlt_rev.
  rewrite (sumlt_ext (fun i => if (n <=? n + i)%nat then h (n + i - n)%nat else - h (n - (n + i))%nat) h) by (intros i _; destruct (Nat.leb_spec n (n + i)); [f_equal; lia|lia]). rewrite (sumlt_shift h), H0. ring.
Qed.

Lemma epow_mul a b n j : cmul (epow a n j) (epow b n j) = epow (cmul a b) n j.
Proof. unfold epow. destruct (n <=? j)%nat; [apply cpow_mul|]. rewrite <- cpow_mul. unfold conj, cmul. cbn [fst snd]. f_equal; ring. Qed.
Lemma epow_fst a n j : fst (epow a n j) = fst (cpow a (dm n j)).
Proof. unfold epow, dm. destruct (n <=? j)%nat; reflexivity. Qed.
Lemma epow_snd a n j : snd (epow a n j) = if (n <=? j)%nat then snd (cpow a (j - n)) else - snd (cpow a (n - j)).
Proof. unfold epow. destruct (n <=? j)%nat; reflexivity. Qed.

Lemma l_term p q fb fr ea eb fa fl :
  lre p fr eb fl (lterm q fb ea fa) = pot p fr (cpow eb) fl (term q (fun n => (2 * INR n + 1) * fst (fb n)) (cpow ea) fa) /\
  lim p fr eb fl (lterm q fb ea fa) = pot p fr (cpow eb) fl (term q (fun n => (2 * INR n + 1) * snd (fb n)) (cpow ea) fa).
Proof.
  set (r := fun n m => q * ((2 * INR n + 1) * w n m) * fa n m * fr n * fl n m).
  assert (Ev : forall s n, sumlt (fun j => s * (r n (dm n j) * fst (epow (cmul ea eb) n j))) (2 * n + 1) = sumlt (fun m => s * (eps m * r n m * fst (cpow (cmul ea eb) m))) (S n)).
  { intros s n. rewrite !sumlt_scal. f_equal. rewrite (sumlt_ext _ (fun j => (fun m => r n m * fst (cpow (cmul ea eb) m)) (dm n j))) by (intros j _; rewrite epow_fst; reflexivity). rewrite (sum_even (fun m => r n m * fst (cpow (cmul ea eb) m))). apply sumlt_ext. intros m _. ring. }
  assert (Od : forall s n, sumlt (fun j => s * (r n (dm n j) * snd (epow (cmul ea eb) n j))) (2 * n + 1) = 0).
  { intros s n. rewrite sumlt_scal, <- (Rmult_0_r s). f_equal. rewrite <- (sum_odd (fun m => r n m * snd (cpow (cmul ea eb) m)) n) by (cbn [cpow snd]; ring). apply sumlt_ext. intros j _. rewrite epow_snd. unfold dm. destruct (n <=? j)%nat; ring. }
  assert (Mul : forall n j, cmul (lterm q fb ea fa n j) (epow eb n j) = cscale (cmul (fb n) (epow (cmul ea eb) n j)) (q * ((2 * INR n + 1) * w n (dm n j)) * fa n (dm n j))).
  { intros n j. rewrite <- epow_mul. unfold lterm, cmul, cscale. cbn [fst snd]. f_equal; ring. }
  assert (Re : forall (f : nat -> R) n, sumlt (fun m => f n * (eps m * r n m * fst (cpow (cmul ea eb) m))) (S n) = sumlt (pterm fr (cpow eb) fl (term q (fun n => (2 * INR n + 1) * f n) (cpow ea) fa) n) (S n)).
  { intros f n. apply sumlt_ext. intros m _. unfold pterm, term, r. fold (ratio n m). rewrite <- ratio_w, <- cpow_mul. unfold creal, cmul, cscale. cbn [fst snd]. ring. }
  unfold lre, lim, pot. split; apply sumlt_ext; intros n _.
  - rewrite <- (Re (fun n => fst (fb n)) n), <- (Ev (fst (fb n)) n). match goal with |- _ = ?r => rewrite <- (Rplus_0_r r) end. rewrite <- (Od (- snd (fb n)) n), <- sumlt_plus. apply sumlt_ext. intros j _. rewrite Mul. unfold r, cmul, cscale. cbn [fst snd]. ring.
  - rewrite <- (Re (fun n => snd (fb n)) n), <- (Ev (snd (fb n)) n). match goal with |- _ = ?r => rewrite <- (Rplus_0_r r) end. rewrite <- (Od (fst (fb n)) n), <- sumlt_plus. apply sumlt_ext. intros j _. rewrite Mul. unfold r, cmul, cscale. cbn [fst snd]. ring.
Qed.

(** the direction of a source for the local expansion *)
Lemma angles_l_ok c x (d := point_sub x c) : regular c x -> exists a e e', angles (-1) d = Ok (norm3 d, a, e) /\ angles_l d = Ok (norm3 d, a, e') /\ -1 <= a <= 1 /\
  forall q fb n j, lterm q fb e' (Q a) n j = lterm q fb e (Q a) n j.
Proof.
  intros [R1 R2]. pose proof tiny_pos as Tp. unfold tiny in Tp. assert (N : norm3 d = dist c x) by apply norm3_dist. assert (Hd : 0 < norm3 d) by lra.
  destruct (angles_ok (-1) d ltac:(ring) Hd) as (a & e & A & Ba & _ & Za & _). exists a, e.
  assert (O : sqrt (px d * px d + py d * py d) = off_axis c x) by (unfold off_axis, d, point_sub; cbn [px py pz]; f_equal; ring).
  clearbody d.
  revert A Za. unfold angles, angles_l, eff. rewrite O. destruct (Rle_dec (norm3 d) tiny) as [L|L]; [unfold tiny in L; lra|]. rewrite !rdiv_ok by lra. cbn [bind].
  destruct (Rle_dec (off_axis c x / norm3 d) tiny) as [K|K].
  - cbn [bind]. intros A Za. injection A as Ea Ee. exists (0, 0). split; [rewrite Ea, Ee; reflexivity|]. split; [rewrite Ea; reflexivity|]. split; [exact Ba|].
    assert (Off : off_axis c x = 0). { destruct R2 as [R2|R2]; [exact R2|]. exfalso. unfold tiny in K. assert (off_axis c x <= / 10 ^ 14 * norm3 d); [|rewrite N in *; lra]. apply Rmult_le_reg_r with (/ norm3 d); [apply Rinv_0_lt_compat, Hd|]. rewrite Rmult_assoc, Rinv_r by lra. unfold Rdiv in K. lra. }
    pose proof (norm3_sq d) as Sq. assert (Px : px d * px d + py d * py d = 0) by (rewrite <- (sqrt_sqrt (px d * px d + py d * py d)) by nra; rewrite O, Off; ring).
    assert (A2 : a * a = 1). { cbn [pz] in Za. assert (pz d * pz d = norm3 d * norm3 d) by lra. rewrite Za in H. assert (norm3 d * norm3 d * (a * a - 1) = 0) by lra. apply Rmult_integral in H0. destruct H0 as [H0|H0]; [nra|lra]. }
    intros q fb n j. unfold lterm. destruct (dm n j) as [|m] eqn:Ed.
    + assert (j = n) as -> by (unfold dm in Ed; destruct (Nat.leb_spec n j); lia). unfold epow. rewrite Nat.leb_refl, Nat.sub_diag. reflexivity.
    + assert (Q0 : Q a n (S m) = 0) by (unfold Q; replace (1 - a * a) with 0 by lra; rewrite sqrt_0; simpl pow; ring). rewrite Q0. unfold cmul, cscale. cbn [fst snd]. f_equal; ring.
  - assert (Off : 0 < off_axis c x). { assert (0 <= off_axis c x) by apply sqrt_pos. destruct (Req_dec (off_axis c x) 0) as [E|E]; [exfalso; apply K; rewrite E; unfold Rdiv, tiny; lra|lra]. }
    rewrite !rdiv_ok by lra. cbn [bind]. intros A _. injection A as Ea Ee. exists e. split; [rewrite Ea, Ee; reflexivity|]. split; [|split; [exact Ba|reflexivity]]. rewrite Ea, <- Ee. match goal with |- Ok (_, (_, ?u)) = Ok (_, (_, ?v)) => replace u with v by (unfold Rdiv; ring); reflexivity end.
Qed.

Lemma hs_step p sqf (bes : R -> res (list cplx)) (fb : nat -> cplx) q d g L r ct e : ytable p sqf -> lcoefs p g L -> angles_l d = Ok (r, ct, e) -> -1 <= ct <= 1 ->
  (exists B, bes r = Ok B /\ forall n, (n <= p)%nat -> nth_error B n = Some (fb n)) ->
  exists L', (do (r, ctheta, ephi) <- angles_l d; do pe <- both_powers p ephi; do bessel <- bes r;
              do leg <- legendre_Plm p ctheta (repeat 0 ((p + 1) * (p + 2) / 2)); helm_add_terms p sqf q bessel pe leg L) = Ok L' /\
    lcoefs p (fun n j => cadd (g n j) (lterm q fb e (Q ct) n j)) L'.
Proof.
  intros HT HM HA Hc (B & EB & HB). rewrite HA. cbn [bind]. destruct (both_powers_ok p e) as (pe & Ee & He). rewrite Ee. cbn [bind]. rewrite EB. cbn [bind].
  destruct (plm_ok p ct Hc (repeat 0 ((p + 1) * (p + 2) / 2))) as (leg & El & _ & Hl); [rewrite repeat_length, size_tri; lia|]. rewrite El. cbn [bind].
  apply hadd_terms_ok; assumption.
Qed.
Lemma hl_step p (bes : R -> res (list R)) (fr : nat -> R) d g L r ct e : lcoefs p g L -> angles 1 d = Ok (r, ct, e) -> -1 <= ct <= 1 ->
  (exists B, bes r = Ok B /\ forall n, (n <= p)%nat -> nth_error B n = Some (fr n)) ->
  (do (r, ctheta, ephi) <- angles 1 d; do pe <- both_powers p ephi; do bessel <- bes r;
   do leg <- legendre_Plm p ctheta (repeat 0 ((p + 1) * (p + 2) / 2)); helm_potential_l p bessel pe leg L) =
  Ok (lre p fr e (Q ct) g, lim p fr e (Q ct) g).
Proof.
  intros HM HA Hc (B & EB & HB). rewrite HA. cbn [bind]. destruct (both_powers_ok p e) as (pe & Ee & He). rewrite Ee. cbn [bind]. rewrite EB. cbn [bind].
  destruct (plm_ok p ct Hc (repeat 0 ((p + 1) * (p + 2) / 2))) as (leg & El & _ & Hl); [rewrite repeat_length, size_tri; lia|]. rewrite El. cbn [bind].
  apply hpotential_l; assumption.
Qed.

Lemma hlsources_ok p (f : list cplx -> charge -> res (list cplx)) (G : R -> nat -> cplx) ctr l :
  (forall L g s a e, lcoefs p g L -> In s l -> -1 <= a <= 1 -> angles_l (point_sub (cpos s) ctr) = Ok (norm3 (point_sub (cpos s) ctr), a, e) ->
     exists L', f L s = Ok L' /\ lcoefs p (fun n j => cadd (g n j) (lterm (cq s) (G (norm3 (point_sub (cpos s) ctr))) e (Q a) n j)) L') ->
  (forall s, In s l -> regular ctr (cpos s)) ->
  forall g L, lcoefs p g L -> exists L' g', foldM f l L = Ok L' /\ lcoefs p g' L' /\
    forall t b eb fr, 0 < norm3 t -> angles 1 t = Ok (norm3 t, b, eb) ->
      lre p fr eb (Q b) g' = lre p fr eb (Q b) g +
        fold_right (fun s v => let d := point_sub (cpos s) ctr in contrib p (cq s) (fun n => (2 * INR n + 1) * fst (G (norm3 d) n)) fr (dot (eff d) (eff t) / (norm3 d * norm3 t)) + v) 0 l /\
      lim p fr eb (Q b) g' = lim p fr eb (Q b) g +
        fold_right (fun s v => let d := point_sub (cpos s) ctr in contrib p (cq s) (fun n => (2 * INR n + 1) * snd (G (norm3 d) n)) fr (dot (eff d) (eff t) / (norm3 d * norm3 t)) + v) 0 l.
Proof.
  intros Hf Hl. induction l as [|s l IH]; intros g L HL.
  - exists L, g. split; [reflexivity|]. split; [exact HL|]. intros. cbn [fold_right]. split; ring.
  - set (d := point_sub (cpos s) ctr). pose proof (Hl s (or_introl eq_refl)) as Rs. assert (Hd : 0 < norm3 d) by (unfold d; rewrite norm3_dist; destruct Rs; pose proof tiny_pos; unfold tiny in *; lra).
    destruct (angles_l_ok ctr (cpos s) Rs) as (a & e & e' & Ad & Al & Ba & Lt). fold d in Ad, Al. destruct (Hf L g s a e' HL (or_introl eq_refl) Ba Al) as (L1 & E1 & H1).
    destruct (IH ltac:(intros; apply Hf; try right; assumption) ltac:(intros; apply Hl; right; assumption) _ L1 H1) as (L' & g' & E' & H' & V').
    exists L', g'. cbn [foldM]. rewrite E1. cbn [bind]. split; [exact E'|]. split; [exact H'|]. intros t b eb fr Ht At. destruct (V' t b eb fr Ht At) as [V1 V2]. rewrite V1, V2, lre_add, lim_add. cbn [fold_right]. fold d.
    destruct (l_term p (cq s) (G (norm3 d)) fr e eb (Q a) (Q b)) as [T1 T2].
    assert (X1 : lre p fr eb (Q b) (lterm (cq s) (G (norm3 d)) e' (Q a)) = lre p fr eb (Q b) (lterm (cq s) (G (norm3 d)) e (Q a))) by (unfold lre; apply sumlt_ext; intros n _; apply sumlt_ext; intros j _; rewrite Lt; reflexivity).
    assert (X2 : lim p fr eb (Q b) (lterm (cq s) (G (norm3 d)) e' (Q a)) = lim p fr eb (Q b) (lterm (cq s) (G (norm3 d)) e (Q a))) by (unfold lim; apply sumlt_ext; intros n _; apply sumlt_ext; intros j _; rewrite Lt; reflexivity).
    rewrite X1, X2, T1, T2, !(pot_term p (cq s) _ fr a b e eb d t Hd Ht Ad At). split; ring.
Qed.
Lemma hnew_lcoefs p : lcoefs p (fun _ _ => (0, 0)) (repeat (0, 0) ((p + 1) * (p + 1))).
Proof. split; [apply repeat_length|]. intros n j A B. apply nth_error_repeat. nia. Qed.
Lemma hnew_coefs p : ycoefs p (fun _ _ => (0, 0)) (repeat (0, 0) ((p + 1) * (p + 2) / 2)).
Proof. exact (ynew_coefs p). Qed.
