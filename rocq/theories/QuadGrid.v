(** Checking a whole layer of cells. *)
From Coq Require Import Reals ZArith List Lia Lra Psatz Bool.
From Coquelicot Require Import Coquelicot.
From Verif Require Import QuadBall QuadFun QuadCell.
Import ListNotations.
Open Scope R_scope.

(** ** Tables *)
Fixpoint pows (q cur : ball) (n : nat) : list ball := match n with O => [] | S k => cur :: pows q (bmul cur q) k end.
(** Sine and cosine of multiples of an angle, by doubling *)
Fixpoint rotp (c s : ball) (p : positive) : ball * ball :=
  match p with
  | xH => (c, s)
  | xO q => let '(d, e) := rotp c s q in (badd (bmul d d) (bneg (bmul e e)), badd (bmul e d) (bmul d e))
  | xI q => let '(d, e) := rotp c s q in
            let d2 := badd (bmul d d) (bneg (bmul e e)) in let e2 := badd (bmul e d) (bmul d e) in
            (badd (bmul d2 c) (bneg (bmul e2 s)), badd (bmul e2 c) (bmul d2 s))
  end.
Definition rotn (c s : ball) (n : N) : ball * ball := match n with N0 => (bofZ 1, bofZ 0) | Npos p => rotp c s p end.
Definition b0 : ball := Ball 0 0.
Lemma pows_ok q y n : within q y -> forall cur x k, within cur x -> (k < n)%nat -> within (nth k (pows q cur n) b0) (x * y ^ k).
Proof.
  intros Hq. induction n as [|n IH]; intros cur x k Hc Hk; [lia|]. cbn [pows]. destruct k as [|k]; cbn [nth pow]; [rewrite Rmult_1_r; exact Hc|].
  replace (x * (y * y ^ k)) with (x * y * y ^ k) by ring. apply IH; [apply bmul_ok; assumption|lia].
Qed.
Lemma turn_ok c s d e x y : within c (cos x) -> within s (sin x) -> within d (cos y) -> within e (sin y) ->
  within (badd (bmul d c) (bneg (bmul e s))) (cos (y + x)) /\ within (badd (bmul e c) (bmul d s)) (sin (y + x)).
Proof.
  intros H1 H2 H3 H4. split.
  - rewrite cos_plus. apply badd_ok; [apply bmul_ok; assumption|]. apply bneg_ok, bmul_ok; assumption.
  - rewrite sin_plus. apply badd_ok; apply bmul_ok; assumption.
Qed.
Lemma rotp_ok c s th p : within c (cos th) -> within s (sin th) -> within (fst (rotp c s p)) (cos (IZR (Zpos p) * th)) /\ within (snd (rotp c s p)) (sin (IZR (Zpos p) * th)).
Proof.
  intros Hc Hs. induction p as [q IH|q IH|]; cbn [rotp].
  - destruct (rotp c s q) as [d e]. cbn [fst snd] in IH. destruct IH as [I1 I2]. pose proof (turn_ok d e d e _ _ I1 I2 I1 I2) as [J1 J2]. pose proof (turn_ok c s _ _ _ _ Hc Hs J1 J2) as J.
    cbn zeta. cbn [fst snd]. replace (IZR (Zpos q~1) * th) with (IZR (Zpos q) * th + IZR (Zpos q) * th + th) by (rewrite (Pos2Z.inj_xI q), plus_IZR, mult_IZR; ring). exact J.
  - destruct (rotp c s q) as [d e]. cbn [fst snd] in IH |- *. destruct IH as [I1 I2]. replace (IZR (Zpos q~0) * th) with (IZR (Zpos q) * th + IZR (Zpos q) * th) by (rewrite (Pos2Z.inj_xO q), mult_IZR; ring). apply turn_ok; assumption.
  - cbn [fst snd]. rewrite Rmult_1_l. split; assumption.
Qed.
Lemma rotn_ok c s th n : within c (cos th) -> within s (sin th) -> within (fst (rotn c s n)) (cos (IZR (Z.of_N n) * th)) /\ within (snd (rotn c s n)) (sin (IZR (Z.of_N n) * th)).
Proof.
  intros Hc Hs. destruct n as [|p]; [|apply rotp_ok; assumption]. cbn [rotn fst snd Z.of_N]. rewrite Rmult_0_l, cos_0, sin_0. split; apply bofZ_ok.
Qed.

Record btab := BTab { tb_l : ball; tb_w : ball; tb_a : ball; tb_b : ball; tb_e : list ball; tb_ra : list (ball * ball); tb_rb : list (ball * ball) }.
Definition rtab (a : ball) : list (ball * ball) := let c := bcos (bdiv a 16) in let s := bsin (bdiv a 16) in map (fun k => rotn c s (N.of_nat k)) (seq 0 65).
Definition mktab (l w a b : ball) : btab := BTab l w a b (pows (bexpn (bdiv l 16)) (bofZ 1) 65) (rtab a) (rtab b).
Definition tab_ok (T : btab) (t : rterm) : Prop :=
  plain t /\ within (tb_l T) (r_l t) /\ within (tb_w T) (r_w t) /\ within (tb_a T) (r_a t) /\ within (tb_b T) (r_b t) /\
  forall n, (0 <= n <= 64)%Z ->
    within (nth (Z.to_nat n) (tb_e T) b0) (exp (- (r_l t * g n))) /\
    within (fst (nth (Z.to_nat n) (tb_ra T) (b0, b0))) (cos (r_a t * g n)) /\ within (snd (nth (Z.to_nat n) (tb_ra T) (b0, b0))) (sin (r_a t * g n)) /\
    within (fst (nth (Z.to_nat n) (tb_rb T) (b0, b0))) (cos (r_b t * g n)) /\ within (snd (nth (Z.to_nat n) (tb_rb T) (b0, b0))) (sin (r_b t * g n)).
Lemma rtab_ok b a n : 0 <= a <= 8 -> within b a -> (0 <= n <= 64)%Z -> within (fst (nth (Z.to_nat n) (rtab b) (b0, b0))) (cos (a * g n)) /\ within (snd (nth (Z.to_nat n) (rtab b) (b0, b0))) (sin (a * g n)).
Proof.
  intros Ha W Hn. assert (W' : within (bdiv b 16) (a / 16)) by (apply (bdiv_ok b 16 a); [lia|exact W]). unfold rtab.
  set (c := bcos (bdiv b 16)). set (s := bsin (bdiv b 16)). cbv zeta. pose proof (rotn_ok c s (a / 16) (N.of_nat (Z.to_nat n)) (bcos_ok _ (a / 16) ltac:(lra) W') (bsin_ok _ (a / 16) ltac:(lra) W')) as H.
  rewrite nat_N_Z, Z2Nat.id in H by lia. replace (IZR n * (a / 16)) with (a * g n) in H by (unfold g; field).
  rewrite (nth_indep _ (b0, b0) (rotn c s (N.of_nat 0))) by (rewrite map_length, seq_length; lia). rewrite (map_nth (fun k => rotn c s (N.of_nat k))), seq_nth by lia. exact H.
Qed.
Lemma exp_pow x k : exp x ^ k = exp (INR k * x).
Proof. induction k as [|k IH]; [cbn; rewrite Rmult_0_l, exp_0; reflexivity|]. rewrite S_INR. cbn [pow]. rewrite IH, <- exp_plus. f_equal. ring. Qed.
Lemma mktab_ok l w a b t : plain t -> within l (r_l t) -> within w (r_w t) -> within a (r_a t) -> within b (r_b t) -> tab_ok (mktab l w a b) t.
Proof.
  intros P Hl Hw Ha Hb. pose proof P as (Pl & _ & Pa & Pb). split; [exact P|]. cbn [mktab tb_l tb_w tb_a tb_b tb_e tb_ra tb_rb]. split; [exact Hl|]. split; [exact Hw|]. split; [exact Ha|]. split; [exact Hb|]. intros n Hn.
  split; [|pose proof (rtab_ok a _ n Pa Ha Hn) as [A1 A2]; pose proof (rtab_ok b _ n Pb Hb Hn) as [A3 A4]; tauto].
  assert (W' : within (bdiv l 16) (r_l t / 16)) by (apply (bdiv_ok l 16); [lia|exact Hl]). pose proof (pows_ok _ _ 65 (bexpn_ok _ (r_l t / 16) ltac:(lra) W') (bofZ 1) 1 (Z.to_nat n) (bofZ_ok 1) ltac:(lia)) as H.
  rewrite Rmult_1_l, exp_pow, INR_IZR_INZ, Z2Nat.id in H by lia. replace (IZR n * - (r_l t / 16)) with (- (r_l t * g n)) in H by (unfold g; field). exact H.
Qed.

(** ** The coefficients *)
Definition bzco (nz nh : Z) (T : btab) : list ball := let E := bmul (tb_w T) (nth (Z.to_nat nz) (tb_e T) b0) in let u := bdiv (bscale nh (tb_l T)) 16 in [E; bneg (bmul u E); bdiv (bmul u (bmul u E)) 2].
Definition bxco (a : ball) (r : list (ball * ball)) (n nh : Z) : list ball := let v := bdiv (bscale nh a) 16 in let cs := nth (Z.to_nat n) r (b0, b0) in [fst cs; bneg (bmul v (snd cs)); bneg (bdiv (bmul v (bmul v (fst cs))) 2)].
Definition bcub (v : ball) : ball := bdiv (bmul v (bmul v v)) 6.
Definition brem (nz nh : Z) (T : btab) : ball :=
  let cl := bcub (bdiv (bscale nh (tb_l T)) 16) in let ca := bcub (bdiv (bscale nh (tb_a T)) 16) in let cb := bcub (bdiv (bscale nh (tb_b T)) 16) in
  bmul (bmul (tb_w T) (nth (Z.to_nat (nz - nh)) (tb_e T) b0)) (badd cl (bmul (badd (bofZ 1) cl) (badd ca (bmul (badd (bofZ 1) ca) cb)))).
Lemma bg_ok b a nh : within b a -> within (bdiv (bscale nh b) 16) (a * g nh).
Proof. intros W. replace (a * g nh) with (IZR nh * a / IZR 16) by (unfold g; field). apply bdiv_ok; [lia|]. apply bscale_ok, W. Qed.
Lemma bcub_ok b v : within b v -> within (bcub b) (cub v).
Proof. intros W. unfold bcub, cub. apply (bdiv_ok _ 6); [lia|]. apply bmul_ok; [exact W|]. apply bmul_ok; exact W. Qed.
Lemma bzco_ok nz nh T t : tab_ok T t -> (0 <= nz <= 64)%Z -> holds (bzco nz nh T) (zco nz nh t).
Proof.
  intros (_ & Hl & Hw & _ & _ & H) Hn. destruct (H nz Hn) as (HE & _). unfold bzco, zco. cbv zeta. pose proof (bmul_ok _ _ _ _ Hw HE) as WE. pose proof (bg_ok _ _ nh Hl) as U.
  apply Forall2_cons; [exact WE|]. apply Forall2_cons; [apply bneg_ok, bmul_ok; assumption|]. apply Forall2_cons; [|apply Forall2_nil]. apply (bdiv_ok _ 2); [lia|]. apply bmul_ok; [exact U|]. apply bmul_ok; assumption.
Qed.
Lemma bxco_ok b r a n nh : within b a -> within (fst (nth (Z.to_nat n) r (b0, b0))) (cos (a * g n)) -> within (snd (nth (Z.to_nat n) r (b0, b0))) (sin (a * g n)) -> holds (bxco b r n nh) (xco a n nh).
Proof.
  intros Hb Hc Hs. unfold bxco, xco. cbv zeta. pose proof (bg_ok _ _ nh Hb) as V. apply Forall2_cons; [exact Hc|]. apply Forall2_cons; [apply bneg_ok, bmul_ok; assumption|]. apply Forall2_cons; [|apply Forall2_nil].
  apply bneg_ok. apply (bdiv_ok _ 2); [lia|]. apply bmul_ok; [exact V|]. apply bmul_ok; assumption.
Qed.
Lemma brem_ok nz nh T t : tab_ok T t -> (0 <= nz - nh <= 64)%Z -> within (brem nz nh T) (remw nz nh t).
Proof.
  intros (_ & Hl & Hw & Ha & Hb & H) Hn. destruct (H _ Hn) as (HE & _). unfold brem, remw. cbv zeta. apply bmul_ok; [apply bmul_ok; assumption|]. pose proof (bcub_ok _ _ (bg_ok _ _ nh Hl)). pose proof (bcub_ok _ _ (bg_ok _ _ nh Ha)). pose proof (bcub_ok _ _ (bg_ok _ _ nh Hb)).
  pose proof (bofZ_ok 1). apply badd_ok; [assumption|]. apply bmul_ok; [apply badd_ok; assumption|]. apply badd_ok; [assumption|]. apply bmul_ok; [apply badd_ok; assumption|assumption].
Qed.
Definition bico (nx ny nz nh : Z) : list ball :=
  let S := dsq nx ny nz in
  [bofZ 1; bneg (bfrac (ny * nh) S); bfrac (nh * nh * (3 * ny * ny - S)) (2 * S * S);
   bneg (bfrac (nx * nh) S); bfrac (3 * nx * ny * nh * nh) (S * S); bofZ 0;
   bfrac (nh * nh * (3 * nx * nx - S)) (2 * S * S); bofZ 0; bofZ 0;
   bneg (bfrac (nz * nh) S); bfrac (3 * nz * ny * nh * nh) (S * S); bofZ 0;
   bfrac (3 * nz * nx * nh * nh) (S * S); bofZ 0; bofZ 0; bofZ 0; bofZ 0; bofZ 0;
   bfrac (nh * nh * (3 * nz * nz - S)) (2 * S * S); bofZ 0; bofZ 0; bofZ 0; bofZ 0; bofZ 0; bofZ 0; bofZ 0; bofZ 0].
Definition bremi (nx ny nz nh : Z) : ball :=
  let S := dsq nx ny nz in let a := bfrac (2 * nh * (nx + ny + nz)) S in let d := bfrac (3 * nh * nh) S in let t := badd a d in
  badd (bdiv (bscale 9 (bmul t (bmul t t))) 20) (bdiv (bscale 3 (badd (bscale 2 (bmul a d)) (bmul d d))) 8).
Lemma bico_ok nx ny nz nh : (0 < nz)%Z -> holds (bico nx ny nz nh) (icoR nx ny nz nh).
Proof.
  intros Hz. assert (P : (0 < dsq nx ny nz)%Z) by (unfold dsq; nia). unfold bico, icoR. cbv zeta. set (S := dsq nx ny nz) in *. assert (PP : (0 < S * S)%Z) by nia. assert (P2 : (0 < 2 * S * S)%Z) by nia.
  repeat first [apply Forall2_nil|apply Forall2_cons; [first [apply bofZ_ok
    |rewrite <- ?mult_IZR; apply bneg_ok, bfrac_ok; assumption
    |rewrite <- ?mult_IZR, <- ?minus_IZR, <- ?mult_IZR; apply bfrac_ok; assumption]|]].
Qed.
Lemma bremi_ok nx ny nz nh : (0 < nz)%Z -> within (bremi nx ny nz nh) (remi nx ny nz nh).
Proof.
  intros Hz. assert (P : (0 < dsq nx ny nz)%Z) by (unfold dsq; nia). unfold bremi, remi. cbv zeta. set (S := dsq nx ny nz) in *.
  assert (A : within (bfrac (2 * nh * (nx + ny + nz)) S) (2 * IZR nh * (IZR nx + IZR ny + IZR nz) / IZR S)) by (rewrite <- !plus_IZR, <- !mult_IZR; apply bfrac_ok; exact P).
  assert (D : within (bfrac (3 * nh * nh) S) (3 * IZR nh * IZR nh / IZR S)) by (rewrite <- !mult_IZR; apply bfrac_ok; exact P). set (a := 2 * IZR nh * (IZR nx + IZR ny + IZR nz) / IZR S) in *. set (d := 3 * IZR nh * IZR nh / IZR S) in *.
  pose proof (badd_ok _ _ _ _ A D) as T. apply badd_ok.
  - replace (9 / 20 * (a + d) ^ 3) with (IZR 9 * ((a + d) * ((a + d) * (a + d))) / IZR 20) by field. apply bdiv_ok; [lia|]. apply bscale_ok, bmul_ok; [exact T|]. apply bmul_ok; exact T.
  - replace (3 / 8 * (2 * a * d + d * d)) with (IZR 3 * (IZR 2 * (a * d) + d * d) / IZR 8) by field. apply bdiv_ok; [lia|]. apply bscale_ok, badd_ok; [apply bscale_ok|]; apply bmul_ok; assumption.
Qed.
Global Opaque bico bremi.

(** ** The check *)
Definition check_cell (AB Y : list (list ball)) (remq nx ny nz nh eps : Z) : bool :=
  let S := dsq nx ny nz in let v := bscale 16 (binvsqrt S) in
  (10 * (2 * nh * (nx + ny + nz) + 3 * nh * nh) <=? 3 * S)%Z &&
  (mags (ladd (accum AB Y) (map bneg (map (bmul v) (bico nx ny nz nh)))) + bmag (bmul v (bremi nx ny nz nh)) + remq <=? eps)%Z.
Fixpoint zipo (A B : list (list ball)) : list (list ball) := match A, B with a :: A, b :: B => outer a b :: zipo A B | _, _ => [] end.
Definition odds (nh : Z) : list Z := map (fun i => ((2 * Z.of_nat i + 1) * nh)%Z) (seq 0 (Z.to_nat (32 / nh))).
(** The cells of a layer with middles in 16ths; only those selected are checked. *)
Definition check_layer (sel : Z -> Z -> bool) (Ts : list btab) (nz nh eps : Z) : bool :=
  let zs := map (bzco nz nh) Ts in
  let remq := mags (map (brem nz nh) Ts) in
  let ys := map (fun n => (n, map (fun T => bxco (tb_b T) (tb_rb T) n nh) Ts)) (odds nh) in
  (0 <? nh)%Z && (nh <=? nz)%Z && (nz <=? 64)%Z &&
  forallb (fun n => let AB := zipo zs (map (fun T => bxco (tb_a T) (tb_ra T) n nh) Ts) in
    forallb (fun my => if sel n (fst my) then check_cell AB (snd my) remq n (fst my) nz nh eps else true) ys) (odds nh).

Fixpoint zipoR (A B : list (list R)) : list (list R) := match A, B with a :: A, b :: B => outerR a b :: zipoR A B | _, _ => [] end.
Lemma zipo_ok A X B Y : List.Forall2 holds A X -> List.Forall2 holds B Y -> List.Forall2 holds (zipo A B) (zipoR X Y).
Proof. intros U. revert B Y. induction U as [|a x A X H1 H2 IH]; intros B Y V; [constructor|]. destruct V as [|b y B Y V1 V2]; [constructor|]. cbn [zipo zipoR]. constructor; [apply outer_ok; assumption|apply IH, V2]. Qed.
Lemma map_ok {A B} (P : A -> B -> Prop) (f : A -> list ball) (h : B -> list R) : (forall a b, P a b -> holds (f a) (h b)) -> forall l m, List.Forall2 P l m -> List.Forall2 holds (map f l) (map h m).
Proof. intros H l m F. induction F as [|a b l m H1 H2 IH]; [constructor|]. cbn [map]. constructor; [apply H, H1|exact IH]. Qed.
Definition coR (ts : list rterm) (nz nx ny nh : Z) : list R := accumR (zipoR (map (zco nz nh) ts) (map (fun t => xco (r_a t) nx nh) ts)) (map (fun t => xco (r_b t) ny nh) ts).
Lemma accumR_length A Y : List.Forall (fun a => length a = 9%nat) A -> List.Forall (fun y => length y = 3%nat) Y -> length (accumR A Y) = 27%nat.
Proof.
  intros HA. revert Y. induction HA as [|a A H1 H2 IH]; intros Y HY; [apply repeat_length|]. destruct HY as [|y Y V1 V2]; [apply repeat_length|]. cbn [accumR]. rewrite laddR_length; rewrite outerR_length, H1, V1; [reflexivity|]. rewrite IH by exact V2. reflexivity.
Qed.
Lemma co_dot ts nz nx ny nh z x y : dot (coR ts nz nx ny nh) (mono3 z x y) = fold_right (fun t v => dot (zco nz nh t) (mono z) * dot (xco (r_a t) nx nh) (mono x) * dot (xco (r_b t) ny nh) (mono y) + v) 0 ts.
Proof.
  unfold coR. induction ts as [|t ts IH]; [cbn [map zipoR accumR fold_right]; apply dot_zeros|]. cbn [map zipoR accumR fold_right]. rewrite dot_ladd.
  - rewrite IH. f_equal. unfold mono3. rewrite dot_outer; [rewrite dot_outer; reflexivity|reflexivity|reflexivity].
  - rewrite outerR_length, outerR_length. symmetry. apply accumR_length.
    + clear. induction ts as [|t ts IH]; [constructor|]. cbn [map zipoR]. constructor; [rewrite outerR_length; reflexivity|exact IH].
    + apply List.Forall_forall. intros l Hl. apply in_map_iff in Hl. destruct Hl as (t' & <- & _). reflexivity.
Qed.
Lemma waves_rem ts nz nx ny nh z x y : List.Forall plain ts -> (0 <= nh)%Z -> Rabs z <= 1 -> Rabs x <= 1 -> Rabs y <= 1 ->
  Rabs (waves1 ts (g nz + g nh * z) (g nx + g nh * x) (g ny + g nh * y) - dot (coR ts nz nx ny nh) (mono3 z x y)) <= fold_right (fun t v => remw nz nh t + v) 0 ts.
Proof.
  intros HP Hn Hz Hx Hy. rewrite co_dot. unfold waves1. induction HP as [|t ts H1 H2 IH]; cbn [fold_right]; [rewrite Rminus_0_r, Rabs_R0; lra|].
  match goal with |- Rabs (?a + ?b - (?c + ?d)) <= _ => replace (a + b - (c + d)) with ((a - c) + (b - d)) by ring end. eapply Rle_trans; [apply Rabs_triang|]. apply Rplus_le_compat; [apply wave_rem; assumption|exact IH].
Qed.
Lemma rem_mags Ts ts nz nh : List.Forall2 tab_ok Ts ts -> (0 <= nz - nh <= 64)%Z -> fold_right (fun t v => remw nz nh t + v) 0 ts * IZR SC <= IZR (mags (map (brem nz nh) Ts)).
Proof.
  intros F H. induction F as [|T t Ts ts H1 H2 IH]; [cbn; lra|]. cbn [map mags fold_right]. rewrite plus_IZR. pose proof (bmag_ok _ _ (brem_ok nz nh T t H1 H)) as B. pose proof (Rle_abs (remw nz nh t)). pose proof SCR. nra.
Qed.
Theorem check_layer_ok sel Ts ts nz nh eps : List.Forall2 tab_ok Ts ts -> check_layer sel Ts nz nh eps = true -> forall nx ny z x y, In nx (odds nh) -> In ny (odds nh) -> sel nx ny = true -> Rabs z <= 1 -> Rabs x <= 1 -> Rabs y <= 1 ->
  Rabs (waves1 ts (g nz + g nh * z) (g nx + g nh * x) (g ny + g nh * y) - / sqrt ((g nx + g nh * x) ^ 2 + (g ny + g nh * y) ^ 2 + (g nz + g nh * z) ^ 2)) <= IZR eps / IZR SC.
Proof.
  intros F H nx ny z x y Hnx Hny Hsel Hz Hx Hy. unfold check_layer in H. apply andb_true_iff in H. destruct H as [H HC]. apply andb_true_iff in H. destruct H as [H L3]. apply andb_true_iff in H. destruct H as [L1 L2]. apply Z.ltb_lt in L1. apply Z.leb_le in L2, L3.
  rewrite forallb_forall in HC. specialize (HC nx Hnx). cbv zeta in HC. rewrite forallb_forall in HC. specialize (HC (ny, map (fun T => bxco (tb_b T) (tb_rb T) ny nh) Ts)). cbn [fst snd] in HC.
  assert (HC' := HC (in_map (fun n => (n, map (fun T => bxco (tb_b T) (tb_rb T) n nh) Ts)) _ _ Hny)). clear HC. rewrite Hsel in HC'. unfold check_cell in HC'. cbv zeta in HC'. apply andb_true_iff in HC'. destruct HC' as [C1 C2]. apply Z.leb_le in C1, C2.
  assert (R : forall n, In n (odds nh) -> (0 <= n <= 64)%Z).
  { intros n Hn. apply in_map_iff in Hn. destruct Hn as (i & <- & Hi). apply in_seq in Hi. pose proof (Z.mul_div_le 32 nh L1) as D. assert (0 <= 32 / nh)%Z by (apply Z.div_pos; lia). nia. }
  pose proof (R nx Hnx) as Rx. pose proof (R ny Hny) as Ry. set (S := dsq nx ny nz) in *. assert (PSz : (0 < S)%Z) by (unfold S, dsq; nia). assert (PS : 0 < IZR S) by (apply IZR_lt, PSz).
  assert (AB : holds (accum (zipo (map (bzco nz nh) Ts) (map (fun T => bxco (tb_a T) (tb_ra T) nx nh) Ts)) (map (fun T => bxco (tb_b T) (tb_rb T) ny nh) Ts)) (coR ts nz nx ny nh)).
  { unfold coR. apply accum_ok; [apply zipo_ok|].
    - apply (map_ok tab_ok); [|exact F]. intros T t HT. apply bzco_ok; [exact HT|lia].
    - apply (map_ok tab_ok (fun T => bxco (tb_a T) (tb_ra T) nx nh) (fun t => xco (r_a t) nx nh)); [|exact F]. intros T t (_ & _ & _ & Ha & _ & HT). destruct (HT nx Rx) as (_ & A1 & A2 & _). apply bxco_ok; assumption.
    - apply (map_ok tab_ok (fun T => bxco (tb_b T) (tb_rb T) ny nh) (fun t => xco (r_b t) ny nh)); [|exact F]. intros T t (_ & _ & _ & _ & Hb & HT). destruct (HT ny Ry) as (_ & _ & _ & A1 & A2). apply bxco_ok; assumption. }
  set (v := 16 * / sqrt (IZR S)). assert (V : within (bscale 16 (binvsqrt S)) v) by (apply (bscale_ok 16), binvsqrt_ok, PSz).
  assert (IC : holds (map bneg (map (bmul (bscale 16 (binvsqrt S))) (bico nx ny nz nh))) (map Ropp (map (Rmult v) (icoR nx ny nz nh)))).
  { pose proof (holds_map _ _ _ _ V (bico_ok nx ny nz nh ltac:(lia))) as HI. clear - HI. induction HI as [|b r bl rl H1 H2 IH]; [constructor|]. cbn [map]. constructor; [apply bneg_ok, H1|exact IH]. }
  pose proof (ladd_ok _ _ _ _ AB IC) as DI. pose proof (dot_mags _ _ _ DI (mono3_small z x y Hz Hx Hy)) as DM.
  assert (LC : length (coR ts nz nx ny nh) = 27%nat).
  { unfold coR. apply accumR_length.
    - clear. induction ts as [|t ts IH]; [constructor|]. cbn [map zipoR]. constructor; [rewrite outerR_length; reflexivity|exact IH].
    - apply List.Forall_forall. intros l Hl. apply in_map_iff in Hl. destruct Hl as (t' & <- & _). reflexivity. }
  rewrite dot_ladd in DM by (rewrite LC, !map_length; reflexivity).
  assert (DN : forall l m, dot (map Ropp l) m = - dot l m) by (intros l; induction l as [|a l IH]; intros [|b m]; cbn [map dot]; try ring; rewrite IH; ring). rewrite DN in DM.
  assert (HP : List.Forall plain ts) by (clear - F; induction F as [|T t Ts ts H1 H2 IH]; constructor; [exact (proj1 H1)|exact IH]).
  pose proof (waves_rem ts nz nx ny nh z x y HP ltac:(lia) Hz Hx Hy) as W. pose proof (rem_mags Ts ts nz nh F ltac:(lia)) as WR.
  assert (T3 : 2 * IZR nh * (IZR nx + IZR ny + IZR nz) / IZR S + 3 * IZR nh * IZR nh / IZR S <= 3 / 10).
  { apply IZR_le in C1. rewrite !mult_IZR, !plus_IZR, !mult_IZR, !plus_IZR in C1. apply (Rmult_le_reg_r (IZR S)); [exact PS|]. replace ((2 * IZR nh * (IZR nx + IZR ny + IZR nz) / IZR S + 3 * IZR nh * IZR nh / IZR S) * IZR S) with (2 * IZR nh * (IZR nx + IZR ny + IZR nz) + 3 * IZR nh * IZR nh) by (field; lra). lra. }
  pose proof (ico_ok nx ny nz nh z x y ltac:(lia) ltac:(lia) ltac:(lia) ltac:(lia) T3 Hz Hx Hy) as I. fold S v in I.
  pose proof (bmag_ok _ _ (bmul_ok _ _ _ _ V (bremi_ok nx ny nz nh ltac:(lia)))) as IR. apply IZR_le in C2. rewrite !plus_IZR in C2. pose proof (Rle_abs (v * remi nx ny nz nh)) as RA. pose proof SCR as PSC.
  set (Q := waves1 _ _ _ _) in *. set (D := / sqrt (_ + _ + _)) in *. set (dc := dot (coR ts nz nx ny nh) (mono3 z x y)) in *. set (di := dot (map (Rmult v) (icoR nx ny nz nh)) (mono3 z x y)) in *.
  apply (Rmult_le_reg_r (IZR SC)); [exact PSC|]. replace (IZR eps / IZR SC * IZR SC) with (IZR eps) by (field; lra).
  assert (TR : Rabs (Q - D) <= Rabs (Q - dc) + Rabs (dc + - di) + Rabs (D - di)).
  { replace (Q - D) with ((Q - dc) + (dc + - di) + - (D - di)) by ring. eapply Rle_trans; [apply Rabs_triang|]. rewrite Rabs_Ropp. apply Rplus_le_compat_r, Rabs_triang. }
  nra.
Qed.
