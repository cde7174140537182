(** M_to_I in terms of the charges of a box. *)
From Coq Require Import Reals List Lia Lra ZArith Psatz Arith.
From Coquelicot Require Import Coquelicot.
From Verif Require Import Base ListFacts IndexModel LegSpec LegProofs LegAdd LapModel LapSpec LapArrays LapProofs SolidProofs SolidAdd SolidPair SolidTrans SolidMtl TranModel TranSpec TranArrays TranOps TranField TranMove TranDmat TranTable TranEval TranProofs MergeShiftModel MergeShiftSpec WaveModel WaveSpec WaveAlg WaveTab WaveUp.
Import ListNotations.
Open Scope C_scope.

Lemma fst_add (a b : C) : fst (a + b) = (fst a + fst b)%R.
Proof. reflexivity. Qed.
Lemma fst_scal (r : R) (a : C) : fst (RtoC r * a) = (r * fst a)%R.
Proof. unfold Cmult, RtoC. cbn [fst snd]. ring. Qed.
Definition inner kap p (c : nat -> nat -> C) m := csum (fun n => if (m <=? n)%nat then c n m * RtoC (kap ^ n / nf n (n + m)) else 0) (S p).
Lemma F_lin kap p f a (r : R) (c c' : nat -> nat -> C) : F kap p (fun n m => RtoC r * c n m + c' n m) f a = RtoC r * F kap p c f a + F kap p c' f a.
Proof.
  unfold F. rewrite <- csum_scal, <- csum_plus. apply csum_ext. intros m _. fold (inner kap p c m). fold (inner kap p c' m).
  assert (E : csum (fun n => if (m <=? n)%nat then (RtoC r * c n m + c' n m) * RtoC (kap ^ n / nf n (n + m)) else 0) (S p) = RtoC r * inner kap p c m + inner kap p c' m).
  { unfold inner. rewrite <- csum_scal, <- csum_plus. apply csum_ext. intros n _. destruct (m <=? n)%nat; ring. }
  rewrite E. set (e := cis (INR m * a)). replace (e * (RtoC r * inner kap p c m + inner kap p c' m)) with (RtoC r * (e * inner kap p c m) + e * inner kap p c' m) by ring.
  set (u := e * inner kap p c m). set (u' := e * inner kap p c' m). rewrite fst_add, fst_scal. replace (eps m * (r * fst u + fst u'))%R with (r * (eps m * fst u) + eps m * fst u')%R by ring.
  rewrite RtoC_plus, RtoC_mult. ring.
Qed.
Lemma RtoC_rsum g N : RtoC (rsum g N) = csum (fun n => RtoC (g n)) N.
Proof. induction N as [|N IH]; [reflexivity|]. cbn [rsum csum]. rewrite RtoC_plus, IH. reflexivity. Qed.
Lemma F_har kap p f a v : F kap p (fun n m => har v n (n + m)) f a = lp kap v p f a.
Proof.
  unfold F, lp. apply csum_ext. intros m _. rewrite <- csum_scal, csum_fst. rewrite <- rsum_scal, RtoC_rsum, <- csum_scal. apply csum_ext. intros n _.
  destruct (m <=? n)%nat; [|rewrite Cmult_0_r; cbn [fst RtoC]; rewrite Rmult_0_r; ceq]. unfold T. set (h := har v n (n + m)). set (e := cis (INR m * a)).
  replace (e * (h * RtoC (kap ^ n / nf n (n + m)))) with (RtoC (kap ^ n / nf n (n + m)) * (h * e)) by ring. rewrite fst_scal.
  set (u := h * e). replace (eps m * (kap ^ n / nf n (n + m) * fst u))%R with (kap ^ n * (eps m * fst u / nf n (n + m)))%R by (unfold Rdiv; ring). rewrite RtoC_mult. ring.
Qed.
Lemma F_mom kap p f a l : F kap p (mom l) f a = fold_right (fun s v => RtoC (fst s) * lp kap (snd s) p f a + v) 0 l.
Proof.
  induction l as [|s l IH]; cbn [fold_right].
  - unfold F. apply csum_zero. intros m _. rewrite (csum_zero (fun n => if (m <=? n)%nat then mom [] n m * _ else 0)) by (intros n _; destruct (m <=? n)%nat; [unfold mom; cbn [fold_right]; ring|reflexivity]).
    rewrite Cmult_0_r. cbn [fst RtoC]. rewrite Rmult_0_r. apply Cmult_0_r.
  - rewrite <- IH, <- F_har, <- F_lin. reflexivity.
Qed.

(** ** directions *)
Definition turn (d : dir) (v : vec) : vec :=
  match d with PX | MX => mkVec (- vz v) (vy v) (vx v) | PY | MY => mkVec (vz v) (vx v) (vy v) | PZ | MZ => v end.
Definition sgn (d : dir) : R := match d with PX | PY | PZ => 1 | _ => -1 end.
Definition view (d : dir) : nat := match d with PX => 0 | MX => 1 | PY => 2 | MY => 3 | PZ => 4 | MZ => 5 end.
Lemma along_zeta d lam x a : exponent lam (along d x) a = RtoC (sgn d * lam) * zeta (turn d (tov x)) a.
Proof. unfold exponent, zeta, along, turn, tov. destruct d; cbn [sgn px py pz vx vy vz]; apply injective_projections; unfold Cmult, RtoC; cbn [fst snd]; ring. Qed.
Lemma wave_lp d p f lam x : wave p f lam (along d x) (lp (sgn d * lam) (turn d (tov x)) p f).
Proof.
  unfold wave. destruct (lp_lowpass (sgn d * lam) (turn d (tov x)) p f) as (N & c & A & B & G). exists N, c. split; [exact A|]. split; [|exact G]. intros a. rewrite along_zeta. apply B.
Qed.
Lemma wave_is_lp d p f lam x h a : wave p f lam (along d x) h -> h a = lp (sgn d * lam) (turn d (tov x)) p f a.
Proof. intros H. exact (lowpass_unique _ _ _ _ H (wave_lp d p f lam x) a). Qed.

Lemma quarter : let c := cos (acos 0 / 2) in let s := sin (acos 0 / 2) in (c * c + s * s = 1 /\ c * c - s * s = 0 /\ 2 * c * s = 1)%R.
Proof. intros c s. destruct (acos_half 0 ltac:(lra)) as (A & B & D). fold c s in A, B, D. rewrite Rmult_0_r, Rminus_0_r, sqrt_1 in D. auto. Qed.

Section From.
Variable (q : quad) (tb : table).
Hypothesis Q : qok q.
Hypothesis HS : sound tb.
Notation p := (tb_p tb).
Notation wt := (the_waves q p).

Lemma rot_x_view v (c := cos (acos 0 / 2)) (s := sin (acos 0 / 2)) : rot_y c (- s) v = mkVec (- vz v) (vy v) (vx v).
Proof. destruct quarter as (A & B & D). fold c s in A, B, D. unfold rot_y. replace (c * c - - s * - s)%R with 0%R by lra. replace (2 * c * - s)%R with (-1)%R by lra. apply vec_eq; cbn [vx vy vz]; ring. Qed.
Lemma rot_y_view v (c := cos (acos 0 / 2)) (s := sin (acos 0 / 2)) : rot_y c (- - s) (rot_z (eang (- PI / 2)) v) = mkVec (vz v) (vx v) (vy v).
Proof.
  destruct quarter as (A & B & D). fold c s in A, B, D. unfold rot_y, rot_z, eang. cbn [vx vy vz fst snd]. replace (- PI / 2)%R with (- (PI / 2))%R by (unfold Rdiv; ring).
  rewrite cos_neg, sin_neg, cos_PI2, sin_PI2. rewrite !Ropp_involutive, B, D. apply vec_eq; cbn [vx vy vz]; ring.
Qed.
Lemma blank_len : length (repeat (0, 0)%R ((p + 1) * (p + 2) / 2)) = tri (S p).
Proof. rewrite repeat_length. apply size_tri. Qed.

Lemma fr_mapv g kap f a l : fold_right (fun s v => RtoC (fst s) * lp kap (snd s) p f a + v) 0 (mapv g l) = fold_right (fun s v => RtoC (fst s) * lp kap (g (snd s)) p f a + v) 0 l.
Proof. induction l as [|s l IH]; [reflexivity|]. cbn [mapv map fold_right fst snd]. fold (mapv g l). rewrite IH. reflexivity. Qed.

Lemma M_to_I_ok l M : coefs p (mom l) M -> exists views, M_to_I tb wt M = Ok views /\ length views = 6%nat /\
  forall d, nth_error views (view d) = Some (wave_list q (fun k j => RtoC (wgt q k / INR (cnt q k)) * fold_right (fun s v => RtoC (fst s) * lp (sgn d * len q k) (turn d (snd s)) p (frq q k) (ang q k j) + v) 0 l)).
Proof.
  intros HM. unfold M_to_I. destruct (g_keys tb HS 0%R key_zero) as (d1 & d2 & E1 & E2 & R1 & R2). unfold dmat_plus, dmat_minus. rewrite E1, E2. cbn [bind].
  destruct quarter as (A & _ & _). set (c := cos (acos 0 / 2)) in *. set (s := sin (acos 0 / 2)) in *.
  assert (U : (fst (eang (- PI / 2)) * fst (eang (- PI / 2)) + snd (eang (- PI / 2)) * snd (eang (- PI / 2)) = 1)%R) by (apply cis_sq).
  destruct (rotate_z_ok tb M (- PI / 2) _ (mom l) HM blank_len) as (W1 & Ez & Hz'). rewrite Ez. cbn [bind].
  assert (Hz : coefs p (mom (mapv (rot_z (eang (- PI / 2))) l)) W1) by (eapply coefs_ext; [|exact Hz']; intros n m B; cbn beta; apply mom_rz, U).
  destruct (rotate_y_ok tb _ _ d2 W1 _ _ R2 Hz blank_len) as (a2 & W2 & Ey & Hy & Wy). rewrite Ey. cbn [bind].
  destruct (rotate_y_ok tb _ _ d1 M W1 _ R1 HM) as (a1 & W3 & Ex & Hx & Wx); [apply (proj1 Hz)|]. rewrite Ex. cbn [bind].
  assert (X : coefs p (mom (mapv (turn PX) l)) W3).
  { eapply coefs_ext; [|exact Hx]. intros n m B. cbn beta. rewrite (mom_ry c (- s)) by (try apply Wx; try nra; lia). unfold mapv. rewrite (map_ext _ (fun s : R * vec => (fst s, turn PX (snd s)))); [reflexivity|]. intros y. unfold c, s. rewrite rot_x_view. reflexivity. }
  assert (Y : coefs p (mom (mapv (turn PY) l)) W2).
  { eapply coefs_ext; [|exact Hy]. intros n m B. cbn beta. rewrite (mom_ry c (- - s)) by (try apply Wy; try nra; lia). unfold mapv. rewrite map_map. cbn [fst snd]. rewrite (map_ext _ (fun s : R * vec => (fst s, turn PY (snd s)))); [reflexivity|]. intros y. unfold c, s. rewrite rot_y_view. reflexivity. }
  rewrite (axis_ok q p Q _ W3 X (reals_mom _ _)), (axis_ok q p Q _ W2 Y (reals_mom _ _)), (axis_ok q p Q _ M HM (reals_mom _ _)). cbn [bind].
  eexists. split; [reflexivity|]. split; [reflexivity|].
  intros d. assert (K : (1 * len q 0 = len q 0)%R) by ring.
  destruct d; cbn [view nth_error]; f_equal; apply wave_list_ext; intros k j _ _; f_equal; rewrite F_mom, ?fr_mapv; cbn [sgn]; rewrite ?Rmult_1_l; try replace (-1 * len q k)%R with (- len q k)%R by ring; reflexivity.
Qed.
End From.

(** ** from the charges of a box *)
Section Box.
Variable (q : quad) (tb : table) (corner : pt) (size : R).
Hypothesis Q : qok q.
Hypothesis HS : sound tb.
Hypothesis Hsize : (0 < size)%R.
Notation p := (tb_p tb).
Notation wt := (the_waves q p).

Lemma tov_units i x : tov (units (side size (ilevel i)) (middle corner size i) x) = rel corner size i x.
Proof. unfold tov, units, rel, vscale, point_sub. cbn [px py pz]. apply vec_eq; cbn [vx vy vz px py pz]; unfold Rdiv; apply Rmult_comm. Qed.
Lemma over_rels i l g (h : charge -> C) : (forall s, In s l -> h s = g (rel corner size i (cpos s))) -> over l h = fold_right (fun s v => RtoC (fst s) * g (snd s) + v) 0 (rels corner size i l).
Proof. induction l as [|s l IH]; intros H; [reflexivity|]. cbn [over rels map fold_right fst snd]. fold (over l h). fold (rels corner size i l). rewrite IH by (intros; apply H; right; assumption). rewrite H by (left; reflexivity). reflexivity. Qed.

Lemma box_waves i l M : upward tb corner size i l M -> exists views, M_to_I tb wt M = Ok views /\ length views = 6%nat /\
  forall d, exists E, nth_error views (view d) = Some E /\
    forall h, (forall k s, In s l -> wave p (frq q k) (len q k) (along d (units (side size (ilevel i)) (middle corner size i) (cpos s))) (h k s)) ->
      holds_waves q E (fun k j => RtoC (wgt q k / INR (cnt q k)) * over l (fun s => h k s (ang q k j))).
Proof.
  intros HU. destruct (up_inv corner size Hsize tb HS i l M HU) as [HM _]. destruct (M_to_I_ok q tb Q HS _ M HM) as (views & E & L & H). exists views. split; [exact E|]. split; [exact L|].
  intros d. eexists. split; [apply H|]. intros h Hh.
  match goal with |- holds_waves q (wave_list q ?a) ?b => rewrite (wave_list_ext q a b) end; [apply list_holds, (k_nexp q Q)|].
  intros k j _ _. f_equal. symmetry. apply (over_rels i l (fun v => lp (sgn d * len q k) (turn d v) p (frq q k) (ang q k j))). intros s I. rewrite (wave_is_lp d _ _ _ _ _ _ (Hh k s I)), tov_units. reflexivity.
Qed.
End Box.
