(** The numbers of the picture: edges of columns, heights of bars, shades. *)
From Coq Require Import ZArith Reals List Bool Lia Lra Psatz.
From Flocq Require Import Core BinarySingleNaN.
From Verif Require Import Base ListFacts TraceModel ReadModel DoubleModel DoubleSpec DoubleProofs PlotModel PlotSpec.
Import ListNotations.
Open Scope R_scope.

Notation u := (1 / 9007199254740992).
Lemma rnd_mono x y : x <= y -> rnd x <= rnd y.
Proof. intros H. unfold rnd. apply round_le; [typeclasses eauto..|exact H]. Qed.
Lemma rnd_0 : rnd 0 = 0.
Proof. unfold rnd. apply round_0. typeclasses eauto. Qed.
Lemma rnd_half : rnd (1 / 2) = 1 / 2.
Proof. destruct dhalf_ok as [_ E]. rewrite <- E. apply B2R_rnd. Qed.
Lemma rnd_int z : (Z.abs z < 2 ^ 53)%Z -> rnd (IZR z) = IZR z.
Proof. intros H. destruct (of_int_ok z H) as [_ E]. rewrite <- E. apply B2R_rnd. Qed.
Lemma eta_small : 0 < eta <= u * u.
Proof.
  split; [apply eta_pos|]. unfold eta. apply Rle_trans with (bpow radix2 (-106)); [apply bpow_le; lia|]. cbn. lra.
Qed.
Lemma big_1000 v : Rabs v <= IZR (2 ^ 60) -> Rabs v <= bpow radix2 1000.
Proof. intros H. eapply Rle_trans; [exact H|]. change (IZR (2 ^ 60)) with (bpow radix2 60). apply bpow_le. lia. Qed.
Lemma btrunc_floor (x : double) : 0 <= B2R x -> Btrunc x = Zfloor (B2R x).
Proof.
  intros H. apply eq_IZR. rewrite (Btrunc_correct 53 1024 emax1024 x). unfold round, scaled_mantissa, cexp, FIX_exp, F2R. cbn. rewrite !Rmult_1_r. f_equal. apply Ztrunc_floor, H.
Qed.
Lemma duint_ok (x : double) : is_finite x = true -> 0 <= B2R x < IZR (2 ^ 60) -> duint x = Ok (Zfloor (B2R x)) /\ (0 <= Zfloor (B2R x) < 2 ^ 60)%Z.
Proof.
  intros F [L H]. unfold duint. rewrite F. cbv zeta. rewrite (btrunc_floor x L). assert (A : (0 <= Zfloor (B2R x))%Z) by (apply Zfloor_lub; exact L). assert (B : (Zfloor (B2R x) < 2 ^ 60)%Z). { apply lt_IZR. pose proof (Zfloor_lb (B2R x)). lra. }
  rewrite (proj2 (Z.leb_le 0 _) A). rewrite (proj2 (Z.ltb_lt _ (2 ^ 64))) by lia. split; [reflexivity|lia].
Qed.

(** ** Edges of columns *)
Section Edges.
Variables ti tf n : Z.
Hypothesis Hn : (1 <= n < 2 ^ 31)%Z.
Hypothesis Ht : (0 <= ti)%Z /\ (0 <= tf - ti <= 2 ^ 49)%Z /\ (tf < 2 ^ 63)%Z.
Let T := (tf - ti)%Z.
Let dx := step_of ti tf n.
Let dr := rnd (IZR T / IZR n).
Let v (i : Z) : R := rnd (rnd (dr * IZR i) + 1 / 2).

Lemma T_r : 0 <= IZR T <= 562949953421312.
Proof. unfold T. destruct Ht as (_ & H & _). split; [apply (IZR_le 0); lia|apply (IZR_le _ (2 ^ 49)); lia]. Qed.
Lemma n_r : 1 <= IZR n <= 2147483648.
Proof. split; [apply (IZR_le 1); lia|apply (IZR_le _ (2 ^ 31)); lia]. Qed.
Lemma quot_r : 0 <= IZR T / IZR n <= IZR T.
Proof.
  pose proof T_r. pose proof n_r. assert (0 < IZR n) by lra. split; [apply Rmult_le_pos; [lra|left; apply Rinv_0_lt_compat; assumption]|]. apply (Rmult_le_reg_r (IZR n)); [assumption|]. unfold Rdiv. rewrite Rmult_assoc, Rinv_l, Rmult_1_r by lra. nra.
Qed.
Lemma dx_ok : is_finite dx = true /\ B2R dx = dr.
Proof.
  pose proof T_r as A. pose proof n_r. unfold dx, step_of. assert (E : uint64 (tf - ti) = T) by (unfold uint64, T; apply Z.mod_small; destruct Ht as (_ & H' & _); lia). rewrite E.
  destruct (of_int_ok T) as [F1 E1]; [unfold T; destruct Ht as (_ & H' & _); lia|]. destruct (of_int_ok n) as [F2 E2]; [lia|].
  destruct (ddiv_ok (of_int T) (of_int n)) as [F3 E3]; [exact F1|rewrite E2; lra| |]; [|rewrite E1, E2 in E3; split; assumption].
  rewrite E1, E2. apply big_1000. pose proof quot_r. rewrite Rabs_pos_eq by lra. eapply Rle_trans; [apply H0|]. eapply Rle_trans; [apply A|]. apply (IZR_le (2 ^ 49)). lia.
Qed.
Lemma dr_r : 0 <= dr /\ Rabs (dr - IZR T / IZR n) <= u * (IZR T / IZR n) + eta.
Proof.
  pose proof quot_r as Q. split; [unfold dr; rewrite <- rnd_0; apply rnd_mono; lra|]. pose proof (rnd_err (IZR T / IZR n)) as E. rewrite (Rabs_pos_eq (IZR T / IZR n)) in E by lra. exact E.
Qed.
Lemma v_err i : (0 <= i <= n)%Z -> 0 <= rnd (dr * IZR i) /\ Rabs (dr * IZR i - IZR T * IZR i / IZR n) <= 1 / 15 /\ Rabs (rnd (dr * IZR i) - IZR T * IZR i / IZR n) <= 2 / 15 /\ Rabs (v i - (IZR T * IZR i / IZR n + 1 / 2)) <= 1 / 5 /\ 0 <= dr * IZR i /\ 0 <= IZR T * IZR i / IZR n <= 562949953421312.
Proof.
  intros Hi. pose proof T_r as A. pose proof n_r as B. destruct dr_r as [D0 D1]. pose proof eta_small as E. pose proof quot_r as Q.
  assert (I : 0 <= IZR i <= IZR n) by (split; [apply (IZR_le 0); lia|apply IZR_le; lia]).
  assert (Ei : IZR T * IZR i / IZR n = (IZR T / IZR n) * IZR i) by (field; lra). rewrite Ei. set (q := IZR T / IZR n) in *. assert (Eq : q * IZR n = IZR T) by (unfold q; field; lra).
  assert (P : 0 <= q * IZR i <= IZR T) by (rewrite <- Eq; split; [apply Rmult_le_pos; lra|apply Rmult_le_compat_l; lra]).
  assert (S1 : Rabs (dr * IZR i - q * IZR i) <= 1 / 15).
  { replace (dr * IZR i - q * IZR i) with ((dr - q) * IZR i) by ring. rewrite Rabs_mult, (Rabs_pos_eq (IZR i)) by lra. eapply Rle_trans; [apply Rmult_le_compat_r; [lra|exact D1]|]. rewrite Rmult_plus_distr_r, Rmult_assoc. assert (eta * IZR i <= u * u * 2147483648) by (apply Rmult_le_compat; lra). lra. }
  assert (M0 : 0 <= dr * IZR i) by (apply Rmult_le_pos; lra).
  assert (S2 : Rabs (rnd (dr * IZR i) - dr * IZR i) <= 1 / 15). { eapply Rle_trans; [apply rnd_err|]. rewrite (Rabs_pos_eq (dr * IZR i)) by exact M0. apply Rabs_le_inv in S1. lra. }
  assert (M1 : 0 <= rnd (dr * IZR i)) by (rewrite <- rnd_0 at 1; apply rnd_mono, M0).
  assert (S3 : Rabs (v i - (rnd (dr * IZR i) + 1 / 2)) <= 1 / 15). { unfold v. eapply Rle_trans; [apply rnd_err|]. rewrite (Rabs_pos_eq (rnd (dr * IZR i) + 1 / 2)) by lra. apply Rabs_le_inv in S1, S2. lra. }
  clearbody q. apply Rabs_le_inv in S1, S2, S3. repeat split; try exact M1; try exact M0; try (apply Rabs_le); lra.
Qed.
Definition at_ (i : Z) : Z := (ti + Zfloor (v i))%Z.
Lemma v_r i : (0 <= i <= n)%Z -> 0 <= v i < 562949953421313.
Proof. intros Hi. destruct (v_err i Hi) as (_ & _ & _ & E & _ & B). apply Rabs_le_inv in E. lra. Qed.
Lemma floor_r i : (0 <= i <= n)%Z -> (0 <= Zfloor (v i) <= T)%Z.
Proof.
  intros Hi. destruct (v_err i Hi) as (_ & _ & _ & E & _ & B). apply Rabs_le_inv in E. split; [apply Zfloor_lub; lra|]. apply Zlt_succ_le. apply lt_IZR. unfold Z.succ. rewrite plus_IZR. pose proof (Zfloor_lb (v i)).
  assert (IZR T * IZR i / IZR n <= IZR T). { pose proof n_r. pose proof T_r. assert (IZR i <= IZR n) by (apply IZR_le; lia). apply (Rmult_le_reg_r (IZR n)); [lra|]. replace (IZR T * IZR i / IZR n * IZR n) with (IZR T * IZR i) by (field; lra). apply Rmult_le_compat_l; lra. } lra.
Qed.
Lemma edge_at i : (0 <= i <= n)%Z -> edge dx ti i = Ok (at_ i).
Proof.
  intros Hi. destruct dx_ok as [Fd Ed]. destruct (v_err i Hi) as (M1 & S1 & S2 & S3 & M0 & B). pose proof (v_r i Hi) as Vr. destruct (of_int_ok i) as [Fi Ei]; [lia|].
  apply Rabs_le_inv in S1, S2, S3. unfold edge. destruct (dmul_ok dx (of_int i) Fd Fi) as [Fm Em]. { rewrite Ed, Ei. apply big_1000. rewrite Rabs_pos_eq by exact M0. apply Rle_trans with 1125899906842624; [lra|]. apply (IZR_le (2 ^ 50)); lia. }
  rewrite Ed, Ei in Em. destruct dhalf_ok as [Fh Eh]. destruct (dadd_ok (dmul dx (of_int i)) dhalf Fm Fh) as [Fa Ea]. { rewrite Em, Eh. apply big_1000. rewrite Rabs_pos_eq by lra. apply Rle_trans with 1125899906842624; [lra|]. apply (IZR_le (2 ^ 50)); lia. }
  rewrite Em, Eh in Ea. fold (v i) in Ea. destruct (duint_ok _ Fa) as [Du _]. { rewrite Ea. split; [lra|]. apply Rlt_le_trans with 1125899906842624; [lra|]. apply (IZR_le (2 ^ 50)); lia. }
  rewrite Du. cbn [bind]. rewrite Ea. unfold at_, uint64. pose proof (floor_r i Hi). f_equal. rewrite Z.mod_small; [lia|]. unfold T in *. destruct Ht as (A1 & A2 & A3). change (2 ^ 64)%Z with (2 * 2 ^ 63)%Z. lia.
Qed.
Lemma shared : shared_out at_ ti tf n.
Proof.
  pose proof n_r as N. pose proof T_r as Tr. split; [|split; [|split]].
  - unfold at_. replace (Zfloor (v 0)) with 0%Z; [lia|]. symmetry. apply Zfloor_imp. unfold v. rewrite Rmult_0_r, rnd_0, Rplus_0_l, rnd_half. cbn. lra.
  - unfold at_. replace (Zfloor (v n)) with T; [unfold T; lia|]. symmetry. apply Zfloor_imp. destruct (v_err n ltac:(lia)) as (_ & _ & _ & E & _ & _). apply Rabs_le_inv in E. replace (IZR T * IZR n / IZR n) with (IZR T) in E by (field; lra). rewrite plus_IZR. lra.
  - intros i Hi. unfold at_. assert (Zfloor (v i) <= Zfloor (v (i + 1)))%Z; [|lia]. apply Zfloor_le. unfold v. apply rnd_mono. apply Rplus_le_compat_r. apply rnd_mono. apply Rmult_le_compat_l; [apply dr_r|]. apply IZR_le. lia.
  - intros i Hi. unfold at_. destruct (v_err i Hi) as (_ & _ & _ & E & _ & _). apply Rabs_le_inv in E. pose proof (Zfloor_lb (v i)) as L. pose proof (Zfloor_ub (v i)) as U. set (f := Zfloor (v i)) in *. clearbody f.
    replace (ti + f - ti)%Z with f by lia. fold T. apply le_IZR. rewrite abs_IZR, minus_IZR, !mult_IZR. apply Rabs_le. assert (Q : IZR T * IZR i / IZR n * IZR n = IZR T * IZR i) by (field; lra). set (q := IZR T * IZR i / IZR n) in *. clearbody q. split; nra.
Qed.
End Edges.

(** ** Shades *)
Lemma shade_ok c d : (0 <= c <= d)%Z -> (0 < d < 2 ^ 53)%Z -> let x := ddiv (of_int c) (of_int d) in
  is_finite (dsub (of_int 1) x) = true /\ Rabs (B2R (dsub (of_int 1) x) - (1 - IZR c / IZR d)) <= 1 / IZR (2 ^ 52).
Proof.
  intros Hc Hd. cbv zeta. destruct (of_int_ok c) as [Fc Ec]; [lia|]. destruct (of_int_ok d) as [Fd Ed]; [lia|]. destruct (of_int_ok 1) as [F1 E1]; [lia|].
  assert (D : 0 < IZR d) by (apply (IZR_lt 0); lia). assert (C : 0 <= IZR c <= IZR d) by (split; [apply (IZR_le 0)|apply IZR_le]; lia).
  assert (Q : 0 <= IZR c / IZR d <= 1). { split; [apply Rmult_le_pos; [lra|left; apply Rinv_0_lt_compat, D]|]. apply (Rmult_le_reg_r (IZR d)); [exact D|]. replace (IZR c / IZR d * IZR d) with (IZR c) by (field; lra). lra. }
  destruct (ddiv_ok (of_int c) (of_int d)) as [Fq Eq]; [exact Fc|rewrite Ed; lra|rewrite Ec, Ed; apply big_1000; rewrite Rabs_pos_eq by lra; apply Rle_trans with 1; [lra|apply (IZR_le 1); lia]|]. rewrite Ec, Ed in Eq.
  assert (R1 : 0 <= rnd (IZR c / IZR d) <= 1). { pose proof (rnd_mono (IZR c / IZR d) (IZR 1) (proj2 Q)) as U. pose proof (rnd_mono 0 (IZR c / IZR d) (proj1 Q)) as L. rewrite (rnd_int 1) in U by lia. rewrite rnd_0 in L. split; assumption. }
  destruct (dsub_ok (of_int 1) (ddiv (of_int c) (of_int d)) F1 Fq) as [Fs Es]. { rewrite E1, Eq. apply big_1000. rewrite Rabs_pos_eq by lra. apply Rle_trans with 1; [lra|apply (IZR_le 1); lia]. }
  rewrite E1, Eq in Es. split; [exact Fs|]. rewrite Es. set (q := IZR c / IZR d) in *. pose proof (rnd_err q) as A. rewrite (Rabs_pos_eq q) in A by lra. pose proof (rnd_err (1 - rnd q)) as B. rewrite (Rabs_pos_eq (1 - rnd q)) in B by lra. pose proof eta_small as Et.
  change (IZR (2 ^ 52)) with 4503599627370496. apply Rabs_le_inv in A, B. apply Rabs_le. clearbody q. lra.
Qed.
Lemma shade_none : is_finite (dsub (of_int 1) (of_int 0)) = true /\ B2R (dsub (of_int 1) (of_int 0)) = 1.
Proof.
  destruct (of_int_ok 1) as [F1 E1]; [lia|]. destruct (of_int_ok 0) as [F0 E0]; [lia|]. destruct (dsub_ok (of_int 1) (of_int 0) F1 F0) as [F E]. { rewrite E1, E0. apply big_1000. rewrite Rabs_pos_eq by lra. apply Rle_trans with 1; [lra|apply (IZR_le 1); lia]. }
  split; [exact F|]. rewrite E, E1, E0. replace (1 - 0) with (IZR 1) by (cbn; lra). apply rnd_int. lia.
Qed.
