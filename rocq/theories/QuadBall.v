(** Numbers with a known error, for checking the quadrature of the tables: fixed-point
    arithmetic with 28 binary digits. *)
From Coq Require Import Reals ZArith List Lia Lra Psatz.
From Coquelicot Require Import Coquelicot.
Import ListNotations.
Open Scope R_scope.

Definition SC : Z := 268435456.
Lemma SC_pow : SC = (2 ^ 28)%Z. Proof. reflexivity. Qed.
Lemma SCR : 0 < IZR SC. Proof. unfold SC. lra. Qed.
Record ball := Ball { mid : Z; rad : Z }.
Definition within (b : ball) (x : R) : Prop := Rabs (x * IZR SC - IZR (mid b)) <= IZR (rad b).

Lemma within_pos b x : within b x -> (0 <= rad b)%Z.
Proof. intros H. apply le_IZR. eapply Rle_trans; [apply Rabs_pos|exact H]. Qed.
Lemma within_int b x : within b x <-> IZR (mid b) - IZR (rad b) <= x * IZR SC <= IZR (mid b) + IZR (rad b).
Proof. unfold within. split; [intros H; apply Rabs_le_between in H; lra|intros H; apply Rabs_le_between; lra]. Qed.

Definition badd (a b : ball) : ball := Ball (mid a + mid b) (rad a + rad b).
Definition bneg (a : ball) : ball := Ball (- mid a) (rad a).
Definition bmul (a b : ball) : ball :=
  Ball (Z.shiftr (mid a * mid b) 28) (Z.shiftr (Z.abs (mid a) * rad b + Z.abs (mid b) * rad a + rad a * rad b) 28 + 2).
Definition bscale (n : Z) (a : ball) : ball := Ball (n * mid a) (Z.abs n * rad a).
Definition bdiv (a : ball) (n : Z) : ball := Ball (mid a / n) (rad a / n + 2).
Definition bofZ (n : Z) : ball := Ball (n * SC) 0.
Definition bfrac (n d : Z) : ball := bdiv (bofZ n) d.
Definition bmag (a : ball) : Z := (Z.abs (mid a) + rad a)%Z.
(** add an error *)
Definition bwide (a : ball) (e : Z) : ball := Ball (mid a) (rad a + e).

Lemma badd_ok a b x y : within a x -> within b y -> within (badd a b) (x + y).
Proof. rewrite !within_int. cbn [badd mid rad]. rewrite !plus_IZR. lra. Qed.
Lemma bneg_ok a x : within a x -> within (bneg a) (- x).
Proof. rewrite !within_int. cbn [bneg mid rad]. rewrite opp_IZR. lra. Qed.
Lemma bofZ_ok n : within (bofZ n) (IZR n).
Proof. apply within_int. cbn [bofZ mid rad]. rewrite mult_IZR. lra. Qed.
Lemma bscale_ok n a x : within a x -> within (bscale n a) (IZR n * x).
Proof.
  unfold within. cbn [bscale mid rad]. intros H. rewrite !mult_IZR, abs_IZR. replace (IZR n * x * IZR SC - IZR n * IZR (mid a)) with (IZR n * (x * IZR SC - IZR (mid a))) by ring.
  rewrite Rabs_mult. apply Rmult_le_compat_l; [apply Rabs_pos|exact H].
Qed.
Lemma div_bounds a n : (0 < n)%Z -> IZR a / IZR n - 1 <= IZR (a / n) <= IZR a / IZR n.
Proof.
  intros H. assert (P : 0 < IZR n) by (apply IZR_lt; exact H). pose proof (Z.div_mod a n ltac:(lia)) as D. pose proof (Z.mod_pos_bound a n H) as M.
  apply (f_equal IZR) in D. rewrite plus_IZR, mult_IZR in D. assert (0 <= IZR (a mod n)) by (apply IZR_le; lia). assert (IZR (a mod n) < IZR n) by (apply IZR_lt; lia).
  replace (IZR a / IZR n) with (IZR (a / n) + IZR (a mod n) / IZR n) by (rewrite D; field; lra).
  assert (0 <= IZR (a mod n) / IZR n) by (apply Rdiv_le_0_compat; lra). assert (IZR (a mod n) / IZR n < 1) by (apply (Rmult_lt_reg_r (IZR n)); [exact P|]; unfold Rdiv; rewrite Rmult_assoc, Rinv_l by lra; lra). lra.
Qed.
Lemma bdiv_ok a n x : (0 < n)%Z -> within a x -> within (bdiv a n) (x / IZR n).
Proof.
  intros H W. assert (P : 0 < IZR n) by (apply IZR_lt; exact H). apply within_int in W. apply within_int. cbn [bdiv mid rad]. rewrite plus_IZR.
  pose proof (div_bounds (mid a) n H) as A. pose proof (div_bounds (rad a) n H) as B. destruct W as [W1 W2].
  assert (I : 0 < / IZR n) by (apply Rinv_0_lt_compat; exact P). unfold Rdiv in *. split; nra.
Qed.
Lemma bfrac_ok n d : (0 < d)%Z -> within (bfrac n d) (IZR n / IZR d).
Proof. intros H. apply bdiv_ok; [exact H|apply bofZ_ok]. Qed.
Lemma bwide_ok a e x y : within a x -> Rabs (y - x) * IZR SC <= IZR e -> within (bwide a e) y.
Proof.
  unfold within. cbn [bwide mid rad]. intros W H. rewrite plus_IZR. replace (y * IZR SC - IZR (mid a)) with ((x * IZR SC - IZR (mid a)) + (y - x) * IZR SC) by ring.
  eapply Rle_trans; [apply Rabs_triang|]. rewrite (Rabs_mult (y - x)), (Rabs_right (IZR SC)) by (pose proof SCR; lra). lra.
Qed.
Lemma bmul_ok a b x y : within a x -> within b y -> within (bmul a b) (x * y).
Proof.
  intros Wa Wb. unfold within in *. cbn [bmul mid rad]. rewrite !Z.shiftr_div_pow2 by lia. change (2 ^ 28)%Z with SC.
  pose proof (div_bounds (mid a * mid b) SC ltac:(reflexivity)) as A. set (E := (Z.abs (mid a) * rad b + Z.abs (mid b) * rad a + rad a * rad b)%Z) in *. pose proof (div_bounds E SC ltac:(reflexivity)) as B.
  rewrite plus_IZR. pose proof SCR as PS. set (X := x * IZR SC) in *. set (Y := y * IZR SC) in *.
  assert (D : Rabs (X * Y - IZR (mid a) * IZR (mid b)) <= IZR E).
  { unfold E. rewrite !plus_IZR, !mult_IZR, !abs_IZR. replace (X * Y - IZR (mid a) * IZR (mid b)) with (IZR (mid a) * (Y - IZR (mid b)) + IZR (mid b) * (X - IZR (mid a)) + (X - IZR (mid a)) * (Y - IZR (mid b))) by ring.
    eapply Rle_trans; [apply Rabs_triang|]. eapply Rle_trans; [apply Rplus_le_compat_r, Rabs_triang|]. rewrite !Rabs_mult.
    pose proof (Rabs_pos (X - IZR (mid a))). pose proof (Rabs_pos (Y - IZR (mid b))). pose proof (Rabs_pos (IZR (mid a))). pose proof (Rabs_pos (IZR (mid b))).
    apply Rplus_le_compat; [apply Rplus_le_compat; apply Rmult_le_compat_l; assumption|]. apply Rmult_le_compat; assumption. }
  replace (x * y * IZR SC) with (X * Y / IZR SC) by (unfold X, Y; field; lra). rewrite mult_IZR in A.
  assert (D' : Rabs (X * Y / IZR SC - IZR (mid a) * IZR (mid b) / IZR SC) <= IZR E / IZR SC).
  { replace (X * Y / IZR SC - IZR (mid a) * IZR (mid b) / IZR SC) with ((X * Y - IZR (mid a) * IZR (mid b)) * / IZR SC) by (field; lra). rewrite Rabs_mult, (Rabs_right (/ IZR SC)) by (apply Rle_ge; left; apply Rinv_0_lt_compat; exact PS).
    unfold Rdiv. apply Rmult_le_compat_r; [left; apply Rinv_0_lt_compat; exact PS|exact D]. }
  apply Rabs_le_between in D'. apply Rabs_le_between. lra.
Qed.
Lemma bmag_ok a x : within a x -> Rabs x * IZR SC <= IZR (bmag a).
Proof.
  intros W. unfold bmag, within in *. rewrite plus_IZR, abs_IZR. pose proof SCR. rewrite <- (Rabs_right (IZR SC)) at 1 by lra. rewrite <- Rabs_mult.
  replace (x * IZR SC) with ((x * IZR SC - IZR (mid a)) + IZR (mid a)) at 1 by ring. eapply Rle_trans; [apply Rabs_triang|]. lra.
Qed.
Global Opaque badd bneg bmul bscale bdiv bofZ bwide.

(** ** Polynomials *)
Definition bhorner (l : list ball) (y : ball) : ball := fold_right (fun c acc => badd c (bmul acc y)) (bofZ 0) l.
Definition horner (l : list R) (y : R) : R := fold_right (fun c acc => c + acc * y) 0 l.
Lemma bhorner_ok bl l b y : List.Forall2 within bl l -> within b y -> within (bhorner bl b) (horner l y).
Proof. intros H W. induction H as [|c bc l' bl' H1 H2 IH]; [apply bofZ_ok|]. cbn [bhorner horner fold_right]. apply badd_ok; [exact H1|]. apply bmul_ok; [exact IH|exact W]. Qed.

(** ** Functions with a non-positive derivative *)
Lemma decr (G G1 : R -> R) (u : R) : (forall s, 0 <= s <= u -> is_derive G s (G1 s)) -> (forall s, 0 <= s <= u -> G1 s <= 0) -> G 0 <= 0 -> forall s, 0 <= s <= u -> G s <= 0.
Proof.
  intros D N Z s Hs. destruct (MVT_gen G 0 s G1) as (c & Hc & E).
  - intros x Hx. rewrite Rmin_left, Rmax_right in Hx by lra. apply D. lra.
  - intros x Hx. rewrite Rmin_left, Rmax_right in Hx by lra. apply derivable_continuous_pt. exists (G1 x). apply is_derive_Reals, D. lra.
  - rewrite Rmin_left, Rmax_right in Hc by lra. pose proof (N c ltac:(lra)). nra.
Qed.
(** The second Taylor polynomial, one side *)
Lemma taylor2_up (f f1 f2 f3 : R -> R) a K u : (forall s, 0 <= s <= u -> is_derive f (a + s) (f1 (a + s)) /\ is_derive f1 (a + s) (f2 (a + s)) /\ is_derive f2 (a + s) (f3 (a + s)) /\ f3 (a + s) <= K) -> 0 <= u ->
  f (a + u) - (f a + f1 a * u + f2 a / 2 * u ^ 2) <= K / 6 * u ^ 3.
Proof.
  intros H Hu.
  assert (B2 : forall s, 0 <= s <= u -> f2 (a + s) - f2 a - K * s <= 0).
  { apply (decr _ (fun s => f3 (a + s) - K)).
    - intros s Hs. destruct (H s Hs) as (_ & _ & D & _). auto_derive; [exists (f3 (a + s)); exact D|]. replace (Derive (fun x : R => f2 x) (a + s)) with (f3 (a + s)) by (symmetry; apply is_derive_unique; exact D). ring.
    - intros s Hs. destruct (H s Hs) as (_ & _ & _ & L). lra.
    - rewrite Rplus_0_r. lra. }
  assert (B1 : forall s, 0 <= s <= u -> f1 (a + s) - f1 a - f2 a * s - K / 2 * s ^ 2 <= 0).
  { apply (decr _ (fun s => f2 (a + s) - f2 a - K * s)).
    - intros s Hs. destruct (H s Hs) as (_ & D & _ & _). auto_derive; [exists (f2 (a + s)); exact D|]. replace (Derive (fun x : R => f1 x) (a + s)) with (f2 (a + s)) by (symmetry; apply is_derive_unique; exact D). field.
    - exact B2.
    - rewrite Rplus_0_r. lra. }
  assert (B0 : forall s, 0 <= s <= u -> f (a + s) - f a - f1 a * s - f2 a / 2 * s ^ 2 - K / 6 * s ^ 3 <= 0).
  { apply (decr _ (fun s => f1 (a + s) - f1 a - f2 a * s - K / 2 * s ^ 2)).
    - intros s Hs. destruct (H s Hs) as (D & _ & _ & _). auto_derive; [exists (f1 (a + s)); exact D|]. replace (Derive (fun x : R => f x) (a + s)) with (f1 (a + s)) by (symmetry; apply is_derive_unique; exact D). field.
    - exact B1.
    - rewrite Rplus_0_r. lra. }
  specialize (B0 u ltac:(lra)). lra.
Qed.
Lemma taylor2 (f f1 f2 f3 : R -> R) a K u : (forall s, Rabs s <= Rabs u -> is_derive f (a + s) (f1 (a + s)) /\ is_derive f1 (a + s) (f2 (a + s)) /\ is_derive f2 (a + s) (f3 (a + s)) /\ Rabs (f3 (a + s)) <= K) ->
  Rabs (f (a + u) - (f a + f1 a * u + f2 a / 2 * u ^ 2)) <= K / 6 * Rabs u ^ 3.
Proof.
  assert (POS : forall (f f1 f2 f3 : R -> R) a u, 0 <= u -> (forall s, 0 <= s <= u -> is_derive f (a + s) (f1 (a + s)) /\ is_derive f1 (a + s) (f2 (a + s)) /\ is_derive f2 (a + s) (f3 (a + s)) /\ Rabs (f3 (a + s)) <= K) ->
    Rabs (f (a + u) - (f a + f1 a * u + f2 a / 2 * u ^ 2)) <= K / 6 * u ^ 3).
  { clear. intros f f1 f2 f3 a u Hu H. apply Rabs_le_between. split.
    - pose proof (taylor2_up (fun t => - f t) (fun t => - f1 t) (fun t => - f2 t) (fun t => - f3 t) a K u) as L. cbn beta in L. enough (- f (a + u) - (- f a + - f1 a * u + - f2 a / 2 * u ^ 2) <= K / 6 * u ^ 3) by lra. apply L; [|exact Hu].
      intros s Hs. destruct (H s Hs) as (D1 & D2 & D3 & B). split; [apply (is_derive_opp f), D1|]. split; [apply (is_derive_opp f1), D2|]. split; [apply (is_derive_opp f2), D3|]. apply Rabs_le_between in B. lra.
    - apply (taylor2_up f f1 f2 f3 a K u); [|exact Hu]. intros s Hs. destruct (H s Hs) as (D1 & D2 & D3 & B). split; [exact D1|]. split; [exact D2|]. split; [exact D3|]. apply Rabs_le_between in B. lra. }
  intros H. destruct (Rle_dec 0 u) as [P|P].
  - rewrite (Rabs_right u) by lra. apply (POS f f1 f2 f3); [exact P|]. intros s Hs. apply H. rewrite !Rabs_right by lra. lra.
  - assert (Q : u < 0) by lra. rewrite (Rabs_left u) by exact Q.
    assert (OP : forall (g g1 : R -> R) t, is_derive g (- t) (g1 (- t)) -> is_derive (fun t => g (- t)) t (- g1 (- t))).
    { intros g g1 t D. evar_last; [apply (is_derive_comp g (fun t => - t)); [exact D|]|].
      - apply (is_derive_opp (fun t : R => t) t 1). apply (is_derive_id (K := R_AbsRing)).
      - unfold scal; cbn. unfold mult; cbn. ring. }
    pose proof (POS (fun t => f (- t)) (fun t => - f1 (- t)) (fun t => f2 (- t)) (fun t => - f3 (- t)) (- a) (- u) ltac:(lra)) as L. cbv beta in L.
    replace (- (- a + - u)) with (a + u) in L by ring. replace (- - a) with a in L by ring. replace (- f1 a * - u) with (f1 a * u) in L by ring. replace ((- u) ^ 2) with (u ^ 2) in L by ring. apply L. clear L.
    intros s Hs. destruct (H (- s)) as (D1 & D2 & D3 & B); [rewrite Rabs_Ropp, Rabs_right, Rabs_left by lra; lra|]. replace (a + - s) with (- (- a + s)) in * by ring.
    split; [apply (OP f f1), D1|]. split; [|split].
    + evar_last; [apply (is_derive_opp (fun t => f1 (- t))), (OP f1 f2), D2|]. unfold opp; cbn. ring.
    + apply (OP f2 f3), D3.
    + rewrite Rabs_Ropp. exact B.
Qed.
Lemma taylor2_cos a u : Rabs (cos (a + u) - (cos a - sin a * u - cos a / 2 * u ^ 2)) <= Rabs u ^ 3 / 6.
Proof.
  pose proof (taylor2 cos (fun t => - sin t) (fun t => - cos t) sin a 1 u) as L. replace (cos a - sin a * u - cos a / 2 * u ^ 2) with (cos a + - sin a * u + - cos a / 2 * u ^ 2) by field.
  eapply Rle_trans; [apply L|lra]. intros s _. split; [apply is_derive_cos|]. split; [apply (is_derive_opp sin), is_derive_sin|]. split.
  - evar_last; [apply (is_derive_opp cos), is_derive_cos|]. unfold opp; cbn. ring.
  - apply Rabs_le_between. pose proof (SIN_bound (a + s)). lra.
Qed.
Lemma taylor2_exp u : Rabs (exp u - (1 + u + u ^ 2 / 2)) <= Rabs u ^ 3 / 6 * exp (Rabs u).
Proof.
  pose proof (taylor2 exp exp exp exp 0 (exp (Rabs u)) u) as L. rewrite Rplus_0_l, exp_0 in L. replace (1 + u + u ^ 2 / 2) with (1 + 1 * u + 1 / 2 * u ^ 2) by field.
  eapply Rle_trans; [apply L|right; field]. intros s Hs. rewrite Rplus_0_l. split; [apply is_derive_exp|]. split; [apply is_derive_exp|]. split; [apply is_derive_exp|].
  rewrite Rabs_right by (apply Rle_ge; left; apply exp_pos). destruct (Rle_lt_or_eq_dec s (Rabs u)) as [E|E]; [apply Rabs_le_between in Hs; lra|left; apply exp_increasing, E|rewrite E; right; reflexivity].
Qed.

(** ** exp (- x) *)
Fixpoint en (n : nat) (x : R) : R := match n with O => 1 | S k => en k x + (- x) ^ S k / INR (fact (S k)) end.
Lemma d_pow (g : R -> R) l k c x : is_derive g x l -> is_derive (fun x => g x ^ S k / c) x (INR (S k) * l * g x ^ k / c).
Proof.
  intros D. apply (is_derive_ext (fun x => / c * g x ^ S k)); [intros t; apply Rmult_comm|]. evar_last; [apply is_derive_scal, is_derive_pow, D|]. cbn [Init.Nat.pred]. unfold Rdiv. ring.
Qed.
Lemma d_opp (x : R) : is_derive (fun x : R => - x) x (- 1).
Proof. apply (is_derive_opp (fun t : R => t) x 1). apply (is_derive_id (K := R_AbsRing)). Qed.
Lemma fact_step k : INR (fact (S k)) = INR (S k) * INR (fact k).
Proof. rewrite <- mult_INR. reflexivity. Qed.
Lemma en_derive n x : is_derive (en (S n)) x (- en n x).
Proof.
  induction n as [|n IH].
  - cbn [en fact Nat.mul Nat.add INR pow]. auto_derive; [exact I|]. field.
  - change (en (S (S n))) with (fun x => en (S n) x + (- x) ^ S (S n) / INR (fact (S (S n)))). evar_last; [apply (is_derive_plus (en (S n)) (fun x => (- x) ^ S (S n) / INR (fact (S (S n))))); [exact IH|]|].
    + apply (d_pow (fun x => - x) (- 1)), d_opp.
    + unfold plus; cbn [AbelianGroup.plus R_AbelianGroup en]. rewrite (fact_step (S n)). pose proof (INR_fact_neq_0 (S n)) as F. assert (N : INR (S (S n)) <> 0) by (apply not_0_INR; lia). match goal with |- ?l = ?r => change (@eq R (- en n x + (INR (S (S n)) * - (1) * (- x) ^ S n / (INR (S (S n)) * INR (fact (S n))))) r) end. cbn [en]. field. split; assumption.
Qed.
Lemma en_0 n : en n 0 = 1.
Proof. induction n as [|n IH]; [reflexivity|]. cbn [en]. rewrite IH, Ropp_0, pow_i by lia. unfold Rdiv. ring. Qed.
Lemma en_bound n x : 0 <= x -> Rabs (exp (- x) - en n x) <= x ^ S n / INR (fact (S n)).
Proof.
  revert x. induction n as [|n IH]; intros x Hx.
  - cbn [en pow fact Nat.mul Nat.add INR]. assert (exp (- x) <= 1) by (rewrite <- exp_0; destruct (Rle_lt_or_eq_dec 0 x Hx) as [E|E]; [left; apply exp_increasing; lra|rewrite <- E, Ropp_0; right; reflexivity]).
    pose proof (exp_ineq1_le (- x)). apply Rabs_le_between. lra.
  - set (k := S n). assert (F : 0 < INR (fact k)) by apply INR_fact_lt_0. assert (E : INR (fact (S k)) = INR (S k) * INR (fact k)) by (rewrite <- mult_INR; reflexivity). assert (N : 0 < INR (S k)) by (apply lt_0_INR; lia).
    assert (DP : forall s, is_derive (fun s => s ^ S k / INR (fact (S k))) s (s ^ k / INR (fact k))).
    { intros s. evar_last; [apply (d_pow (fun s => s) 1), (is_derive_id (K := R_AbsRing))|]. rewrite E. field. lra. }
    assert (DE : forall s, is_derive (fun s => exp (- s) - en k s) s (- (exp (- s) - en n s))).
    { intros s. evar_last; [apply (is_derive_minus (fun s => exp (- s)) (en k) s (- exp (- s)) (- en n s)); [|apply en_derive]|unfold minus, plus, opp; cbn; ring]. auto_derive; [exact I|ring]. }
    apply Rabs_le_between. split.
    + enough (- (exp (- x) - en k x) - x ^ S k / INR (fact (S k)) <= 0) by lra. apply (decr (fun s => - (exp (- s) - en k s) - s ^ S k / INR (fact (S k))) (fun s => (exp (- s) - en n s) - s ^ k / INR (fact k)) x); [| | |lra].
      * intros s _. evar_last; [apply (is_derive_minus (fun s => - (exp (- s) - en k s)) (fun s => s ^ S k / INR (fact (S k)))); [apply (is_derive_opp (fun s => exp (- s) - en k s)), DE|apply DP]|]. unfold minus, plus, opp; cbn. ring.
      * intros s Hs. pose proof (IH s ltac:(lra)) as B. fold k in B. apply Rabs_le_between in B. lra.
      * rewrite en_0, Ropp_0, exp_0, pow_i by lia. unfold Rdiv. lra.
    + enough ((exp (- x) - en k x) - x ^ S k / INR (fact (S k)) <= 0) by lra. apply (decr (fun s => (exp (- s) - en k s) - s ^ S k / INR (fact (S k))) (fun s => - (exp (- s) - en n s) - s ^ k / INR (fact k)) x); [| | |lra].
      * intros s _. evar_last; [apply (is_derive_minus (fun s => exp (- s) - en k s) (fun s => s ^ S k / INR (fact (S k)))); [apply DE|apply DP]|]. unfold minus, plus, opp; cbn. ring.
      * intros s Hs. pose proof (IH s ltac:(lra)) as B. fold k in B. apply Rabs_le_between in B. lra.
      * rewrite en_0, Ropp_0, exp_0, pow_i by lia. unfold Rdiv. lra.
Qed.
