(** Proofs about the centre-of-mass expansion. *)
From Coq Require Import Reals List Permutation Lra.
From Verif Require Import Base ComModel ComSpec.
Import ListNotations.
Open Scope R_scope.

(** ** Moments *)
Lemma moment_nil f : moment f [] = 0. Proof. reflexivity. Qed.
Lemma moment_cons f s l : moment f (s :: l) = charge s * f s + moment f l. Proof. reflexivity. Qed.
Lemma moment_app f a b : moment f (a ++ b) = moment f a + moment f b.
Proof. induction a as [|s a IH]; cbn [app]; rewrite ?moment_nil, ?moment_cons, ?IH; ring. Qed.
Lemma moment_perm f a b : Permutation a b -> moment f a = moment f b.
Proof. induction 1; rewrite ?moment_nil, ?moment_cons; try lra. Qed.
Lemma moment_ext f g l : (forall s, f s = g s) -> moment f l = moment g l.
Proof. intros H. induction l as [|s l IH]; [reflexivity|]. rewrite !moment_cons, H, IH. reflexivity. Qed.
Lemma moment_add f g l : moment (fun s => f s + g s) l = moment f l + moment g l.
Proof. induction l as [|s l IH]; rewrite ?moment_nil, ?moment_cons, ?IH; ring. Qed.
Lemma moment_scal c f l : moment (fun s => c * f s) l = c * moment f l.
Proof. induction l as [|s l IH]; rewrite ?moment_nil, ?moment_cons, ?IH; ring. Qed.
Lemma moment_const c l : moment (fun _ => c) l = c * total l.
Proof. unfold total. rewrite <- moment_scal. apply moment_ext. intros; lra. Qed.

Lemma moment_fold (f : source -> R) l a : fold_left (fun a s => a + charge s * f s) l a = a + moment f l.
Proof. revert a. induction l as [|s l IH]; intros a; cbn [fold_left]; rewrite ?moment_nil, ?moment_cons, ?IH; ring. Qed.

(** The product of deviations about any point. *)
Lemma moment_prod (f g : source -> R) u v l :
  moment (fun s => (f s - u) * (g s - v)) l =
  moment (fun s => f s * g s) l - v * moment f l - u * moment g l + u * v * total l.
Proof.
  rewrite (moment_ext _ (fun s => f s * g s + ((- v) * f s + ((- u) * g s + u * v)))) by (intros; ring).
  rewrite moment_add, moment_add, moment_add, !moment_scal, moment_const. ring.
Qed.
Definition second (ci cj : source -> R) l := moment (fun s => dev ci l s * dev cj l s) l.
Lemma second_raw ci cj l : total l <> 0 ->
  second ci cj l = moment (fun s => ci s * cj s) l - moment ci l * moment cj l / total l.
Proof. intros H. unfold second, dev. rewrite moment_prod. unfold centre. field. exact H. Qed.
Lemma quad_second ci cj l : quad ci cj l = 3 * second ci cj l.
Proof. unfold quad, second. rewrite <- moment_scal. apply moment_ext. intros; ring. Qed.
Lemma diag_second c l : quad_diag c l = 3 * second c c l - (second sx sx l + second sy sy l + second sz sz l).
Proof.
  unfold quad_diag, dist2, second.
  rewrite (moment_ext _ (fun s => 3 * (dev c l s * dev c l s) + (-1) * ((dev sx l s * dev sx l s + dev sy l s * dev sy l s) + dev sz l s * dev sz l s))) by (intros; ring).
  rewrite moment_add, moment_scal, moment_scal, moment_add, moment_add. ring.
Qed.

(** ** S_to_M computes the moments *)
Lemma mtot_total l : calc_mtot l = total l.
Proof.
  unfold calc_mtot. rewrite <- (Rplus_0_l (total l)). unfold total. rewrite <- moment_fold.
  generalize 0. induction l as [|s l IH]; intros a; cbn [fold_left]; [reflexivity|]. rewrite IH. f_equal. lra.
Qed.
Lemma Q_moment x y z l :
  calc_Q x y z l =
  (moment (fun s => 3 * (sx s - x) * (sx s - x) - ((sx s - x) * (sx s - x) + (sy s - y) * (sy s - y) + (sz s - z) * (sz s - z))) l,
   moment (fun s => 3 * (sx s - x) * (sy s - y)) l, moment (fun s => 3 * (sx s - x) * (sz s - z)) l,
   moment (fun s => 3 * (sy s - y) * (sy s - y) - ((sx s - x) * (sx s - x) + (sy s - y) * (sy s - y) + (sz s - z) * (sz s - z))) l,
   moment (fun s => 3 * (sy s - y) * (sz s - z)) l,
   moment (fun s => 3 * (sz s - z) * (sz s - z) - ((sx s - x) * (sx s - x) + (sy s - y) * (sy s - y) + (sz s - z) * (sz s - z))) l).
Proof.
  unfold calc_Q.
  assert (G : forall l a b c d e f, fold_left (fun '(a, b, c, d, e, f) s =>
    let dx := sx s - x in let dy := sy s - y in let dz := sz s - z in
    let mag := dx * dx + dy * dy + dz * dz in
    (a + charge s * (3 * dx * dx - mag), b + charge s * 3 * dx * dy, c + charge s * 3 * dx * dz,
     d + charge s * (3 * dy * dy - mag), e + charge s * 3 * dy * dz, f + charge s * (3 * dz * dz - mag))) l (a, b, c, d, e, f) =
   (a + moment (fun s => 3 * (sx s - x) * (sx s - x) - ((sx s - x) * (sx s - x) + (sy s - y) * (sy s - y) + (sz s - z) * (sz s - z))) l,
    b + moment (fun s => 3 * (sx s - x) * (sy s - y)) l, c + moment (fun s => 3 * (sx s - x) * (sz s - z)) l,
    d + moment (fun s => 3 * (sy s - y) * (sy s - y) - ((sx s - x) * (sx s - x) + (sy s - y) * (sy s - y) + (sz s - z) * (sz s - z))) l,
    e + moment (fun s => 3 * (sy s - y) * (sz s - z)) l,
    f + moment (fun s => 3 * (sz s - z) * (sz s - z) - ((sx s - x) * (sx s - x) + (sy s - y) * (sy s - y) + (sz s - z) * (sz s - z))) l)).
  { clear l. induction l as [|s l IH]; intros.
    - cbn [fold_left]. rewrite !moment_nil. repeat (apply (f_equal2 (@pair _ _)); [|ring]); ring.
    - cbn [fold_left]. cbv zeta. rewrite IH, !moment_cons. repeat (apply (f_equal2 (@pair _ _)); [|ring]); ring. }
  rewrite G. repeat (apply (f_equal2 (@pair _ _)); [|ring]); ring.
Qed.

Lemma S_to_M_spec l : total l <> 0 -> expansion_of l (S_to_M l).
Proof.
  intros H. unfold S_to_M. rewrite mtot_total. unfold calc_xcom.
  destruct (Req_EM_T (total l) 0) as [E|_]; [contradiction|].
  rewrite !moment_fold, Q_moment.
  assert (C : forall c, (0 + moment c l) * (1 / total l) = centre c l) by (intros; unfold centre; field; exact H).
  rewrite !C. unfold expansion_of; cbn. repeat split; reflexivity.
Qed.
Lemma S_to_M_nil : S_to_M [] = com_zero.
Proof.
  unfold S_to_M, calc_mtot, calc_xcom, calc_Q; cbn [fold_left].
  destruct (Req_EM_T 0 0) as [_|N]; [reflexivity|exfalso; apply N; reflexivity].
Qed.
Lemma expansion_nil : expansion_of [] com_zero.
Proof. unfold expansion_of, com_zero, total, centre, quad, quad_diag, moment; cbn. unfold Rdiv. repeat split; lra. Qed.

Lemma expansion_eq l t u : expansion_of l t -> expansion_of l u -> t = u.
Proof.
  destruct t, u. unfold expansion_of; cbn. intros (?&?&?&?&?&?&?&?&?&?) (?&?&?&?&?&?&?&?&?&?). subst. reflexivity.
Qed.

(** ** Combination *)
(** An expansion with total zero contributes nothing when its sources are none. *)
Definition sound (l : list source) := l = [] \/ total l <> 0.
Lemma centre_mass c l : sound l -> total l * centre c l = moment c l.
Proof. intros [->|H]; unfold centre; [cbn; unfold Rdiv; lra|]. field. exact H. Qed.
Lemma total_app a b : total (a ++ b) = total a + total b.
Proof. apply moment_app. Qed.

Lemma second_app ci cj a b : sound a -> sound b -> total (a ++ b) <> 0 ->
  second ci cj (a ++ b) =
  total a * ((centre ci a - centre ci (a ++ b)) * (centre cj a - centre cj (a ++ b))) + second ci cj a +
  (total b * ((centre ci b - centre ci (a ++ b)) * (centre cj b - centre cj (a ++ b))) + second ci cj b).
Proof.
  intros Ha Hb Hab.
  assert (K : forall l u v, sound l -> moment (fun s => (ci s - u) * (cj s - v)) l = total l * ((centre ci l - u) * (centre cj l - v)) + second ci cj l).
  { intros l u v Hl. unfold second, dev. rewrite !moment_prod. pose proof (centre_mass ci l Hl) as E. pose proof (centre_mass cj l Hl) as F.
    rewrite <- E, <- F. ring. }
  unfold second at 1, dev. rewrite moment_app, !K by assumption. reflexivity.
Qed.

Theorem add_spec a b t u : sound a -> sound b -> total (a ++ b) <> 0 -> expansion_of a t -> expansion_of b u ->
  exists v, add_expansion t u = Ok v /\ expansion_of (a ++ b) v.
Proof.
  intros Ha Hb Hab Et Eu.
  destruct t as [m1 x1 y1 z1 a1 b1 c1 d1 e1 f1], u as [m2 x2 y2 z2 a2 b2 c2 d2 e2 f2].
  destruct Et as (E1&E2&E3&E4&E5&E6&E7&E8&E9&E10), Eu as (F1&F2&F3&F4&F5&F6&F7&F8&F9&F10).
  cbn [mtot cx cy cz qxx qxy qxz qyy qyz qzz] in *. subst.
  unfold add_expansion. cbn [mtot cx cy cz qxx qxy qxz qyy qyz qzz].
  rewrite <- total_app. destruct (Req_EM_T (total (a ++ b)) 0) as [N|_]; [contradiction|].
  eexists; split; [reflexivity|].
  assert (C : forall c, (total a * centre c a + total b * centre c b) / total (a ++ b) = centre c (a ++ b)).
  { intros c. rewrite !centre_mass by assumption. unfold centre. rewrite moment_app. reflexivity. }
  unfold expansion_of; cbn [mtot cx cy cz qxx qxy qxz qyy qyz qzz]. rewrite !C, !quad_second, !diag_second.
  rewrite !second_app by assumption.
  repeat split; try reflexivity; ring.
Qed.

Lemma no_zero_sound p : no_zero p -> sound (members p).
Proof. destruct p; cbn; [trivial|]. intros [H _]. right; exact H. Qed.
Theorem combine_spec p : no_zero p -> exists t, combine p = Ok t /\ expansion_of (members p) t.
Proof.
  induction p as [l|a IHa b IHb]; cbn [no_zero members combine].
  - intros [->|H]; eexists; (split; [reflexivity|]). { rewrite S_to_M_nil. apply expansion_nil. } apply S_to_M_spec; exact H.
  - intros (H & Na & Nb). destruct (IHa Na) as (t & Et & St), (IHb Nb) as (u & Eu & Su). rewrite Et, Eu. cbn.
    apply (add_spec (members a) (members b)); auto using no_zero_sound.
Qed.

Lemma expansion_perm a b t : Permutation a b -> expansion_of a t -> expansion_of b t.
Proof.
  intros P. assert (M : forall f, moment f a = moment f b) by (intros; apply moment_perm; exact P).
  assert (C : forall c, centre c a = centre c b) by (intros; unfold centre, total; rewrite !M; reflexivity).
  assert (D : forall c s, dev c a s = dev c b s) by (intros; unfold dev; rewrite C; reflexivity).
  unfold expansion_of, total, quad, quad_diag, dist2. rewrite !M, !C.
  intros (?&?&?&?&E1&E2&E3&E4&E5&E6). repeat split; try assumption;
  (etransitivity; [eassumption|]); apply moment_ext; intros s; rewrite !D; reflexivity.
Qed.

(** Positive charges never give a zero total. *)
Lemma total_pos l : Forall (fun s => 0 < charge s) l -> l = [] \/ 0 < total l.
Proof.
  induction 1 as [|s l Hs H IH]; [left; reflexivity|right]. unfold total in *. rewrite moment_cons.
  destruct IH as [->|IH]; rewrite ?moment_nil; lra.
Qed.
