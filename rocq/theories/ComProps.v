(** Properties of the centre-of-mass expansion. *)
From Coq Require Import Reals List Permutation Lra.
From Verif Require Import Base ComModel ComSpec ComProofs ComTaylor.
Import ListNotations.
Open Scope R_scope.

(** C43: carrying out any plan gives the moments of all its sources. *)
Theorem C43_combination : forall p, no_zero p -> exists t, combine p = Ok t /\ expansion_of (members p) t.
Proof. exact combine_spec. Qed.
Print Assumptions C43_combination.

(** C43: two plans for the same sources give the same expansion, however they group and order them. *)
Theorem C43_any_order : forall p q, no_zero p -> no_zero q -> Permutation (members p) (members q) -> combine p = combine q.
Proof.
  intros p q Hp Hq P. destruct (combine_spec p Hp) as (t & -> & Et), (combine_spec q Hq) as (u & -> & Eu).
  f_equal. apply (expansion_eq (members q)); [|exact Eu]. exact (expansion_perm _ _ _ P Et).
Qed.
Print Assumptions C43_any_order.

(** C43: with positive charges no total is zero, unless the plan merges two groups without sources. *)
Fixpoint no_empty_merge (p : plan) : Prop :=
  match p with Group _ => True | Merge a b => members p <> [] /\ no_empty_merge a /\ no_empty_merge b end.
Theorem C43_positive : forall p, Forall (fun s => 0 < charge s) (members p) -> no_empty_merge p ->
  exists t, combine p = Ok t /\ expansion_of (members p) t.
Proof.
  intros p Hp He. apply combine_spec. induction p as [l|a IHa b IHb]; cbn [no_zero members no_empty_merge] in *.
  - destruct (total_pos l Hp) as [->|H]; [left; reflexivity|right; lra].
  - destruct He as (Hn & Ha & Hb). pose proof Hp as Hp'. apply Forall_app in Hp. destruct Hp as [Pa Pb].
    split; [|split; auto]. destruct (total_pos _ Hp') as [E|H]; [contradiction|lra].
Qed.
Print Assumptions C43_positive.

(** C43: the condition is needed.  A group of total zero loses its dipole, and two totals that cancel divide by zero. *)
Theorem C43_zero_total_refuted :
  let dipole := [mkSource 1 0 0 0; mkSource (-1) 1 0 0] in
  let one := [mkSource 1 5 0 0] in
  (exists t, combine (Merge (Group dipole) (Group one)) = Ok t /\ cx t = 5) /\ centre sx (dipole ++ one) = 4 /\
  combine (Merge (Group [mkSource 1 0 0 0]) (Group [mkSource (-1) 1 0 0])) = Fail DivZero.
Proof.
  cbv zeta. repeat split.
  - cbn [combine bind]. unfold M_to_M. set (u := S_to_M [mkSource 1 5 0 0]). set (t := S_to_M [mkSource 1 0 0 0; mkSource (-1) 1 0 0]).
    assert (Mt : mtot t = 0).
    { unfold t, S_to_M. destruct (calc_xcom _ _) as [[? ?] ?], (calc_Q _ _ _ _) as [[[[[? ?] ?] ?] ?] ?]. unfold calc_mtot; cbn. lra. }
    assert (Hu : total [mkSource 1 5 0 0] <> 0) by (unfold total, moment; cbn; lra).
    destruct (S_to_M_spec _ Hu) as (E1 & E2 & _). fold u in E1, E2.
    assert (Mu : mtot u = 1) by (rewrite E1; unfold total, moment; cbn; lra).
    assert (Cu : cx u = 5) by (rewrite E2; unfold centre, total, moment; cbn; field).
    unfold add_expansion. rewrite Mt, Mu, Cu. destruct (Req_EM_T (0 + 1) 0) as [N|_]; [lra|].
    eexists; split; [reflexivity|]. cbn [cx]. field.
  - unfold centre, total, moment; cbn. field.
  - cbn [combine bind]. unfold add_expansion, M_to_M.
    assert (E : forall q x, mtot (S_to_M [mkSource q x 0 0]) = q).
    { intros. unfold S_to_M. destruct (calc_xcom _ _) as [[? ?] ?], (calc_Q _ _ _ _) as [[[[[? ?] ?] ?] ?] ?]. unfold calc_mtot; cbn. lra. }
    rewrite !E. destruct (Req_EM_T (1 + -1) 0) as [_|N]; [reflexivity|exfalso; apply N; lra].
Qed.
Print Assumptions C43_zero_total_refuted.

(** C43: for a group of total zero the code takes the dipole moment itself as the position of
    the centre, so the centre does not move when all sources are moved. *)
Definition move (x y z : R) (s : source) : source := mkSource (charge s) (sx s + x) (sy s + y) (sz s + z).
Theorem C43_neutral_centre_refuted : forall l, total l = 0 ->
  mtot (S_to_M l) = 0 /\ cx (S_to_M l) = moment sx l /\ cy (S_to_M l) = moment sy l /\ cz (S_to_M l) = moment sz l /\
  forall x y z, cx (S_to_M (map (move x y z) l)) = cx (S_to_M l).
Proof.
  assert (N : forall l, total l = 0 -> mtot (S_to_M l) = 0 /\ cx (S_to_M l) = moment sx l /\ cy (S_to_M l) = moment sy l /\ cz (S_to_M l) = moment sz l).
  { intros l H. unfold S_to_M, calc_xcom. rewrite mtot_total, H. destruct (Req_EM_T 0 0) as [_|X]; [|exfalso; apply X; reflexivity].
    destruct (calc_Q _ _ _ _) as [[[[[? ?] ?] ?] ?] ?]. cbn [mtot cx cy cz]. rewrite !moment_fold. repeat split; ring. }
  intros l H. destruct (N l H) as (N1 & N2 & N3 & N4). repeat split; try assumption. intros x y z.
  assert (M : forall k, total (map (move x y z) k) = total k /\ moment sx (map (move x y z) k) = moment sx k + x * total k).
  { clear. unfold total. induction k as [|s k [IH1 IH2]]; [split; cbn; ring|]. cbn [map]. rewrite !moment_cons, IH1, IH2. cbn [charge sx move]. split; ring. }
  destruct (M l) as [M1 M2]. destruct (N (map (move x y z) l)) as (_ & E & _); [rewrite M1; exact H|]. rewrite E, M2, N2, H. ring.
Qed.
Print Assumptions C43_neutral_centre_refuted.
Example C43_nonvacuous_neutral : total [mkSource 1 2 0 0; mkSource (-1) 5 0 0] = 0 /\ cx (S_to_M [mkSource 1 2 0 0; mkSource (-1) 5 0 0]) = -3.
Proof.
  assert (T : total [mkSource 1 2 0 0; mkSource (-1) 5 0 0] = 0) by (unfold total, moment; cbn; lra). split; [exact T|].
  destruct (C43_neutral_centre_refuted _ T) as (_ & E & _). rewrite E. unfold moment; cbn. lra.
Qed.

Example C43_nonvacuous :
  let a := [mkSource 2 0 0 0; mkSource (-1) 1 2 0] in let b := [mkSource 3 1 1 1] in let c := [mkSource (-2) 4 0 1] in
  no_zero (Merge (Group []) (Merge (Group a) (Merge (Group b) (Group c)))) /\ no_zero (Merge (Merge (Group c) (Group b)) (Group a)) /\
  combine (Merge (Group []) (Merge (Group a) (Merge (Group b) (Group c)))) = combine (Merge (Merge (Group c) (Group b)) (Group a)).
Proof.
  intros a b c.
  assert (N1 : no_zero (Merge (Group []) (Merge (Group a) (Merge (Group b) (Group c))))).
  { cbn. unfold total, moment; cbn. repeat split; first [left; reflexivity | right; lra | lra]. }
  assert (N2 : no_zero (Merge (Merge (Group c) (Group b)) (Group a))).
  { cbn. unfold total, moment; cbn. repeat split; first [right; lra | lra]. }
  split; [exact N1|split; [exact N2|]]. apply C43_any_order; [exact N1|exact N2|].
  cbn. apply Permutation_sym. apply perm_trans with (l' := [mkSource (-2) 4 0 1; mkSource 2 0 0 0; mkSource (-1) 1 2 0; mkSource 3 1 1 1]).
  - apply perm_skip. apply perm_trans with (l' := [mkSource 2 0 0 0; mkSource 3 1 1 1; mkSource (-1) 1 2 0]); [apply perm_swap|apply perm_skip, perm_swap].
  - apply (Permutation_cons_append [mkSource 2 0 0 0; mkSource (-1) 1 2 0; mkSource 3 1 1 1] (mkSource (-2) 4 0 1)).
Qed.

(** C52: scaling the sources towards their centre with e, the potential V(e) at the target has V'(0) = 0, and the
    code adds V(0) - V''(0)/2 where the expansion to second order is V(0) + V''(0)/2: the quadrupole has the wrong sign. *)
Theorem C52_wrong_sign_refuted : forall l x y z, total l <> 0 ->
  0 < (x - centre sx l) * (x - centre sx l) + (y - centre sy l) * (y - centre sy l) + (z - centre sz l) * (z - centre sz l) ->
  exists v1 v2,
    (exists d, 0 < d /\ forall e, Rabs e < d -> derivable_pt_lim (scaled_potential l x y z) e (v1 e)) /\
    v1 0 = 0 /\ derivable_pt_lim v1 0 v2 /\
    M_to_T (S_to_M l) x y z = scaled_potential l x y z 0 - v2 / 2.
Proof. exact taylor. Qed.
Print Assumptions C52_wrong_sign_refuted.

(** C52: the unscaled potential is what S_to_T adds. *)
Theorem C52_direct : forall l x y z,
  (forall s, In s l -> 0 < (x - sx s) ^ 2 + (y - sy s) ^ 2 + (z - sz s) ^ 2) -> scaled_potential l x y z 1 = S_to_T l x y z.
Proof. exact scaled_one. Qed.
Print Assumptions C52_direct.

(** C52: for one source the expansion is exact. *)
Theorem C52_single : forall s x y z, charge s <> 0 -> 0 < (x - sx s) ^ 2 + (y - sy s) ^ 2 + (z - sz s) ^ 2 ->
  M_to_T (S_to_M [s]) x y z = S_to_T [s] x y z.
Proof.
  intros s x y z Hq Hd.
  assert (Ht : total [s] <> 0) by (unfold total; rewrite moment_cons, moment_nil; lra).
  assert (C : forall c, centre c [s] = c s) by (intros; unfold centre, total; rewrite !moment_cons, !moment_nil; field; exact Hq).
  destruct (S_to_M_spec [s] Ht) as (E1&E2&E3&E4&E5&E6&E7&E8&E9&E10).
  unfold M_to_T. rewrite E1, E2, E3, E4, E5, E6, E7, E8, E9, E10, !C.
  unfold quad_diag, quad, dist2, dev. rewrite !C, !moment_cons, !moment_nil.
  unfold total. rewrite moment_cons, moment_nil.
  unfold S_to_T. cbn [fold_left].
  assert (Hd' : 0 < (x - sx s) * (x - sx s) + (y - sy s) * (y - sy s) + (z - sz s) * (z - sz s)) by nra.
  destruct (Rlt_dec 0 _) as [_|N]; [|contradiction]. pose proof (sqrt_lt_R0 _ Hd'). field. split; [nra|lra].
Qed.
Print Assumptions C52_single.

(** C52: so dropping the quadrupole would be better.  Two equal charges at distance a from the origin and a target on
    their line at distance r > a: the error with the code's quadrupole term is larger than the error of the monopole. *)
Theorem C52_worse_than_monopole_refuted : forall q a r, 0 < q -> 0 < a -> a < r ->
  let l := [mkSource q a 0 0; mkSource q (- a) 0 0] in
  Rabs (total l / r - S_to_T l r 0 0) < Rabs (M_to_T (S_to_M l) r 0 0 - S_to_T l r 0 0).
Proof.
  intros q a r Hq Ha Hr l.
  assert (T : total l = 2 * q) by (unfold total, l, moment; cbn; ring).
  assert (Ht : total l <> 0) by (rewrite T; lra).
  assert (Cx : centre sx l = 0) by (unfold centre; rewrite T; unfold l, moment; cbn; field; lra).
  assert (Cy : centre sy l = 0) by (unfold centre; rewrite T; unfold l, moment; cbn; field; lra).
  assert (Cz : centre sz l = 0) by (unfold centre; rewrite T; unfold l, moment; cbn; field; lra).
  destruct (S_to_M_spec l Ht) as (E1&E2&E3&E4&E5&E6&E7&E8&E9&E10).
  assert (Q : quad_diag sx l = 4 * q * a * a) by (unfold quad_diag, dist2, dev; rewrite Cx, Cy, Cz; unfold l, moment; cbn; ring).
  assert (HM : M_to_T (S_to_M l) r 0 0 = 2 * q / r - 2 * q * a * a / (r * r * r)).
  { unfold M_to_T. rewrite E1, E2, E3, E4, E5, Cx, Cy, Cz, Q, T.
    replace ((r - 0) * (r - 0) + (0 - 0) * (0 - 0) + (0 - 0) * (0 - 0)) with (r * r) by ring.
    rewrite sqrt_square by lra. field. lra. }
  assert (HS : S_to_T l r 0 0 = q / (r - a) + q / (r + a)).
  { rewrite S_to_T_moment.
    - unfold l. rewrite !moment_cons, moment_nil. cbn [charge sx sy sz].
      replace ((r - a) ^ 2 + (0 - 0) ^ 2 + (0 - 0) ^ 2) with ((r - a) * (r - a)) by ring.
      replace ((r - - a) ^ 2 + (0 - 0) ^ 2 + (0 - 0) ^ 2) with ((r + a) * (r + a)) by ring.
      rewrite !sqrt_square by lra. field. lra.
    - intros s [<-|[<-|[]]]; cbn [sx sy sz]; nra. }
  rewrite HM, HS, T.
  assert (G : q / (r - a) + q / (r + a) = 2 * q / r + 2 * q * a * a / (r * ((r - a) * (r + a)))) by (field; lra).
  rewrite G.
  assert (0 < 2 * q * a * a / (r * ((r - a) * (r + a)))).
  { apply Rdiv_lt_0_compat; [repeat apply Rmult_lt_0_compat; lra|]. apply Rmult_lt_0_compat; [lra|]. apply Rmult_lt_0_compat; lra. }
  assert (0 < 2 * q * a * a / (r * r * r)).
  { apply Rdiv_lt_0_compat; [repeat apply Rmult_lt_0_compat; lra|]. repeat apply Rmult_lt_0_compat; lra. }
  rewrite !Rabs_left; lra.
Qed.
Print Assumptions C52_worse_than_monopole_refuted.

Example C52_nonvacuous :
  let l := [mkSource 1 1 0 0; mkSource 1 (-1) 0 0] in
  total l <> 0 /\ 0 < (3 - centre sx l) * (3 - centre sx l) + (0 - centre sy l) * (0 - centre sy l) + (0 - centre sz l) * (0 - centre sz l) /\
  (forall s, In s l -> 0 < (3 - sx s) ^ 2 + (0 - sy s) ^ 2 + (0 - sz s) ^ 2).
Proof.
  cbv zeta. unfold total, centre, total, moment; cbn [fold_right charge sx sy sz]. repeat split; [lra|lra|].
  intros s [<-|[<-|[]]]; cbn [sx sy sz]; lra.
Qed.
