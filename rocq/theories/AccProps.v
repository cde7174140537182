(** Properties of the centre-of-mass expansion that yields accelerations. *)
From Coq Require Import Reals List Permutation Lra.
From Verif Require Import Base ComModel ComSpec ComProofs AccModel AccSpec AccProofs AccGradient.
Import ListNotations.
Open Scope R_scope.

(** C75: carrying out any plan gives the moments of all its sources, however it groups and orders them. *)
Theorem C75_combination : forall p, all_charged p -> expansion_of (members p) (acc_combine p).
Proof. exact acc_combine_spec. Qed.
Print Assumptions C75_combination.
Theorem C75_any_order : forall p q, all_charged p -> all_charged q -> Permutation (members p) (members q) -> acc_combine p = acc_combine q.
Proof.
  intros p q Hp Hq P. apply (expansion_eq (members q)); [|apply acc_combine_spec; exact Hq].
  exact (expansion_perm _ _ _ P (acc_combine_spec p Hp)).
Qed.
Print Assumptions C75_any_order.

(** C75: with positive charges nothing more is asked of the plan. *)
Theorem C75_positive : forall p, Forall (fun s => 0 < charge s) (members p) -> expansion_of (members p) (acc_combine p).
Proof.
  assert (C : forall l, Forall (fun s => 0 < charge s) l -> charged l).
  { intros l H. destruct (total_pos l H) as [->|T]; [left; reflexivity|right; lra]. }
  intros p Hp. apply acc_combine_spec. induction p as [l|a IHa b IHb]; cbn [all_charged members] in *; [apply C; exact Hp|].
  pose proof Hp as Hp'. apply Forall_app in Hp. destruct Hp as [Pa Pb]. split; [apply C; exact Hp'|split; auto].
Qed.
Print Assumptions C75_positive.

(** C75: where a total is zero on the way the dipole is lost, and the result depends on the order. *)
Theorem C75_zero_total_refuted :
  let a := Group [mkSource 1 0 0 0] in let b := Group [mkSource (-1) 1 0 0] in let c := Group [mkSource 1 5 0 0] in
  Permutation (members (Merge (Merge a b) c)) (members (Merge (Merge a c) b)) /\
  cx (acc_combine (Merge (Merge a b) c)) = 5 /\ cx (acc_combine (Merge (Merge a c) b)) = 4.
Proof.
  cbv zeta. split; [cbn; apply perm_skip, perm_swap|].
  assert (G : forall q x, q <> 0 -> mtot (acc_S_to_M [mkSource q x 0 0]) = q /\ cx (acc_S_to_M [mkSource q x 0 0]) = x).
  { intros q x Hq. destruct (acc_group [mkSource q x 0 0]) as (E1 & E2 & _); [right; unfold total, moment; cbn; lra|].
    rewrite E1, E2. unfold centre, total, moment; cbn. split; [ring|field; exact Hq]. }
  destruct (G 1 0) as [A1 A2]; [lra|]. destruct (G (-1) 1) as [B1 B2]; [lra|]. destruct (G 1 5) as [C1 C2]; [lra|].
  cbn [acc_combine]. rewrite !acc_copy. set (t := acc_S_to_M _) in *. set (u := acc_S_to_M _) in *. set (v := acc_S_to_M _) in *.
  assert (M : forall t u, mtot (acc_add t u) = mtot t + mtot u) by (intros; unfold acc_add; destruct (Req_EM_T _ 0); reflexivity).
  assert (X : forall t u, mtot t + mtot u <> 0 -> cx (acc_add t u) = (mtot t * cx t + mtot u * cx u) / (mtot t + mtot u)).
  { intros t' u' H. unfold acc_add. destruct (Req_EM_T _ 0) as [N|_]; [contradiction|reflexivity]. }
  split.
  - rewrite X by (rewrite M, A1, B1, C1; lra). rewrite M, A1, B1, C1, C2. field.
  - rewrite X by (rewrite M, A1, B1, C1; lra). rewrite M, A1, B1, C1, B2, X by (rewrite A1, C1; lra). rewrite A1, C1, A2, C2. field.
Qed.
Print Assumptions C75_zero_total_refuted.

(** C75: what M_to_T adds is the field of the sources, expanded up to the second order in the sources' distances to
    their centre: each component is F(0) + F'(0) + F''(0)/2, F(e) the field with these distances scaled by e. *)
Theorem C75_field : forall l x y z, total l <> 0 ->
  0 < (x - centre sx l) * (x - centre sx l) + (y - centre sy l) * (y - centre sy l) + (z - centre sz l) * (z - centre sz l) ->
  exists ax ay az, acc_M_to_T (acc_S_to_M l) x y z = Ok (ax, ay, az) /\
    second_order (scaled_field sx x l x y z) ax /\ second_order (scaled_field sy y l x y z) ay /\ second_order (scaled_field sz z l x y z) az.
Proof. exact acc_taylor. Qed.
Print Assumptions C75_field.
(** C75: and at e = 1 that field is what S_to_T adds. *)
Theorem C75_direct : forall l x y z, (forall s, In s l -> 0 < (x - sx s) ^ 2 + (y - sy s) ^ 2 + (z - sz s) ^ 2) ->
  acc_S_to_T l x y z = (scaled_field sx x l x y z 1, scaled_field sy y l x y z 1, scaled_field sz z l x y z 1).
Proof. intros l x y z H. rewrite !scaled_field_one, acc_direct_moment, elsewhere_all by exact H. reflexivity. Qed.
Print Assumptions C75_direct.

(** C75: S_to_T adds minus the gradient of the potential of the sources that are not at the target, the potential that
    the S_to_T of LaplaceCOM adds. *)
Theorem C75_direct_gradient : forall l x y z, gradient (potential (elsewhere x y z l)) x y z (opp3 (acc_S_to_T l x y z)).
Proof. exact acc_direct_gradient. Qed.
Print Assumptions C75_direct_gradient.
Theorem C75_direct_potential : forall l x y z, potential (elsewhere x y z l) x y z = S_to_T l x y z.
Proof.
  intros l x y z. unfold S_to_T.
  match goal with |- _ = fold_left ?f _ _ => set (F := f) end.
  assert (G : forall a, fold_left F l a = a + potential (elsewhere x y z l) x y z); [|rewrite G; ring].
  unfold potential, elsewhere. induction l as [|s l IH]; intros a; [cbn; ring|]. cbn [fold_left filter]. rewrite IH. unfold F. cbv zeta.
  replace ((x - sx s) * (x - sx s) + (y - sy s) * (y - sy s) + (z - sz s) * (z - sz s)) with ((x - sx s) ^ 2 + (y - sy s) ^ 2 + (z - sz s) ^ 2) by ring.
  destruct (Rlt_dec 0 ((x - sx s) ^ 2 + (y - sy s) ^ 2 + (z - sz s) ^ 2)) as [_|_]; [|reflexivity]. rewrite moment_cons. unfold Rdiv. ring.
Qed.
Print Assumptions C75_direct_potential.

(** C75: what M_to_T adds is minus the gradient of what the M_to_T of LaplaceCOM adds once the sign of the quadrupole is
    turned there; so as the code is, the two classes agree only where the turn changes nothing. *)
Theorem C75_gradient : forall t x y z g, acc_M_to_T t x y z = Ok g -> gradient (M_to_T (turned t)) x y z (opp3 g).
Proof. exact acc_expansion_gradient. Qed.
Print Assumptions C75_gradient.
Theorem C75_classes_disagree_refuted :
  (forall t x y z g, acc_M_to_T t x y z = Ok g -> (gradient (M_to_T t) x y z (opp3 g) <-> acc_M_to_T (turned t) x y z = Ok g)) /\
  let t := acc_S_to_M [mkSource 1 1 0 0; mkSource 1 (-1) 0 0] in
  exists g, acc_M_to_T t 2 0 0 = Ok g /\ ~ gradient (M_to_T t) 2 0 0 (opp3 g).
Proof.
  assert (K : forall t x y z g, acc_M_to_T t x y z = Ok g -> exists h, acc_M_to_T (turned t) x y z = Ok h).
  { intros t x y z g. unfold acc_M_to_T, turned. cbn [mtot cx cy cz]. destruct (Req_EM_T _ 0); [discriminate|]. intros _. eexists; reflexivity. }
  assert (I : forall t x y z g, acc_M_to_T t x y z = Ok g -> (gradient (M_to_T t) x y z (opp3 g) <-> acc_M_to_T (turned t) x y z = Ok g)).
  { intros t x y z g E. destruct (K _ _ _ _ _ E) as (h & Eh). pose proof (acc_expansion_gradient _ _ _ _ _ Eh) as Gh. rewrite turned_twice in Gh.
    rewrite Eh. split.
    - intros G. f_equal. apply opp3_inj. exact (gradient_unique _ _ _ _ _ _ Gh G).
    - intros J. injection J as ->. exact Gh. }
  split; [exact I|]. intros t.
  assert (T : total [mkSource 1 1 0 0; mkSource 1 (-1) 0 0] <> 0) by (unfold total, moment; cbn; lra).
  destruct (acc_group _ (or_intror T)) as (E1&E2&E3&E4&E5&E6&E7&E8&E9&E10). fold t in E1, E2, E3, E4, E5, E6, E7, E8, E9, E10.
  assert (V : t = mkCom 2 0 0 0 4 0 0 (-2) 0 (-2)).
  { destruct t as [m x y z a b c d e f]. cbn [mtot cx cy cz qxx qxy qxz qyy qyz qzz] in *. subst.
    unfold quad_diag, quad, dist2, dev, centre, total, moment; cbn [fold_right charge sx sy sz]. f_equal; field. }
  assert (N : forall q, exists b c, acc_M_to_T (mkCom 2 0 0 0 (q * 4) 0 0 (q * (-2)) 0 (q * (-2))) 2 0 0 = Ok (1 / 2 + q * (3 / 8), b, c)).
  { intros q. unfold acc_M_to_T. cbn [mtot cx cy cz qxx qxy qxz qyy qyz qzz].
    replace ((2 - 0) * (2 - 0) + (0 - 0) * (0 - 0) + (0 - 0) * (0 - 0)) with (2 * 2) by ring. rewrite sqrt_square by lra.
    destruct (Req_EM_T (2 * 2) 0) as [X|_]; [lra|]. do 2 eexists. do 3 f_equal. field. }
  destruct (N 1) as (b & c & E). replace (mkCom 2 0 0 0 (1 * 4) 0 0 (1 * -2) 0 (1 * -2)) with t in E by (rewrite V; f_equal; lra).
  exists (1 / 2 + 1 * (3 / 8), b, c). split; [exact E|]. intros G. apply (I _ _ _ _ _ E) in G.
  destruct (N (-1)) as (b' & c' & E'). replace (mkCom 2 0 0 0 (-1 * 4) 0 0 (-1 * -2) 0 (-1 * -2)) with (turned t) in E'.
  2: { rewrite V. unfold turned; cbn [mtot cx cy cz qxx qxy qxz qyy qyz qzz]. f_equal; lra. }
  rewrite E' in G. injection G as J _ _. lra.
Qed.
Print Assumptions C75_classes_disagree_refuted.

(** C75: for one source the expansion is exact. *)
Theorem C75_single : forall s x y z, charge s <> 0 -> 0 < (x - sx s) ^ 2 + (y - sy s) ^ 2 + (z - sz s) ^ 2 ->
  acc_M_to_T (acc_S_to_M [s]) x y z = Ok (acc_S_to_T [s] x y z).
Proof.
  intros s x y z Hq Hd.
  assert (Ht : total [s] <> 0) by (unfold total; rewrite moment_cons, moment_nil; lra).
  assert (C : forall c, centre c [s] = c s) by (intros; unfold centre, total; rewrite !moment_cons, !moment_nil; field; exact Hq).
  destruct (acc_group [s] (or_intror Ht)) as (E1&E2&E3&E4&E5&E6&E7&E8&E9&E10).
  rewrite acc_direct_moment, elsewhere_all by (intros s' [<-|[]]; exact Hd). rewrite !moment_cons, !moment_nil.
  unfold acc_M_to_T. rewrite E1, E2, E3, E4, E5, E6, E7, E8, E9, E10, !C.
  unfold quad_diag, quad, dist2, dev. rewrite !C, !moment_cons, !moment_nil. unfold total. rewrite moment_cons, moment_nil. unfold pull.
  replace ((x - sx s) * (x - sx s) + (y - sy s) * (y - sy s) + (z - sz s) * (z - sz s)) with ((x - sx s) ^ 2 + (y - sy s) ^ 2 + (z - sz s) ^ 2) by ring.
  set (D := (x - sx s) ^ 2 + (y - sy s) ^ 2 + (z - sz s) ^ 2) in *. pose proof (sqrt_lt_R0 _ Hd).
  destruct (Req_EM_T D 0) as [N|_]; [lra|]. f_equal; f_equal; [f_equal|]; clearbody D; field; lra.
Qed.
Print Assumptions C75_single.

Example C75_nonvacuous :
  let a := [mkSource 2 0 0 0; mkSource (-1) 1 2 0] in let b := [mkSource 3 1 1 1] in
  all_charged (Merge (Merge (Group []) (Group [])) (Merge (Group a) (Group b))) /\
  all_charged (Merge (Group b) (Group a)) /\
  acc_combine (Merge (Merge (Group []) (Group [])) (Merge (Group a) (Group b))) = acc_combine (Merge (Group b) (Group a)) /\
  total (a ++ b) <> 0 /\
  0 < (9 - centre sx (a ++ b)) * (9 - centre sx (a ++ b)) + (0 - centre sy (a ++ b)) * (0 - centre sy (a ++ b)) + (0 - centre sz (a ++ b)) * (0 - centre sz (a ++ b)) /\
  (forall s, In s (a ++ b) -> 0 < (9 - sx s) ^ 2 + (0 - sy s) ^ 2 + (0 - sz s) ^ 2).
Proof.
  intros a b.
  assert (N1 : all_charged (Merge (Merge (Group []) (Group [])) (Merge (Group a) (Group b)))).
  { cbn. unfold charged, total, moment; cbn. repeat split; first [left; reflexivity | right; lra]. }
  assert (N2 : all_charged (Merge (Group b) (Group a))).
  { cbn. unfold charged, total, moment; cbn. repeat split; right; lra. }
  split; [exact N1|split; [exact N2|]]. split; [apply C75_any_order; [exact N1|exact N2|]|].
  { cbn. apply (Permutation_app_comm a b). }
  unfold centre, total, moment; cbn. repeat split; [lra|lra|]. intros s [<-|[<-|[<-|[]]]]; cbn; lra.
Qed.
