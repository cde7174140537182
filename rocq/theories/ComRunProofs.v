(** The values at the nodes of the DAGs of the Direct and the Barnes-Hut methods with LaplaceCOM. *)
From Coq Require Import Reals ZArith List Bool Arith Lia Lra Psatz Permutation.
From Verif Require Import Base ListFacts IndexModel TreeModel TreeFacts LookupModel DagModel DagSpec DagProofs DagPaths MethodModel MethodTasks LinkSpec EvalModel EvalSpec ComModel ComSpec ComProofs ComRunMath LapModel LapSpec LapArrays LapProofs TranModel TranSpec TranProofs PotModel PotSpec PotFacts PotBoxes PotUp PotProofs PotOther BhOwnProofs ComRunModel.
Import ListNotations.
Open Scope R_scope.
Notation cadd_com := ComModel.add_expansion.

Lemma div_nonneg a b : 0 <= a -> 0 < b -> 0 <= a / b.
Proof. intros A B. apply Rmult_le_pos; [exact A|left; apply Rinv_0_lt_compat, B]. Qed.

(** ** The addition of values *)
Lemma add_pos t u : 0 < mtot t -> 0 < mtot u -> exists v, cadd_com t u = Ok v /\ 0 < mtot v.
Proof. intros Ht Hu. unfold cadd_com. destruct (Req_EM_T (mtot t + mtot u) 0) as [E|_]; [lra|]. eexists. split; [reflexivity|]. cbn [mtot]. lra. Qed.
(** The moments about the origin, which add up. *)
Definition raw (t : com) : list R :=
  let o := cx t * cx t + cy t * cy t + cz t * cz t in
  [mtot t; mtot t * cx t; mtot t * cy t; mtot t * cz t;
   qxx t + mtot t * (3 * cx t * cx t - o); qxy t + mtot t * (3 * cx t * cy t); qxz t + mtot t * (3 * cx t * cz t);
   qyy t + mtot t * (3 * cy t * cy t - o); qyz t + mtot t * (3 * cy t * cz t); qzz t + mtot t * (3 * cz t * cz t - o)].
Fixpoint zip_add (a b : list R) : list R := match a, b with x :: a, y :: b => x + y :: zip_add a b | _, _ => [] end.
Lemma zip_comm a : forall b, zip_add a b = zip_add b a.
Proof. induction a as [|x a IH]; intros [|y b]; try reflexivity. cbn [zip_add]. rewrite IH. f_equal. ring. Qed.
Lemma zip_assoc a : forall b c, zip_add a (zip_add b c) = zip_add (zip_add a b) c.
Proof. induction a as [|x a IH]; intros [|y b] [|z c]; try reflexivity. cbn [zip_add]. rewrite IH. f_equal. ring. Qed.
Lemma raw_add t u v : cadd_com t u = Ok v -> raw v = zip_add (raw t) (raw u).
Proof.
  destruct t as [m1 x1 y1 z1 a1 b1 c1 d1 e1 f1], u as [m2 x2 y2 z2 a2 b2 c2 d2 e2 f2]. unfold cadd_com. cbn [mtot cx cy cz qxx qxy qxz qyy qyz qzz]. cbv zeta. destruct (Req_EM_T (m1 + m2) 0) as [E|E]; [discriminate|]. intros H. injection H as <-.
  unfold raw. cbn [mtot cx cy cz qxx qxy qxz qyy qyz qzz zip_add]. cbv zeta. repeat (apply f_equal2; [try reflexivity; field; exact E|]). reflexivity.
Qed.
Lemma raw_inj t u : 0 < mtot t -> raw t = raw u -> t = u.
Proof.
  destruct t as [m1 x1 y1 z1 a1 b1 c1 d1 e1 f1], u as [m2 x2 y2 z2 a2 b2 c2 d2 e2 f2]. unfold raw. cbn [mtot cx cy cz qxx qxy qxz qyy qyz qzz]. cbv zeta. intros P H. injection H as H1 H2 H3 H4 H5 H6 H7 H8 H9 H10. subst m2.
  apply Rmult_eq_reg_l in H2; [|lra]. apply Rmult_eq_reg_l in H3; [|lra]. apply Rmult_eq_reg_l in H4; [|lra]. subst x2 y2 z2. f_equal; lra.
Qed.
Lemma com_comm t u : 0 < mtot t -> 0 < mtot u -> cadd_com t u = cadd_com u t.
Proof.
  intros Ht Hu. destruct (add_pos t u Ht Hu) as (v & E & P). destruct (add_pos u t Hu Ht) as (w & E' & _). rewrite E, E'. f_equal. apply raw_inj; [exact P|]. rewrite (raw_add _ _ _ E), (raw_add _ _ _ E'). apply zip_comm.
Qed.
Lemma com_assoc t u v a b : 0 < mtot t -> 0 < mtot u -> 0 < mtot v -> cadd_com u v = Ok a -> cadd_com t u = Ok b -> cadd_com t a = cadd_com b v.
Proof.
  intros Ht Hu Hv Ea Eb. destruct (add_pos u v Hu Hv) as (a' & Ea' & Pa). rewrite Ea in Ea'. injection Ea' as <-. destruct (add_pos t u Ht Hu) as (b' & Eb' & Pb). rewrite Eb in Eb'. injection Eb' as <-.
  destruct (add_pos t a Ht Pa) as (w & E & P). destruct (add_pos b v Pb Hv) as (w' & E' & _). rewrite E, E'. f_equal. apply raw_inj; [exact P|]. rewrite (raw_add _ _ _ E), (raw_add _ _ _ E'), (raw_add _ _ _ Ea), (raw_add _ _ _ Eb). apply zip_assoc.
Qed.
Lemma cvalue_add_pots a b : cvalue_add (CPots a) (CPots b) = CPots (padd a b).
Proof. destruct a, b; reflexivity. Qed.
Lemma cvalue_zero_r v : cvalue_add v cvalue_zero = v.
Proof. destruct v as [l|t|[|x a]|]; reflexivity. Qed.
Lemma cvalue_add_exp t u : 0 < mtot t -> 0 < mtot u -> exists v, cvalue_add (CExp t) (CExp u) = CExp v /\ cadd_com t u = Ok v /\ 0 < mtot v.
Proof.
  intros Ht Hu. destruct (add_pos t u Ht Hu) as (v & E & P). exists v. cbn [cvalue_add]. destruct (Rlt_dec 0 (mtot t)) as [_|]; [|contradiction]. destruct (Rlt_dec 0 (mtot u)) as [_|]; [|contradiction]. rewrite E. auto.
Qed.
Lemma cvalue_not_pos t u : ~ 0 < mtot t \/ ~ 0 < mtot u -> cvalue_add (CExp t) (CExp u) = CBroken.
Proof. intros H. cbn [cvalue_add]. destruct (Rlt_dec 0 (mtot t)); [|reflexivity]. destruct (Rlt_dec 0 (mtot u)); [|reflexivity]. tauto. Qed.
Lemma cvalue_broken v : cvalue_add CBroken v = CBroken.
Proof. destruct v as [l|t|[|x a]|]; reflexivity. Qed.
Lemma cvalue_exps t u : (exists v, cvalue_add (CExp t) (CExp u) = CExp v /\ cadd_com t u = Ok v /\ 0 < mtot t /\ 0 < mtot u /\ 0 < mtot v) \/ (cvalue_add (CExp t) (CExp u) = CBroken /\ (~ 0 < mtot t \/ ~ 0 < mtot u)).
Proof.
  destruct (Rlt_dec 0 (mtot t)) as [Ht|Ht]; [|right; split; [apply cvalue_not_pos|]; auto]. destruct (Rlt_dec 0 (mtot u)) as [Hu|Hu]; [|right; split; [apply cvalue_not_pos|]; auto].
  left. destruct (cvalue_add_exp t u Ht Hu) as (v & E & E' & P). exists v. auto.
Qed.
Lemma cvalue_comm u v : cvalue_add u v = cvalue_add v u.
Proof.
  destruct u as [l|t|[|x a]|], v as [m|u|[|y b]|]; try reflexivity.
  - destruct (cvalue_exps t u) as [(w & E & E1 & P1 & P2 & _)|[E N]].
    + rewrite E. destruct (cvalue_add_exp u t P2 P1) as (w' & E' & E2 & _). rewrite E'. rewrite (com_comm t u P1 P2), E2 in E1. congruence.
    + rewrite E. symmetry. apply cvalue_not_pos. tauto.
  - cbn [cvalue_add]. rewrite padd_comm. reflexivity.
Qed.
Lemma cvalue_assoc u v w : cvalue_add u (cvalue_add v w) = cvalue_add (cvalue_add u v) w.
Proof.
  destruct u as [l|t|[|x a]|], v as [m|u|[|y b]|], w as [n|v|[|z c]|]; try reflexivity; try (cbn [cvalue_add padd]; rewrite ?padd_nil; reflexivity).
  all: try (change (CPots []) with cvalue_zero; rewrite !cvalue_zero_r; reflexivity).
  all: try (match goal with |- cvalue_add ?a (cvalue_add (CExp ?t) (CExp ?u)) = _ => destruct (cvalue_exps t u) as [(? & E & _)|[E _]]; rewrite E; reflexivity end).
  all: try (match goal with |- _ = cvalue_add (cvalue_add (CExp ?t) (CExp ?u)) _ => destruct (cvalue_exps t u) as [(? & E & _)|[E _]]; rewrite E; reflexivity end).
  - destruct (cvalue_exps u v) as [(a & E & E1 & Pu & Pv & Pa)|[E N]], (cvalue_exps t u) as [(b & F & F1 & Pt & Pu' & Pb)|[F N']]; rewrite E, F.
    + destruct (cvalue_add_exp t a Pt Pa) as (w & G & G1 & _). destruct (cvalue_add_exp b v Pb Pv) as (w' & H & H1 & _). rewrite G, H. rewrite (com_assoc t u v a b Pt Pu Pv E1 F1), H1 in G1. congruence.
    + rewrite cvalue_broken. apply cvalue_not_pos. tauto.
    + rewrite (cvalue_comm _ CBroken), cvalue_broken. symmetry. apply cvalue_not_pos. tauto.
    + rewrite (cvalue_comm _ CBroken), !cvalue_broken. reflexivity.
  - rewrite !cvalue_add_pots, padd_assoc. reflexivity.
Qed.
Lemma cvalue_monoid : monoid cvalue_zero cvalue_add.
Proof. split; [exact cvalue_comm|]. split; [exact cvalue_assoc|]. intros [l|t|[|x a]|]; reflexivity. Qed.

(** ** Sums over the inputs of a node *)
Section Sum.
Context {V : Type} (inj : V -> cvalue) (g : edge -> cvalue) (P : list path -> V -> Prop) (Q : edge -> path -> Prop).
Hypothesis Padd : forall l1 l2 a b, P l1 a -> P l2 b -> exists c, cvalue_add (inj a) (inj b) = inj c /\ P (l1 ++ l2) c.
Lemma csum_ex : forall es, NoDup es -> es <> [] ->
  (forall e, In e es -> exists ls a, g e = inj a /\ P ls a /\ NoDup ls /\ forall s, In s ls <-> Q e s) ->
  (forall e1 e2 s, In e1 es -> In e2 es -> Q e1 s -> Q e2 s -> e1 = e2) ->
  exists ls a, sum cvalue_zero cvalue_add (map g es) = inj a /\ P ls a /\ NoDup ls /\ forall s, In s ls <-> exists e, In e es /\ Q e s.
Proof.
  induction es as [|e es IH]; intros N Ne H D; [contradiction|]. inversion N as [|? ? Ni Nes]; subst. destruct (H e (or_introl eq_refl)) as (ls & a & Ea & Pa & Na & Ia).
  destruct es as [|e' es].
  - exists ls, a. cbn [map]. change (sum cvalue_zero cvalue_add [g e]) with (cvalue_add (g e) cvalue_zero). rewrite Ea, cvalue_zero_r. split; [reflexivity|]. split; [exact Pa|]. split; [exact Na|].
    intros s. rewrite Ia. split; [intros X; exists e; split; [left; reflexivity|exact X]|]. intros (x & [<-|[]] & X). exact X.
  - destruct IH as (ls' & b & Eb & Pb & Nb & Ib); [exact Nes|discriminate|intros; apply H; right; assumption|intros e1 e2 s I1 I2; apply D; right; assumption|].
    destruct (Padd ls ls' a b Pa Pb) as (c & Ec & Pc). exists (ls ++ ls'), c. rewrite map_cons. change (sum cvalue_zero cvalue_add (g e :: map g (e' :: es))) with (cvalue_add (g e) (sum cvalue_zero cvalue_add (map g (e' :: es)))). rewrite Ea, Eb. split; [exact Ec|]. split; [exact Pc|]. split.
    + apply nodup_join; [exact Na|exact Nb|]. intros s I J. apply Ia in I. apply Ib in J. destruct J as (x & Ix & J). apply Ni. rewrite (D e x s); [exact Ix|left; reflexivity|right; exact Ix|exact I|exact J].
    + intros s. rewrite in_app_iff, Ia, Ib. split.
      * intros [X|(x & Ix & X)]; [exists e; split; [left; reflexivity|exact X]|exists x; split; [right; exact Ix|exact X]].
      * intros (x & [<-|Ix] & X); [left; exact X|right; eauto].
Qed.
End Sum.
Lemma close_cadd l1 l2 e1 e2 ts a b : close l1 e1 ts a -> close l2 e2 ts b -> exists c, cvalue_add (CPots a) (CPots b) = CPots c /\ close (l1 ++ l2) (e1 + e2) ts c.
Proof. intros Ha Hb. exists (padd a b). split; [apply cvalue_add_pots|]. apply close_padd; assumption. Qed.
Lemma com_targets_ok f l err ts : (forall t, In t ts -> exists v, f t = Ok v /\ Rabs (v - potential l t) <= err) -> exists phis, com_targets f ts = CPots phis /\ close l err ts phis.
Proof.
  intros H. destruct (at_targets_ok f l err ts H) as (phis & E & C). exists phis. split; [|exact C]. unfold at_targets in E. unfold com_targets. destruct (mapM _ ts); [|discriminate]. cbn in E. injection E as ->. reflexivity.
Qed.

(** ** Sources and targets *)
Lemma moment_sources f l : moment f (map com_source l) = fold_right (fun s v => cq s * f (com_source s) + v) 0 l.
Proof. induction l as [|s l IH]; [reflexivity|]. cbn [map fold_right]. rewrite moment_cons, IH. reflexivity. Qed.
Lemma com_s_to_t l t : ComModel.S_to_T (map com_source l) (px t) (py t) (pz t) = potential l t.
Proof.
  rewrite <- (Rplus_0_l (potential l t)), <- (S_to_T_ok l t 0). unfold ComModel.S_to_T, PotModel.S_to_T. rewrite Rplus_0_l. match goal with |- fold_left ?f _ 0 = fold_left ?g _ 0 => assert (G : forall l v, fold_left f (map com_source l) v = fold_left g l v); [|apply G] end. clear l. induction l as [|s l IH]; intros v; [reflexivity|]. cbn [map fold_left]. rewrite IH. f_equal.
  cbn [com_source ComModel.charge sx sy sz]. set (m := (px t - px (cpos s)) * (px t - px (cpos s)) + (py t - py (cpos s)) * (py t - py (cpos s)) + (pz t - pz (cpos s)) * (pz t - pz (cpos s))). cbv zeta.
  rewrite norm3_dist. assert (E : dist (cpos s) t = sqrt m) by (unfold dist, m; f_equal; ring). rewrite E. assert (M0 : 0 <= m) by (unfold m; apply Rplus_le_le_0_compat; [apply Rplus_le_le_0_compat|]; apply Rle_0_sqr).
  destruct (Rlt_dec 0 m) as [P|P], (Rlt_dec 0 (sqrt m)) as [P'|P']; try reflexivity; exfalso.
  - apply P', sqrt_lt_R0, P.
  - apply P. replace m with 0 in P' by lra. rewrite sqrt_0 in P'. lra.
Qed.

Lemma com_source_pos l : (forall s, In s l -> 0 < cq s) -> List.Forall (fun s => 0 < ComModel.charge s) (map com_source l).
Proof. intros H. apply Forall_forall. intros x I. apply in_map_iff in I. destruct I as (s & <- & I). exact (H s I). Qed.
Lemma total_sources l : (forall s, In s l -> 0 < cq s) -> ComSpec.total (map com_source l) = total_charge l.
Proof.
  intros H. unfold ComSpec.total. rewrite moment_sources. unfold total_charge. induction l as [|s l IH]; [reflexivity|]. cbn [fold_right]. rewrite IH by (intros; apply H; right; assumption). rewrite Rabs_right by (left; apply H; left; reflexivity). ring.
Qed.
Lemma moment_potential l t : (forall s, In s l -> cpos s <> t) -> moment (fun s => / apart (px t) (py t) (pz t) s) (map com_source l) = potential l t.
Proof.
  intros H. rewrite potential_far by exact H. rewrite moment_sources. unfold coulomb. clear H. induction l as [|s l IH]; [reflexivity|]. cbn [fold_right]. rewrite IH. reflexivity.
Qed.

(** ** The error at a target *)
(** Charges in a box that a target sees under a small angle. *)
Lemma box_error corner size i l e t m : 0 < size -> l <> [] -> (forall s, In s l -> 0 < cq s) -> (forall s, In s l -> inside corner size i (cpos s)) ->
  expansion_of (map com_source l) e -> 0 < m -> m <= dist (middle corner size i) t - radius size (ilevel i) ->
  exists v, com_at e t = Ok v /\ Rabs (v - potential l t) <= 3 * total_charge l * (side size (ilevel i) * side size (ilevel i)) / (m * m * m).
Proof.
  intros Hs Ne Pos Ins Ex Hm Far. pose proof (side_pos size (ilevel i) Hs) as P. set (h := side size (ilevel i)) in *. set (c := middle corner size i) in *. set (L := map com_source l).
  assert (F : List.Forall (fun s => 0 < ComModel.charge s) L) by (apply com_source_pos, Pos). assert (NeL : L <> []) by (unfold L; destruct l; [contradiction|discriminate]).
  assert (Rb : radius size (ilevel i) * radius size (ilevel i) = 3 / 4 * (h * h)) by (unfold radius; fold h; replace (sqrt 3 / 2 * h * (sqrt 3 / 2 * h)) with (sqrt 3 * sqrt 3 / 4 * (h * h)) by field; rewrite sqrt_sqrt by lra; field).
  assert (Rp : 0 <= radius size (ilevel i)) by (unfold radius; fold h; pose proof (sqrt_pos 3); nra).
  assert (Sq : forall x y, dist x y * dist x y = (px x - px y) ^ 2 + (py x - py y) ^ 2 + (pz x - pz y) ^ 2) by (intros x y; unfold dist; apply sqrt_sqrt; apply Rplus_le_le_0_compat; [apply Rplus_le_le_0_compat|]; apply pow2_ge_0).
  destruct (spread L (px c) (py c) (pz c) (3 / 4 * (h * h)) F NeL) as [S1 S2].
  { intros s I. apply in_map_iff in I. destruct I as (x & <- & I). cbn [com_source sx sy sz]. rewrite <- Sq. rewrite <- Rb. pose proof (inside_radius corner size i (cpos x) Hs (Ins x I)) as D. fold c in D. rewrite dist_sym in D. assert (0 <= dist (cpos x) c) by (unfold dist; apply sqrt_pos). nra. }
  set (g := mkPt (centre sx L) (centre sy L) (centre sz L)). assert (Dg : dist c g <= radius size (ilevel i)).
  { apply Rsqr_incr_0_var; [|exact Rp]. unfold Rsqr. rewrite Sq, Rb. unfold g. cbn [px py pz]. replace ((px c - centre sx L) ^ 2 + (py c - centre sy L) ^ 2 + (pz c - centre sz L) ^ 2) with ((centre sx L - px c) ^ 2 + (centre sy L - py c) ^ 2 + (centre sz L - pz c) ^ 2) by ring. exact S2. }
  assert (Mg : m <= dist t g) by (pose proof (BhOwnProofs.triangle c g t); rewrite (dist_sym t g); lra).
  assert (Mx : forall s, In s l -> m <= dist t (cpos s)) by (intros s I; pose proof (BhOwnProofs.triangle c (cpos s) t); pose proof (inside_radius corner size i (cpos s) Hs (Ins s I)) as D; fold c in D; rewrite (dist_sym t); lra).
  pose proof (com_error L e (px t) (py t) (pz t) m F NeL Ex Hm) as B. unfold L in B at 3. rewrite moment_potential in B by (intros s I Es; specialize (Mx s I); rewrite Es in Mx; pose proof (Sq t t) as Z; replace ((px t - px t) ^ 2 + (py t - py t) ^ 2 + (pz t - pz t) ^ 2) with 0 in Z by ring; nra).
  destruct Ex as (_ & E2 & E3 & E4 & _). fold L in E2, E3, E4. exists (ComModel.M_to_T e (px t) (py t) (pz t)). split.
  - unfold com_at. rewrite E2, E3, E4. destruct (Req_EM_T _ 0) as [Z|_]; [|reflexivity]. exfalso. pose proof (Sq t g) as Q. unfold g in Q. cbn [px py pz] in Q. fold g in Q. nra.
  - eapply Rle_trans; [apply B|].
    + exact Mg.
    + intros s I. apply in_map_iff in I. destruct I as (x & <- & I). exact (Mx x I).
    + assert (Pm : 0 < m * m * m) by (repeat apply Rmult_lt_0_compat; assumption). unfold L in S1 at 3. rewrite total_sources in S1 by exact Pos. fold L in S1.
      replace (3 * total_charge l * (h * h) / (m * m * m)) with (4 / (m * m * m) * (total_charge l * (3 / 4 * (h * h)))) by (field; lra). apply Rmult_le_compat_l; [|exact S1]. left. apply Rdiv_lt_0_compat; lra.
Qed.

(** ** The Direct method *)
Section Direct.
Context (S : tree (list LapModel.charge)) (T : tree (list pt)) (Hg : gathered S).
Context (E : list edge) (NE : NoDup E) (HE : forall e, In e E <-> exists s q, leaf_at S s /\ leaf_at T q /\ e = mkEdge StoT (src s, Parts) (tgt q, Parts)).
Context (val : dnode -> cvalue) (Sv : solves cvalue_zero cvalue_add (com_edge (records T)) (com_leaf S) E val).
Notation chg := (records S).
Lemma com_direct_ok q : leaf_at T q -> exists phis, val (tgt q, Parts) = CPots phis /\ close (info S) 0 (records T q) phis.
Proof.
  intros Lq. rewrite (Sv (tgt q, Parts)). cbn [is_source tgt]. set (g := fun e => com_edge (records T) e (val (efrom e))).
  destruct (csum_ex CPots g (fun ls phis => close (flat_map chg ls) 0 (records T q) phis) (QD S)) with (es := LinkSpec.into (tgt q, Parts) E) as (ls & phis & Ep & Pp & Np & Ip).
  - intros l1 l2 a b H1 H2. destruct (close_cadd _ _ _ _ _ _ _ H1 H2) as (c & Ec & Cc). exists c. split; [exact Ec|]. rewrite flat_map_app. replace 0 with (0 + 0) by ring. exact Cc.
  - apply into_nodup, NE.
  - destruct (has_leaf S) as [s Ls]. intros Z. assert (J : In (mkEdge StoT (src s, Parts) (tgt q, Parts)) (LinkSpec.into (tgt q, Parts) E)) by (apply (into_D S T E HE); eauto). rewrite Z in J. exact J.
  - intros e J. apply (into_D S T E HE q e Lq) in J. destruct J as (c & Lc & ->). exists [c]. unfold g. cbn [efrom]. rewrite (Sv (src c, Parts)). cbn [is_source src]. unfold com_leaf, com_edge. cbn [eop efrom eto fst snd src tgt].
    destruct (com_targets_ok (fun t => Ok (ComModel.S_to_T (map com_source (chg c)) (px t) (py t) (pz t))) (flat_map chg [c]) 0 (records T q)) as (phis & Ea & Ca).
    + intros t It. eexists. split; [reflexivity|]. rewrite com_s_to_t. cbn [flat_map]. rewrite app_nil_r. rewrite Rminus_diag_eq, Rabs_R0 by reflexivity. lra.
    + exists phis. split; [exact Ea|]. split; [exact Ca|]. split; [constructor; [intros []|constructor]|]. intros s. unfold QD. cbn [efrom fst snd src In]. split; [intros [<-|[]]; auto|]. intros [_ ->]. auto.
  - intros e1 e2 s J1 J2 [_ Q1] [_ Q2]. apply (into_D S T E HE q _ Lq) in J1. apply (into_D S T E HE q _ Lq) in J2. destruct J1 as (c1 & _ & ->), J2 as (c2 & _ & ->). cbn in Q1, Q2. congruence.
  - exists phis. split; [exact Ep|]. apply (close_perm (flat_map chg ls)); [|exact Pp]. apply leaves_permute; [exact Hg|exact Np|]. intros s. rewrite Ip. split.
    + intros (e & _ & Q). apply Q.
    + intros Ls. exists (mkEdge StoT (src s, Parts) (tgt q, Parts)). split; [apply (into_D S T E HE); eauto|split; [exact Ls|reflexivity]].
Qed.
End Direct.

(** ** The Barnes-Hut method *)
Section BH.
Context (corner : pt) (size : R) (Hsize : 0 < size).
Context (S : tree (list LapModel.charge)) (T : tree (list pt)) (fuel h : nat) (HSl : lower fuel S).
Context (HSb : boxed cpos corner size S) (Hg : gathered S) (Hne : forall s, leaf_at S s -> records S s <> []) (Hpos : forall s, In s (info S) -> 0 < cq s).
Context (HSh : levels h S) (accept : path -> path -> bool) (theta : R) (Hth : 0 < theta < 2 / sqrt 3).
Context (Hacc : forall c q t, accept c q = true -> In t (records T q) -> side size (ilevel (idx_of c)) <= theta * dist (middle corner size (idx_of c)) t).
Context (E : list edge) (NE : NoDup E) (stop : path -> Prop).
Context (Hup : forall c e, sub S c <> None -> (In e E /\ eto e = (src c, Normal) <->
    (leaf_at S c /\ e = mkEdge StoM (src c, Parts) (src c, Normal)) \/ exists w, sub S (c ++ [w]) <> None /\ e = mkEdge MtoM (src (c ++ [w]), Normal) (src c, Normal))).
Context (Hto : forall q e, In e E -> eto e = (tgt q, Parts) -> exists c, sub S c <> None /\
    ((e = mkEdge MtoT (src c, Normal) (tgt q, Parts) /\ accept c q = true) \/ (e = mkEdge StoT (src c, Parts) (tgt q, Parts) /\ leaf_at S c))).
Context (Hone : forall s q, leaf_at S s -> stop q -> exists! es, chain E (src s, Parts) es (tgt q, Parts) /\ effective es).
Context (Hroute : forall s q es, chain E (src s, Parts) es (tgt q, Parts) -> bh_route s q es).
Context (val : dnode -> cvalue) (Sv : solves cvalue_zero cvalue_add (com_edge (records T)) (com_leaf S) E val).
Notation chg := (records S).

(** The charges below a box: they are there, positive, and in the box. *)
Lemma chg_pos s c : In s (chg c) -> 0 < cq s.
Proof. unfold records. destruct (sub S c) as [n|] eqn:Sc; [|intros []]. intros I. apply Hpos. eapply (records_root S Hg); eassumption. Qed.
Lemma flat_pos ls s : In s (flat_map chg ls) -> 0 < cq s.
Proof. intros I. apply in_flat_map in I. destruct I as (c & _ & I). exact (chg_pos s c I). Qed.
Lemma flat_ne ls : ls <> [] -> (forall s, In s ls -> leaf_at S s) -> flat_map chg ls <> [].
Proof. intros Ne H. destruct ls as [|c ls]; [contradiction|]. cbn [flat_map]. pose proof (Hne c (H c (or_introl eq_refl))) as X. destruct (chg c); [contradiction|discriminate]. Qed.

(** What a multipole stands for. *)
Definition stands (ls : list path) (t : com) : Prop := flat_map chg ls <> [] /\ expansion_of (map com_source (flat_map chg ls)) t.
Lemma stands_pos ls t : stands ls t -> 0 < mtot t.
Proof.
  intros [Ne (E1 & _)]. rewrite E1. destruct (total_pos (map com_source (flat_map chg ls)) (com_source_pos _ (fun s => flat_pos ls s))) as [X|X]; [|exact X]. destruct (flat_map chg ls); [contradiction|discriminate].
Qed.
Lemma stands_add l1 l2 a b : stands l1 a -> stands l2 b -> exists c, cvalue_add (CExp a) (CExp b) = CExp c /\ stands (l1 ++ l2) c.
Proof.
  intros H1 H2. pose proof (stands_pos _ _ H1) as P1. pose proof (stands_pos _ _ H2) as P2. destruct H1 as [N1 X1], H2 as [N2 X2]. destruct (cvalue_add_exp a b P1 P2) as (v & Ev & Ea & _). exists v. split; [exact Ev|].
  pose proof X1 as (T1 & _). pose proof X2 as (T2 & _). rewrite T1 in P1. rewrite T2 in P2.
  destruct (add_spec _ _ a b (or_intror (Rgt_not_eq _ _ P1)) (or_intror (Rgt_not_eq _ _ P2)) ltac:(rewrite ComProofs.total_app; lra) X1 X2) as (v' & Ev' & X). rewrite Ea in Ev'. injection Ev' as <-.
  split; [rewrite flat_map_app; destruct (flat_map chg l1); [contradiction|discriminate]|]. rewrite flat_map_app, map_app. exact X.
Qed.
Lemma com_up_ok : forall k c, (fuel - length c < k)%nat -> sub S c <> None ->
  exists ls t, val (src c, Normal) = CExp t /\ stands ls t /\ NoDup ls /\ forall s, In s ls <-> leaf_at S s /\ prefix c s.
Proof.
  induction k as [|k IH]; intros c Hk Sc; [lia|].
  rewrite (Sv (src c, Normal)). cbn [is_source src]. set (g := fun e => com_edge (records T) e (val (efrom e))).
  pose (Q := fun (e : edge) (s : path) => leaf_at S s /\ prefix (snd (fst (efrom e))) s).
  assert (Hin : forall e, In e (LinkSpec.into (src c, Normal) E) <-> (leaf_at S c /\ e = mkEdge StoM (src c, Parts) (src c, Normal)) \/ exists w, sub S (c ++ [w]) <> None /\ e = mkEdge MtoM (src (c ++ [w]), Normal) (src c, Normal)) by (intros e; rewrite into_in; apply Hup; assumption).
  change ((SrcTree, c), Normal) with (src c, Normal).
  destruct (csum_ex CExp g stands Q stands_add (LinkSpec.into (src c, Normal) E) (into_nodup E NE _)) as (ls & M & EM & UM & NM & IM).
  - destruct (sub S c) as [n|] eqn:Sn; [|congruence]. destruct (leaf_or S c n Sn) as [Lf|(w & Sw)]; intros Z.
    + assert (J : In (mkEdge StoM (src c, Parts) (src c, Normal)) (LinkSpec.into (src c, Normal) E)) by (apply Hin; left; auto). rewrite Z in J. exact J.
    + assert (J : In (mkEdge MtoM (src (c ++ [w]), Normal) (src c, Normal)) (LinkSpec.into (src c, Normal) E)) by (apply Hin; right; eauto). rewrite Z in J. exact J.
  - intros e J. apply Hin in J. destruct J as [[Lf ->]|(w & Sw & ->)].
    + exists [c]. unfold g. cbn [efrom]. rewrite (Sv (src c, Parts)). cbn [is_source src]. unfold com_leaf, com_edge. cbn [eop efrom eto fst snd src].
      exists (ComModel.S_to_M (map com_source (chg c))). split; [reflexivity|]. split; [|split; [constructor; [intros []|constructor]|]].
      * assert (N : flat_map chg [c] <> []) by (apply flat_ne; [discriminate|]; intros s [<-|[]]; exact Lf). split; [exact N|]. cbn [flat_map] in N |- *. rewrite app_nil_r in N |- *. apply S_to_M_spec.
        destruct (total_pos (map com_source (chg c)) (com_source_pos _ (fun s I => chg_pos s c I))) as [X|X]; [destruct (chg c); [contradiction|discriminate]|lra].
      * intros s. unfold Q. cbn [efrom fst snd src]. split; [intros [<-|[]]; split; [exact Lf|exists []; symmetry; apply app_nil_r]|]. intros [Ls Ps]. left. symmetry. eapply leaf_only; [exact Lf|exact Ps|apply leaf_sub, Ls].
    + destruct (IH (c ++ [w])) as (ls & M & EM & UM & NM & IM).
      * destruct (sub S (c ++ [w])) as [n|] eqn:Sn; [|congruence]. pose proof (HSl _ _ Sn) as Lw. rewrite app_length in *. cbn [length] in *. lia.
      * exact Sw.
      * exists ls, M. unfold g. cbn [efrom]. rewrite EM. unfold com_edge. cbn [eop efrom eto fst snd src]. split; [reflexivity|]. split; [exact UM|]. split; [exact NM|]. exact IM.
  - intros e1 e2 s J1 J2 [Ls Q1] [_ Q2]. apply Hin in J1. apply Hin in J2. destruct J1 as [[L1 ->]|(w1 & S1 & ->)], J2 as [[L2 ->]|(w2 & S2 & ->)]; cbn [efrom fst snd src] in *.
    + reflexivity.
    + exfalso. destruct L1 as (n & En & K). rewrite sub_snoc, En, K in S2. congruence.
    + exfalso. destruct L2 as (n & En & K). rewrite sub_snoc, En, K in S1. congruence.
    + assert (X : c ++ [w1] = c ++ [w2]) by (eapply prefix_eq; [exact Q1|exact Q2|rewrite !app_length; reflexivity]). apply app_inj_tail in X. destruct X as [_ ->]. reflexivity.
  - exists ls, M. split; [exact EM|]. split; [exact UM|]. split; [exact NM|]. intros s. rewrite IM. split.
    + intros (e & J & Ls & Ps). split; [exact Ls|]. apply Hin in J. destruct J as [[_ ->]|(w & _ & ->)]; cbn [efrom fst snd src] in Ps; [exact Ps|]. eapply prefix_trans; [|exact Ps]. exists [w]. reflexivity.
    + intros [Ls Ps]. destruct (prefix_snoc_inv c s Ps) as [->|(w & Pw)].
      * exists (mkEdge StoM (src c, Parts) (src c, Normal)). split; [apply Hin; left; auto|]. split; [exact Ls|exact Ps].
      * exists (mkEdge MtoM (src (c ++ [w]), Normal) (src c, Normal)). split; [|split; [exact Ls|exact Pw]]. apply Hin. right. exists w. split; [|reflexivity]. destruct Pw as [r ->]. apply leaf_sub in Ls. rewrite sub_app in Ls. destruct (sub S (c ++ [w])); congruence.
Qed.

(** The error for one unit of charge seen under the angle [theta]. *)
Definition Kc : R := 3 / (1 / theta - sqrt 3 / 2) ^ 3 / side size (Z.of_nat h).
Lemma Kc_nonneg : 0 <= Kc.
Proof. destruct (theta_facts theta Hth) as [_ B]. unfold Kc. apply div_nonneg; [|apply side_pos, Hsize]. apply div_nonneg; [lra|apply pow_lt, B]. Qed.
Lemma com_mtt c q t ls M : sub S c <> None -> accept c q = true -> In t (records T q) ->
  stands ls M -> (forall s, In s ls -> leaf_at S s /\ prefix c s) ->
  exists v, com_at M t = Ok v /\ Rabs (v - potential (flat_map chg ls) t) <= total_charge (flat_map chg ls) * Kc.
Proof.
  intros Sc Ac It [Ne X] IM. pose proof (Hacc c q t Ac It) as Far. destruct (theta_facts theta Hth) as [_ Th2]. set (i := idx_of c) in *. pose proof (side_pos size (ilevel i) Hsize) as P. destruct Hth as [T0 _].
  set (d := dist (middle corner size i) t) in *. set (s := side size (ilevel i)) in *. assert (Er : radius size (ilevel i) = sqrt 3 / 2 * s) by reflexivity. set (k := 1 / theta - sqrt 3 / 2) in *.
  assert (D1 : 1 / theta * s <= d) by (apply Rmult_le_reg_l with theta; [exact T0|]; unfold Rdiv; rewrite <- Rmult_assoc, Rmult_1_l, Rinv_r by lra; lra).
  assert (D2 : k * s <= d - radius size (ilevel i)) by (rewrite Er; unfold k; lra). assert (D3 : 0 < k * s) by (apply Rmult_lt_0_compat; assumption).
  destruct (box_error corner size i (flat_map chg ls) M t (k * s) Hsize Ne (flat_pos ls)) as (v & Ev & Bv); [|exact X|exact D3|exact D2|].
  { intros x J. apply in_flat_map in J. destruct J as (s' & Js & J). destruct (IM s' Js) as [_ Ps]. apply (chg_inside corner size S HSb). exact (records_below S c s' x Hg Ps J). }
  exists v. split; [exact Ev|]. eapply Rle_trans; [exact Bv|]. fold s. set (m := total_charge (flat_map chg ls)). assert (M0 : 0 <= m) by apply total_nonneg.
  replace (3 * m * (s * s) / (k * s * (k * s) * (k * s))) with (m * (3 / k ^ 3 * / s)) by (field; lra). apply Rmult_le_compat_l; [exact M0|]. unfold Kc. fold k. apply Rmult_le_compat_l; [apply div_nonneg; [lra|apply pow_lt, Th2]|].
  apply Rinv_le_contravar; [apply side_pos, Hsize|]. unfold s, i. rewrite idx_level. pose proof (HSh c Sc) as L. rewrite (side_down size (Z.of_nat (length c)) (Z.of_nat h - Z.of_nat (length c))) by lia. replace (Z.of_nat (length c) + (Z.of_nat h - Z.of_nat (length c)))%Z with (Z.of_nat h) by lia.
  pose proof (side_pos size (Z.of_nat h) Hsize) as P'. assert (O : 1 <= IZR (2 ^ (Z.of_nat h - Z.of_nat (length c)))) by (apply IZR_le; assert (0 < 2 ^ (Z.of_nat h - Z.of_nat (length c)))%Z by (apply Z.pow_pos_nonneg; lia); lia). nra.
Qed.

Lemma com_bh_ok q : stop q -> exists phis, val (tgt q, Parts) = CPots phis /\ close (info S) (total_charge (info S) * Kc) (records T q) phis.
Proof.
  intros R.
  assert (Cover : forall s, leaf_at S s -> exists e, In e (LinkSpec.into (tgt q, Parts) E) /\ QB S e s).
  { intros s Ls. destruct (Hone s q Ls R) as (es & (C & _) & _). destruct (Hroute s q es C) as [-> |(c & ups & Pc & _ & ->)].
    - destruct (chain_last E [] _ _ _ C) as [I Et]. exists (mkEdge StoT (src s, Parts) (tgt q, Parts)). split; [apply into_in; auto|]. split; [exact Ls|reflexivity].
    - rewrite app_comm_cons in C. destruct (chain_last E _ _ _ _ C) as [I Et]. exists (mkEdge MtoT (src c, Normal) (tgt q, Parts)). split; [apply into_in; auto|]. split; [exact Ls|exact Pc]. }
  rewrite (Sv (tgt q, Parts)). cbn [is_source tgt]. set (g := fun e => com_edge (records T) e (val (efrom e))).
  destruct (csum_ex CPots g (fun ls phis => close (flat_map chg ls) (total_charge (flat_map chg ls) * Kc) (records T q) phis) (QB S)) with (es := LinkSpec.into (tgt q, Parts) E) as (ls & phis & Ep & Pp & Np & Ip).
  - intros l1 l2 a b H1 H2. destruct (close_cadd _ _ _ _ _ _ _ H1 H2) as (c & Ec & Cc). exists c. split; [exact Ec|]. rewrite flat_map_app, PotProofs.total_app, Rmult_plus_distr_r. exact Cc.
  - apply into_nodup, NE.
  - destruct (has_leaf S) as [s Ls]. destruct (Cover s Ls) as (e & I & _). intros Z. rewrite Z in I. exact I.
  - intros e J. apply into_in in J. destruct J as [J Et]. destruct (Hto q e J Et) as (c & Sc & [[-> Ac]|[-> Lc]]).
    + destruct (com_up_ok (Datatypes.S fuel) c ltac:(lia) Sc) as (ls & M & EM & UM & NM & IM). exists ls. unfold g. cbn [efrom]. rewrite EM. unfold com_edge. cbn [eop efrom eto fst snd src tgt].
      edestruct com_targets_ok as (phis & Ea & Ca); [intros t It; exact (com_mtt c q t ls M Sc Ac It UM (fun s I => proj1 (IM s) I))|]. exists phis. split; [exact Ea|]. split; [exact Ca|]. split; [exact NM|]. exact IM.
    + exists [c]. unfold g. cbn [efrom]. rewrite (Sv (src c, Parts)). cbn [is_source src]. unfold com_leaf, com_edge. cbn [eop efrom eto fst snd src tgt].
      destruct (com_targets_ok (fun t => Ok (ComModel.S_to_T (map com_source (chg c)) (px t) (py t) (pz t))) (flat_map chg [c]) (total_charge (flat_map chg [c]) * Kc) (records T q)) as (phis & Ea & Ca).
      * intros t It. eexists. split; [reflexivity|]. rewrite com_s_to_t. cbn [flat_map]. rewrite app_nil_r. rewrite Rminus_diag_eq, Rabs_R0 by reflexivity. apply Rmult_le_pos; [apply total_nonneg|apply Kc_nonneg].
      * exists phis. split; [exact Ea|]. split; [exact Ca|]. split; [constructor; [intros []|constructor]|]. intros s. unfold QB. cbn [eop efrom fst snd src In]. split; [intros [<-|[]]; auto|]. intros [_ ->]. auto.
  - intros e1 e2 s J1 J2 Q1 Q2. apply into_in in J1. apply into_in in J2. destruct J1 as [J1 E1], J2 as [J2 E2]. assert (Ls : leaf_at S s) by (unfold QB in Q1; destruct (eop e1); apply Q1).
    destruct (route_ok S accept E Hup Hto q e1 s J1 E1 Q1) as (es1 & C1). destruct (route_ok S accept E Hup Hto q e2 s J2 E2 Q2) as (es2 & C2). destruct (Hone s q Ls R) as (es & _ & U). pose proof (U _ C1) as A1. pose proof (U _ C2) as A2. rewrite A1 in A2. apply app_inj_tail in A2. apply A2.
  - exists phis. split; [exact Ep|]. assert (Pm : Permutation (flat_map chg ls) (info S)).
    { apply leaves_permute; [exact Hg|exact Np|]. intros s. rewrite Ip. split.
      - intros (e & J & Q). unfold QB in Q. destruct (eop e); apply Q.
      - apply Cover. }
    rewrite (total_perm _ _ Pm) in Pp. eapply close_perm; eassumption.
Qed.
End BH.
