(** The values at the nodes of the DAG of the direct method, for every kernel, and of the
    Barnes-Hut method with LaplaceCOMAcc. *)
From Coq Require Import Reals ZArith List Bool Arith Lia Lra Psatz Permutation.
From Verif Require Import Base ListFacts IndexModel TreeModel TreeFacts LookupModel DagModel DagSpec DagProofs DagPaths MethodModel MethodTasks LinkSpec EvalModel EvalSpec ComModel ComSpec ComProofs ComRunMath LapModel LapSpec LapArrays LapProofs TranModel TranSpec TranProofs PotModel PotSpec PotFacts PotBoxes PotUp PotProofs PotOther BhOwnProofs ComRunModel ComRunProofs AccModel AccSpec AccProofs FieldRunModel FieldRunSpec.
Import ListNotations.
Open Scope R_scope.

Section Generic.
Context {G : Type} (gadd : G -> G -> G) (gcomm : forall a b, gadd a b = gadd b a) (gassoc : forall a b c, gadd a (gadd b c) = gadd (gadd a b) c).
Notation fzero := (@fvalue_zero G).
Notation fadd := (fvalue_add gadd).
Notation fvals := (@FVals G).

(** ** The addition of values *)
Lemma vadd_nil a : vadd gadd a [] = a.
Proof. destruct a; reflexivity. Qed.
Lemma vadd_comm a : forall b, vadd gadd a b = vadd gadd b a.
Proof. induction a as [|x a IH]; intros b; [rewrite vadd_nil; reflexivity|]. destruct b as [|y b]; [reflexivity|]. cbn [vadd]. rewrite IH, gcomm. reflexivity. Qed.
Lemma vadd_assoc a : forall b c, vadd gadd a (vadd gadd b c) = vadd gadd (vadd gadd a b) c.
Proof.
  induction a as [|x a IH]; intros b c; [reflexivity|]. destruct b as [|y b]; [reflexivity|]. destruct c as [|z c]; [reflexivity|]. cbn [vadd]. rewrite IH, gassoc. reflexivity.
Qed.
Lemma fvalue_add_vals a b : fadd (FVals a) (FVals b) = FVals (vadd gadd a b).
Proof. destruct a, b; reflexivity. Qed.
Lemma fvalue_zero_r v : fadd v fzero = v.
Proof. destruct v as [l|t|[|x a]|]; reflexivity. Qed.
Lemma fvalue_add_exp t u : 0 < mtot t -> 0 < mtot u -> fadd (FExp t) (FExp u) = FExp (acc_add t u) /\ 0 < mtot (acc_add t u) /\ ComModel.add_expansion t u = Ok (acc_add t u).
Proof.
  intros Ht Hu. cbn [fvalue_add]. destruct (Rlt_dec 0 (mtot t)) as [_|]; [|contradiction]. destruct (Rlt_dec 0 (mtot u)) as [_|]; [|contradiction]. destruct (add_pos t u Ht Hu) as (v & E & P). rewrite acc_add_eq in * by lra. injection E as <-. auto.
Qed.
Lemma fvalue_not_pos t u : ~ 0 < mtot t \/ ~ 0 < mtot u -> fadd (FExp t) (FExp u) = FBroken.
Proof. intros H. cbn [fvalue_add]. destruct (Rlt_dec 0 (mtot t)); [|reflexivity]. destruct (Rlt_dec 0 (mtot u)); [|reflexivity]. tauto. Qed.
Lemma fvalue_broken v : fadd FBroken v = FBroken.
Proof. destruct v as [l|t|[|x a]|]; reflexivity. Qed.
Lemma fvalue_exps t u : (fadd (FExp t) (FExp u) = FExp (acc_add t u) /\ ComModel.add_expansion t u = Ok (acc_add t u) /\ 0 < mtot t /\ 0 < mtot u /\ 0 < mtot (acc_add t u)) \/ (fadd (FExp t) (FExp u) = FBroken /\ (~ 0 < mtot t \/ ~ 0 < mtot u)).
Proof.
  destruct (Rlt_dec 0 (mtot t)) as [Ht|Ht]; [|right; split; [apply fvalue_not_pos|]; auto]. destruct (Rlt_dec 0 (mtot u)) as [Hu|Hu]; [|right; split; [apply fvalue_not_pos|]; auto].
  left. destruct (fvalue_add_exp t u Ht Hu) as (E & P & E'). auto.
Qed.
Lemma fvalue_comm u v : fadd u v = fadd v u.
Proof.
  destruct u as [l|t|[|x a]|], v as [m|u|[|y b]|]; try reflexivity.
  - destruct (fvalue_exps t u) as [(E & E1 & P1 & P2 & _)|[E N]].
    + rewrite E. destruct (fvalue_add_exp u t P2 P1) as (E' & _ & E2). rewrite E'. rewrite (com_comm t u P1 P2), E2 in E1. congruence.
    + rewrite E. symmetry. apply fvalue_not_pos. tauto.
  - cbn [fvalue_add]. rewrite vadd_comm. reflexivity.
Qed.
Lemma fvalue_assoc u v w : fadd u (fadd v w) = fadd (fadd u v) w.
Proof.
  destruct u as [l|t|[|x a]|], v as [m|u|[|y b]|], w as [n|v|[|z c]|]; try reflexivity; try (cbn [fvalue_add vadd]; rewrite ?vadd_nil; reflexivity).
  all: try (change (FVals []) with fzero; rewrite !fvalue_zero_r; reflexivity).
  all: try (match goal with |- fvalue_add _ ?a (fvalue_add _ (FExp ?t) (FExp ?u)) = _ => destruct (fvalue_exps t u) as [(E & _)|[E _]]; rewrite E; reflexivity end).
  all: try (match goal with |- _ = fvalue_add _ (fvalue_add _ (FExp ?t) (FExp ?u)) _ => destruct (fvalue_exps t u) as [(E & _)|[E _]]; rewrite E; reflexivity end).
  - destruct (fvalue_exps u v) as [(E & E1 & Pu & Pv & Pa)|[E N]], (fvalue_exps t u) as [(F & F1 & Pt & Pu' & Pb)|[F N']]; rewrite E, F.
    + destruct (fvalue_add_exp t _ Pt Pa) as (G1 & _ & G2). destruct (fvalue_add_exp _ v Pb Pv) as (H1 & _ & H2). rewrite G1, H1. rewrite (com_assoc t u v _ _ Pt Pu Pv E1 F1), H2 in G2. congruence.
    + rewrite fvalue_broken. apply fvalue_not_pos. tauto.
    + rewrite (fvalue_comm _ FBroken), fvalue_broken. symmetry. apply fvalue_not_pos. tauto.
    + rewrite (fvalue_comm _ FBroken), !fvalue_broken. reflexivity.
  - rewrite !fvalue_add_vals, vadd_assoc. reflexivity.
Qed.
Lemma fvalue_monoid : monoid fzero fadd.
Proof. split; [exact fvalue_comm|]. split; [exact fvalue_assoc|]. intros [l|t|[|x a]|]; reflexivity. Qed.

(** ** Sums over the inputs of a node *)
Section Sum.
Context {V : Type} (inj : V -> fvalue G) (g : edge -> fvalue G) (P : list path -> V -> Prop) (Q : edge -> path -> Prop).
Context (Padd : forall l1 l2 a b, P l1 a -> P l2 b -> exists c, fadd (inj a) (inj b) = inj c /\ P (l1 ++ l2) c).
Lemma fsum_ex : forall es, NoDup es -> es <> [] ->
  (forall e, In e es -> exists ls a, g e = inj a /\ P ls a /\ NoDup ls /\ forall s, In s ls <-> Q e s) ->
  (forall e1 e2 s, In e1 es -> In e2 es -> Q e1 s -> Q e2 s -> e1 = e2) ->
  exists ls a, sum fzero fadd (map g es) = inj a /\ P ls a /\ NoDup ls /\ forall s, In s ls <-> exists e, In e es /\ Q e s.
Proof.
  induction es as [|e es IH]; intros N Ne H D; [contradiction|]. inversion N as [|? ? Ni Nes]; subst. destruct (H e (or_introl eq_refl)) as (ls & a & Ea & Pa & Na & Ia).
  destruct es as [|e' es].
  - exists ls, a. cbn [map]. change (sum fzero fadd [g e]) with (fadd (g e) fzero). rewrite Ea, fvalue_zero_r. split; [reflexivity|]. split; [exact Pa|]. split; [exact Na|].
    intros s. rewrite Ia. split; [intros X; exists e; split; [left; reflexivity|exact X]|]. intros (x & [<-|[]] & X). exact X.
  - destruct IH as (ls' & b & Eb & Pb & Nb & Ib); [exact Nes|discriminate|intros; apply H; right; assumption|intros e1 e2 s I1 I2; apply D; right; assumption|].
    destruct (Padd ls ls' a b Pa Pb) as (c & Ec & Pc). exists (ls ++ ls'), c. rewrite map_cons. change (sum fzero fadd (g e :: map g (e' :: es))) with (fadd (g e) (sum fzero fadd (map g (e' :: es)))). rewrite Ea, Eb. split; [exact Ec|]. split; [exact Pc|]. split.
    + apply nodup_join; [exact Na|exact Nb|]. intros s I J. apply Ia in I. apply Ib in J. destruct J as (x & Ix & J). apply Ni. rewrite (D e x s); [exact Ix|left; reflexivity|right; exact Ix|exact I|exact J].
    + intros s. rewrite in_app_iff, Ia, Ib. split.
      * intros [X|(x & Ix & X)]; [exists e; split; [left; reflexivity|exact X]|exists x; split; [right; exact Ix|exact X]].
      * intros (x & [<-|Ix] & X); [left; exact X|right; eauto].
Qed.
End Sum.

(** ** Values that are near what the charges make *)
Context (near : list LapModel.charge -> R -> pt -> G -> Prop).
Context (near_add : forall l1 l2 e1 e2 t a b, near l1 e1 t a -> near l2 e2 t b -> near (l1 ++ l2) (e1 + e2) t (gadd a b)).
Context (near_perm : forall l l' e t a, Permutation l l' -> near l e t a -> near l' e t a).
Definition all_near (l : list LapModel.charge) (err : R) (ts : list pt) (vs : list G) : Prop := Forall2 (near l err) ts vs.
Lemma all_near_add ts : forall l1 l2 e1 e2 a b, all_near l1 e1 ts a -> all_near l2 e2 ts b -> all_near (l1 ++ l2) (e1 + e2) ts (vadd gadd a b).
Proof. unfold all_near. induction ts as [|t ts IH]; intros l1 l2 e1 e2 a b Ha Hb; inversion Ha; inversion Hb; subst; cbn [vadd]; constructor; auto. Qed.
Lemma near_fadd l1 l2 e1 e2 ts a b : all_near l1 e1 ts a -> all_near l2 e2 ts b -> exists c, fadd (FVals a) (FVals b) = FVals c /\ all_near (l1 ++ l2) (e1 + e2) ts c.
Proof. intros Ha Hb. exists (vadd gadd a b). split; [apply fvalue_add_vals|]. apply all_near_add; assumption. Qed.
Lemma all_near_perm l l' e ts vs : Permutation l l' -> all_near l e ts vs -> all_near l' e ts vs.
Proof. intros P H. unfold all_near in *. induction H; constructor; [eapply near_perm; eassumption|assumption]. Qed.
Lemma for_targets_ok f l err ts : (forall t, In t ts -> exists v, f t = Ok v /\ near l err t v) -> exists vs, for_targets f ts = FVals vs /\ all_near l err ts vs.
Proof.
  intros H. unfold for_targets. assert (X : exists vs, mapM f ts = Ok vs /\ all_near l err ts vs).
  { induction ts as [|t ts IH]; [exists []; split; [reflexivity|constructor]|]. destruct (H t (or_introl eq_refl)) as (v & Ev & Bv). destruct IH as (vs & Ep & Cp); [intros; apply H; right; assumption|]. exists (v :: vs). cbn [mapM]. rewrite Ev. cbn [bind]. rewrite Ep. cbn [bind]. split; [reflexivity|]. constructor; assumption. }
  destruct X as (vs & -> & C). exists vs. split; [reflexivity|exact C].
Qed.

(** ** The Direct method *)
Section Direct.
Context (kernel : list LapModel.charge -> pt -> res G) (Hk : forall l t, exists v, kernel l t = Ok v /\ near l 0 t v).
Context (op_val : edge -> fvalue G -> fvalue G) (S : tree (list LapModel.charge)) (T : tree (list pt)) (Hg : gathered S).
Context (Hop : forall s q l, op_val (mkEdge StoT (src s, Parts) (tgt q, Parts)) (FSources l) = for_targets (kernel l) (records T q)).
Context (E : list edge) (NE : NoDup E) (HE : forall e, In e E <-> exists s q, leaf_at S s /\ leaf_at T q /\ e = mkEdge StoT (src s, Parts) (tgt q, Parts)).
Context (val : dnode -> fvalue G) (Sv : solves fzero fadd op_val (field_leaf S) E val).
Notation chg := (records S).
Lemma field_direct_ok q : leaf_at T q -> exists vs, val (tgt q, Parts) = FVals vs /\ all_near (info S) 0 (records T q) vs.
Proof.
  intros Lq. rewrite (Sv (tgt q, Parts)). cbn [is_source tgt]. set (g := fun e => op_val e (val (efrom e))).
  destruct (fsum_ex fvals g (fun ls vs => all_near (flat_map chg ls) 0 (records T q) vs) (QD S)) with (es := LinkSpec.into (tgt q, Parts) E) as (ls & vs & Ep & Pp & Np & Ip).
  - intros l1 l2 a b H1 H2. destruct (near_fadd _ _ _ _ _ _ _ H1 H2) as (c & Ec & Cc). exists c. split; [exact Ec|]. rewrite flat_map_app. replace 0 with (0 + 0) by ring. exact Cc.
  - apply into_nodup, NE.
  - destruct (has_leaf S) as [s Ls]. intros Z. assert (J : In (mkEdge StoT (src s, Parts) (tgt q, Parts)) (LinkSpec.into (tgt q, Parts) E)) by (apply (into_D S T E HE); eauto). rewrite Z in J. exact J.
  - intros e J. apply (into_D S T E HE q e Lq) in J. destruct J as (c & Lc & ->). exists [c]. unfold g. cbn [efrom]. rewrite (Sv (src c, Parts)). cbn [is_source src]. unfold field_leaf. cbn [fst snd src]. change (SrcTree, c) with (src c). change (TgtTree, q) with (tgt q). rewrite Hop.
    destruct (for_targets_ok (kernel (chg c)) (flat_map chg [c]) 0 (records T q)) as (vs & Ea & Ca).
    + intros t It. cbn [flat_map]. rewrite app_nil_r. apply Hk.
    + exists vs. split; [exact Ea|]. split; [exact Ca|]. split; [constructor; [intros []|constructor]|]. intros s. unfold QD. cbn [efrom fst snd src In]. split; [intros [<-|[]]; auto|]. intros [_ ->]. auto.
  - intros e1 e2 s J1 J2 [_ Q1] [_ Q2]. apply (into_D S T E HE q _ Lq) in J1. apply (into_D S T E HE q _ Lq) in J2. destruct J1 as (c1 & _ & ->), J2 as (c2 & _ & ->). cbn in Q1, Q2. congruence.
  - exists vs. split; [exact Ep|]. apply (all_near_perm (flat_map chg ls)); [|exact Pp]. apply leaves_permute; [exact Hg|exact Np|]. intros s. rewrite Ip. split.
    + intros (e & _ & Q). apply Q.
    + intros Ls. exists (mkEdge StoT (src s, Parts) (tgt q, Parts)). split; [apply (into_D S T E HE); eauto|split; [exact Ls|reflexivity]].
Qed.
End Direct.
End Generic.

(** ** Fields *)
Lemma add3_comm a b : add3 a b = add3 b a.
Proof. destruct a as [[a1 a2] a3], b as [[b1 b2] b3]. cbn [add3]. f_equal; [f_equal|]; ring. Qed.
Lemma add3_assoc a b c : add3 a (add3 b c) = add3 (add3 a b) c.
Proof. destruct a as [[a1 a2] a3], b as [[b1 b2] b3], c as [[c1 c2] c3]. cbn [add3]. f_equal; [f_equal|]; ring. Qed.
Lemma others_app t l1 l2 : others t (l1 ++ l2) = others t l1 ++ others t l2.
Proof. apply filter_app. Qed.
Lemma others_perm t l l' : Permutation l l' -> Permutation (others t l) (others t l').
Proof.
  intros P. unfold others. induction P as [|x l l' P IH|x y l|l1 l2 l3 P1 IH1 P2 IH2]; cbn [filter]; [constructor| | |eapply perm_trans; eassumption].
  - destruct (pt_dec (cpos x) t); [exact IH|apply perm_skip, IH].
  - destruct (pt_dec (cpos x) t), (pt_dec (cpos y) t); try apply Permutation_refl. apply perm_swap.
Qed.
Lemma others_far t l : (forall s, In s l -> cpos s <> t) -> others t l = l.
Proof. intros H. unfold others. induction l as [|s l IH]; [reflexivity|]. cbn [filter]. destruct (pt_dec (cpos s) t) as [E|_]; [destruct (H s (or_introl eq_refl) E)|]. rewrite IH; [reflexivity|]. intros; apply H; right; assumption. Qed.
Lemma others_in t l s : In s (others t l) -> In s l /\ cpos s <> t.
Proof. intros I. apply filter_In in I. destruct I as [I E]. destruct (pt_dec (cpos s) t); [discriminate|auto]. Qed.
(** Sums over charges. *)
Lemma fold_sum_app f (l1 l2 : list LapModel.charge) : fold_right (fun s v => f s + v) 0 (l1 ++ l2) = fold_right (fun s v => f s + v) 0 l1 + fold_right (fun s v => f s + v) 0 l2.
Proof. induction l1 as [|s l IH]; cbn [app fold_right]; [ring|]. rewrite IH. ring. Qed.
Lemma fold_sum_perm f (l l' : list LapModel.charge) : Permutation l l' -> fold_right (fun s v => f s + v) 0 l = fold_right (fun s v => f s + v) 0 l'.
Proof. intros P. induction P; cbn [fold_right]; try lra. Qed.
Lemma pull_app c l1 l2 t : pull_along c (l1 ++ l2) t = pull_along c l1 t + pull_along c l2 t.
Proof. apply fold_sum_app. Qed.
Lemma pull_perm c l l' t : Permutation l l' -> pull_along c l t = pull_along c l' t.
Proof. apply fold_sum_perm. Qed.
Lemma field_app l1 l2 t : field (l1 ++ l2) t = add3 (field l1 t) (field l2 t).
Proof. unfold field. rewrite others_app, !pull_app. reflexivity. Qed.
Lemma field_perm l l' t : Permutation l l' -> field l t = field l' t.
Proof. intros P. unfold field. rewrite !(fun c => pull_perm c _ _ t (others_perm t _ _ P)). reflexivity. Qed.
Lemma dist3_add a b c d : dist3 (add3 a b) (add3 c d) <= dist3 a c + dist3 b d.
Proof.
  destruct a as [[a1 a2] a3], b as [[b1 b2] b3], c as [[c1 c2] c3], d as [[d1 d2] d3]. cbn [add3 dist3].
  pose proof (BhOwnProofs.triangle (mkPt 0 0 0) (mkPt (a1 - c1) (a2 - c2) (a3 - c3)) (mkPt (a1 - c1 + (b1 - d1)) (a2 - c2 + (b2 - d2)) (a3 - c3 + (b3 - d3)))) as H. unfold dist in H. cbn [px py pz] in H.
  eapply Rle_trans; [|eapply Rle_trans; [exact H|]]; right; [f_equal; ring|]. f_equal; f_equal; ring.
Qed.
Definition near_field (l : list LapModel.charge) (err : R) (t : pt) (v : R * R * R) : Prop := dist3 v (field l t) <= err.
Lemma near_field_add l1 l2 e1 e2 t a b : near_field l1 e1 t a -> near_field l2 e2 t b -> near_field (l1 ++ l2) (e1 + e2) t (add3 a b).
Proof. unfold near_field. intros H1 H2. rewrite field_app. pose proof (dist3_add a b (field l1 t) (field l2 t)). lra. Qed.
Lemma near_field_perm l l' e t a : Permutation l l' -> near_field l e t a -> near_field l' e t a.
Proof. unfold near_field. intros P. rewrite (field_perm _ _ t P). auto. Qed.
Lemma dist3_same a : dist3 a a = 0.
Proof. destruct a as [[a1 a2] a3]. cbn [dist3]. rewrite <- sqrt_0. f_equal. ring. Qed.
Lemma acc_direct_ok l t : acc_S_to_T (map com_source l) (px t) (py t) (pz t) = field l t.
Proof.
  unfold acc_S_to_T. match goal with |- fold_left ?f _ _ = _ => set (F := f) end.
  assert (K : forall l a b c, fold_left F (map com_source l) (a, b, c) = add3 (a, b, c) (field l t)).
  { clear l. induction l as [|s l IH]; intros a b c; [unfold field; cbn; f_equal; [f_equal|]; ring|]. cbn [map fold_left]. unfold F at 2. cbn [com_source ComModel.charge sx sy sz]. cbv zeta.
    set (m := (px t - px (cpos s)) * (px t - px (cpos s)) + (py t - py (cpos s)) * (py t - py (cpos s)) + (pz t - pz (cpos s)) * (pz t - pz (cpos s))).
    assert (Ed : dist t (cpos s) = sqrt m) by (unfold dist, m; f_equal; ring).
    destruct (Rlt_dec 0 m) as [P|P].
    - rewrite IH. change (s :: l) with ([s] ++ l). rewrite field_app. assert (N : cpos s <> t) by (intros Z; unfold m in P; rewrite Z in P; lra).
      unfold field at 2. rewrite others_far by (intros x [<-|[]]; exact N). unfold pull_along. cbn [fold_right]. rewrite Ed. rewrite add3_assoc. f_equal. cbn [add3]. assert (Pq : 0 < sqrt m) by (apply sqrt_lt_R0, P). assert (Sq : sqrt m * sqrt m = m) by (apply sqrt_sqrt; lra).
      clearbody m. generalize dependent (sqrt m). intros q Eq Pq Sq. rewrite <- Sq. f_equal; [f_equal|]; field; lra.
    - rewrite IH. change (s :: l) with ([s] ++ l). rewrite field_app. assert (N : cpos s = t).
      { assert (X : 0 <= (px t - px (cpos s)) * (px t - px (cpos s))) by apply Rle_0_sqr. assert (Y : 0 <= (py t - py (cpos s)) * (py t - py (cpos s))) by apply Rle_0_sqr. assert (Z : 0 <= (pz t - pz (cpos s)) * (pz t - pz (cpos s))) by apply Rle_0_sqr. unfold m in P.
        destruct (cpos s) as [x y z], t as [x' y' z']. cbn [px py pz] in *. f_equal; symmetry; apply Rminus_diag_uniq, Rsqr_0_uniq; unfold Rsqr; lra. }
      unfold field at 2. unfold others. cbn [filter]. destruct (pt_dec (cpos s) t) as [_|]; [|contradiction]. unfold pull_along. cbn [fold_right add3]. destruct (field l t) as [[f1 f2] f3]. cbn [add3]. f_equal; [f_equal|]; ring. }
  rewrite K. destruct (field l t) as [[f1 f2] f3]. cbn [add3]. f_equal; [f_equal|]; ring.
Qed.
Lemma acc_kernel_ok l t : exists v, acc_kernel l t = Ok v /\ near_field l 0 t v.
Proof. eexists. split; [reflexivity|]. rewrite acc_direct_ok. unfold near_field. rewrite dist3_same. lra. Qed.
