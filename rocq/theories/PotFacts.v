(** Facts for the potentials: sums of values, sums over charges, leaves, boxes. *)
From Coq Require Import Reals ZArith List Bool Arith Lia Lra Psatz Permutation.
From Verif Require Import Base ListFacts IndexModel TreeModel TreeFacts DagModel DagSpec DagProofs MethodModel GeomModel FmmProofs ListsSpec ListsProofs LinkSpec EvalSpec LapModel LapSpec LapProofs TranModel TranSpec TranProofs PotModel PotSpec.
Import ListNotations.
Open Scope R_scope.

(** ** values *)
Lemma cadd_comm a b : cadd a b = cadd b a.
Proof. unfold cadd. f_equal; ring. Qed.
Lemma cadd_assoc a b c : cadd a (cadd b c) = cadd (cadd a b) c.
Proof. unfold cadd. cbn [fst snd]. f_equal; ring. Qed.
Lemma padd_nil a : padd a [] = a.
Proof. destruct a; reflexivity. Qed.
Lemma padd_comm a : forall b, padd a b = padd b a.
Proof. induction a as [|x a IH]; intros b; [rewrite padd_nil; reflexivity|]. destruct b as [|y b]; [reflexivity|]. cbn [padd]. rewrite IH, cadd_comm. reflexivity. Qed.
Lemma padd_assoc a : forall b c, padd a (padd b c) = padd (padd a b) c.
Proof.
  induction a as [|x a IH]; intros b c; [reflexivity|]. destruct b as [|y b]; [reflexivity|]. destruct c as [|z c]; [reflexivity|]. cbn [padd]. rewrite IH, cadd_assoc. reflexivity.
Qed.
Lemma padd_cons x a b : exists y l, padd (x :: a) b = y :: l.
Proof. destruct b; cbn [padd]; eauto. Qed.
Lemma value_monoid : monoid value_zero value_add.
Proof.
  split; [|split].
  - intros [l|[|x a]|] [m|[|y b]|]; try reflexivity. cbn [value_add]. rewrite padd_comm. reflexivity.
  - intros [l|[|x a]|] [m|[|y b]|] [n|[|z c]|]; try reflexivity; try (cbn [value_add]; rewrite ?padd_nil; reflexivity).
    cbn [value_add]. rewrite padd_assoc. reflexivity.
  - intros [l|[|x a]|]; reflexivity.
Qed.
Lemma value_add_array a b : value_add (Array a) (Array b) = Array (padd a b).
Proof. destruct a; reflexivity. Qed.

Lemma padd_length a : forall b, length a = length b -> length (padd a b) = length b.
Proof. induction a as [|x a IH]; intros [|y b] H; cbn [padd length] in *; try discriminate; [reflexivity|]. injection H as H. rewrite IH by exact H. reflexivity. Qed.
Lemma padd_nth a : forall b i x y, length a = length b -> nth_error a i = Some x -> nth_error b i = Some y -> nth_error (padd a b) i = Some (cadd x y).
Proof.
  induction a as [|u a IH]; intros [|v b] i x y L Hx Hy; [destruct i; discriminate|discriminate|discriminate|]. destruct i as [|i]; cbn [padd nth_error] in *; [congruence|]. apply IH; auto.
Qed.
Lemma add_padd a b : length a = length b -> add_expansion a b = Ok (padd a b).
Proof.
  intros L. destruct (add_expansion_ok a b) as (m & E & Lm & H); [lia|]. rewrite E. f_equal. apply ListFacts.list_ext; [rewrite padd_length by exact L; lia|].
  intros i Hi. destruct (nth_error a i) as [x|] eqn:Ex; [|apply nth_error_None in Ex; lia]. destruct (nth_error b i) as [y|] eqn:Ey; [|apply nth_error_None in Ey; lia].
  rewrite (padd_nth a b i x y L Ex Ey). apply H; assumption.
Qed.

(** ** sums over the inputs of a node *)
Lemma nodup_join {X} (a b : list X) : NoDup a -> NoDup b -> (forall x, In x a -> In x b -> False) -> NoDup (a ++ b).
Proof.
  induction a as [|x a IH]; intros A B H; [exact B|]. inversion A; subst. cbn [app]. constructor.
  - intros I. apply in_app_or in I. destruct I as [I|I]; [contradiction|]. apply (H x); [left; reflexivity|exact I].
  - apply IH; auto. intros y I J. apply (H y); [right; exact I|exact J].
Qed.
Section Sum.
Context (g : edge -> value) (P : list path -> list cplx -> Prop) (Q : edge -> path -> Prop).
Hypothesis Padd : forall l1 l2 a b, P l1 a -> P l2 b -> P (l1 ++ l2) (padd a b).
Lemma sum_ex : forall es, NoDup es -> es <> [] ->
  (forall e, In e es -> exists ls a, g e = Array a /\ P ls a /\ NoDup ls /\ forall s, In s ls <-> Q e s) ->
  (forall e1 e2 s, In e1 es -> In e2 es -> Q e1 s -> Q e2 s -> e1 = e2) ->
  exists ls a, sum value_zero value_add (map g es) = Array a /\ P ls a /\ NoDup ls /\ forall s, In s ls <-> exists e, In e es /\ Q e s.
Proof.
  induction es as [|e es IH]; intros N Ne H D; [contradiction|]. inversion N as [|? ? Ni Nes]; subst. destruct (H e (or_introl eq_refl)) as (ls & a & Ea & Pa & Na & Ia).
  destruct es as [|e' es].
  - exists ls, a. cbn [map]. change (sum value_zero value_add [g e]) with (value_add (g e) value_zero). rewrite Ea. unfold value_zero. rewrite value_add_array, padd_nil. split; [reflexivity|]. split; [exact Pa|]. split; [exact Na|].
    intros s. rewrite Ia. split; [intros X; exists e; split; [left; reflexivity|exact X]|]. intros (x & [<-|[]] & X). exact X.
  - destruct IH as (ls' & b & Eb & Pb & Nb & Ib); [exact Nes|discriminate|intros; apply H; right; assumption|intros e1 e2 s I1 I2; apply D; right; assumption|].
    exists (ls ++ ls'), (padd a b). rewrite map_cons. change (sum value_zero value_add (g e :: map g (e' :: es))) with (value_add (g e) (sum value_zero value_add (map g (e' :: es)))). rewrite Ea, Eb, value_add_array. split; [reflexivity|]. split; [apply Padd; assumption|]. split.
    + apply nodup_join; [exact Na|exact Nb|]. intros s I J. apply Ia in I. apply Ib in J. destruct J as (x & Ix & J). apply Ni. rewrite (D e x s); [exact Ix|left; reflexivity|right; exact Ix|exact I|exact J].
    + intros s. rewrite in_app_iff, Ia, Ib. split.
      * intros [X|(x & Ix & X)]; [exists e; split; [left; reflexivity|exact X]|exists x; split; [right; exact Ix|exact X]].
      * intros (x & [<-|Ix] & X); [left; exact X|right; eauto].
Qed.
End Sum.

(** ** sums over charges *)
Lemma dist_sym a b : dist a b = dist b a.
Proof. unfold dist. f_equal. ring. Qed.
Lemma potential_nil t : potential [] t = 0.
Proof. reflexivity. Qed.
Lemma potential_cons s l t : potential (s :: l) t = (if pt_dec (cpos s) t then 0 else cq s / dist t (cpos s)) + potential l t.
Proof. unfold potential. cbn [filter]. destruct (pt_dec (cpos s) t); [ring|]. reflexivity. Qed.
Lemma potential_app l l' t : potential (l ++ l') t = potential l t + potential l' t.
Proof. induction l as [|s l IH]; cbn [app]; [rewrite potential_nil; ring|]. rewrite !potential_cons, IH. ring. Qed.
Lemma potential_perm l l' t : Permutation l l' -> potential l t = potential l' t.
Proof. induction 1; [reflexivity|rewrite !potential_cons; lra|rewrite !potential_cons; ring|congruence]. Qed.
Lemma total_perm l l' : Permutation l l' -> total_charge l = total_charge l'.
Proof. induction 1; [reflexivity| | |congruence]; cbn [total_charge fold_right] in *; unfold total_charge in *; cbn [fold_right]; lra. Qed.
Lemma potential_far l t : (forall s, In s l -> cpos s <> t) -> potential l t = coulomb l t.
Proof.
  induction l as [|s l IH]; intros H; [reflexivity|]. rewrite potential_cons, IH by (intros; apply H; right; assumption). destruct (pt_dec (cpos s) t) as [E|_]; [destruct (H s (or_introl eq_refl) E)|]. reflexivity.
Qed.
Lemma S_to_T_ok l t phi : S_to_T l t phi = phi + potential l t.
Proof.
  unfold S_to_T. f_equal. set (f := fun v s => _). assert (G : forall l v, fold_left f l v = v + potential l t); [|rewrite G; ring].
  clear l. induction l as [|s l IH]; intros v; cbn [fold_left]; [rewrite potential_nil; ring|]. rewrite IH, potential_cons. unfold f. cbv zeta. rewrite norm3_dist, (dist_sym (cpos s) t).
  destruct (pt_dec (cpos s) t) as [E|E].
  - rewrite <- E. destruct (Rlt_dec 0 (dist (cpos s) (cpos s))) as [L|_]; [|ring]. exfalso. unfold dist in L. replace ((px (cpos s) - px (cpos s)) ^ 2 + (py (cpos s) - py (cpos s)) ^ 2 + (pz (cpos s) - pz (cpos s)) ^ 2) with 0 in L by ring. rewrite sqrt_0 in L. lra.
  - destruct (Rlt_dec 0 (dist t (cpos s))) as [L|L]; [ring|]. exfalso. apply L. apply dist_pos. congruence.
Qed.

(** ** the leaves of a tree *)
Lemma records_cons {X} (t : tree (list X)) w p c : kid t w = Some c -> records t (w :: p) = records c p.
Proof. intros K. unfold records. cbn [sub]. rewrite K. reflexivity. Qed.
Lemma leaf_cons {X} (t : tree X) w p : leaf_at t (w :: p) <-> exists c, kid t w = Some c /\ leaf_at c p.
Proof.
  unfold leaf_at. cbn [sub]. split.
  - intros (n & H & K). destruct (kid t w) as [c|]; [|discriminate]. exists c. split; [reflexivity|]. exists n. auto.
  - intros (c & -> & n & H & K). exists n. auto.
Qed.
Lemma gathered_kid {X} (t : tree (list X)) w c : gathered t -> kid t w = Some c -> gathered c.
Proof.
  intros G K p n S L. apply (G (w :: p)); [cbn [sub]; rewrite K; exact S|]. intros F. apply L. apply leaf_cons in F. destruct F as (c' & K' & F). rewrite K in K'. injection K' as <-. exact F.
Qed.
Lemma leaf_dec {X} (t : tree X) : leaf_at t [] \/ exists w c, kid t w = Some c.
Proof.
  destruct t as [a cs]. destruct (in_dec (fun x y : bool => Bool.bool_dec x y) true (map (fun o : option (tree X) => match o with Some _ => true | None => false end) cs)) as [I|I].
  - right. apply in_map_iff in I. destruct I as ([c|] & E & I); [|discriminate]. destruct (in_kid _ (T a cs) c I) as [w K]. eauto.
  - left. exists (T a cs). split; [reflexivity|]. intros w. destruct (kid (T a cs) w) as [c|] eqn:K; [|reflexivity]. exfalso. apply I. apply kid_in in K. cbn [kids] in K. apply in_map_iff. exists (Some c). auto.
Qed.
Lemma leaf_lists {X} (t : tree (list X)) : gathered t -> exists ls, NoDup ls /\ (forall s, In s ls <-> leaf_at t s) /\ Permutation (flat_map (records t) ls) (info t).
Proof.
  induction t as [a cs IH] using tree_ind'. intros G. destruct (leaf_dec (T a cs)) as [Lf|(w0 & c0 & K0)].
  - exists [[]]. split; [constructor; [intros []|constructor]|]. split.
    + intros s. split; [intros [<-|[]]; exact Lf|]. intros (n & S & K). destruct s as [|w s]; [left; reflexivity|]. exfalso. destruct Lf as (n0 & S0 & K0). cbn [sub] in S0, S. injection S0 as <-. rewrite K0 in S. discriminate.
    + cbn [flat_map]. rewrite app_nil_r. unfold records. cbn [sub]. reflexivity.
  - set (t := T a cs) in *. set (f := fun o : option (tree (list X)) => match o with Some c => info c | None => [] end).
    assert (Nl : ~ leaf_at t []) by (intros (n & S & K); cbn [sub] in S; injection S as <-; rewrite K in K0; discriminate).
    pose proof (G [] t eq_refl Nl) as Pm. fold f in Pm. change (kids t) with cs in Pm.
    assert (Go : forall k, (k <= length cs)%nat -> exists ls, NoDup ls /\ (forall s, In s ls <-> exists w s' c, s = w :: s' /\ (w < k)%nat /\ kid t w = Some c /\ leaf_at c s') /\ Permutation (flat_map (records t) ls) (flat_map f (firstn k cs))).
    { induction k as [|k IHk]; intros Hk; [exists []; split; [constructor|]; split; [intros s; split; [intros []|intros (w & s' & c & _ & L & _); lia]|reflexivity]|].
      destruct IHk as (ls & N & I & Pl); [lia|]. destruct (nth_error cs k) as [o|] eqn:Ek; [|apply nth_error_None in Ek; lia].
      assert (F : firstn (S k) cs = firstn k cs ++ [o]) by (clear - Ek; revert k Ek; induction cs as [|y l IHl]; intros [|k] Ek; cbn in *; try discriminate; [congruence|]; rewrite IHl by exact Ek; reflexivity).
      assert (Kk : kid t k = o) by (unfold kid; change (kids t) with cs; rewrite Ek; destruct o; reflexivity).
      rewrite F, flat_map_app. cbn [flat_map]. rewrite app_nil_r. destruct o as [c|].
      - destruct (IH c (nth_error_In _ _ Ek) (gathered_kid t k c G Kk)) as (lc & Nc & Ic & Pc). exists (ls ++ map (cons k) lc). split; [|split].
        + apply nodup_join; [exact N|apply FinFun.Injective_map_NoDup; [intros x y E; congruence|exact Nc]|]. intros s J1 J2. apply I in J1. destruct J1 as (w & s' & c' & -> & L & _). apply in_map_iff in J2. destruct J2 as (s'' & E & _). injection E as <- _. lia.
        + intros s. rewrite in_app_iff, I, in_map_iff. split.
          * intros [(w & s' & c' & E & L & R)|(s' & <- & J)]; [exists w, s', c'; repeat split; try tauto; lia|]. exists k, s', c. split; [reflexivity|]. split; [lia|]. split; [exact Kk|]. apply Ic, J.
          * intros (w & s' & c' & -> & L & K & R). destruct (Nat.eq_dec w k) as [->|Ne]; [|left; exists w, s', c'; repeat split; try tauto; lia]. right. rewrite Kk in K. injection K as <-. exists s'. split; [reflexivity|]. apply Ic, R.
        + rewrite flat_map_app. apply Permutation_app; [exact Pl|]. change (f (Some c)) with (info c). rewrite <- Pc. apply Permutation_refl'. clear - Kk. induction lc as [|x lc IHl]; [reflexivity|]. cbn [map flat_map]. rewrite IHl, (records_cons t k x c Kk). reflexivity.
      - exists ls. change (f None) with (@nil X). rewrite app_nil_r. split; [exact N|]. split; [|exact Pl]. intros s. rewrite I. split; intros (w & s' & c' & E & L & K & R); exists w, s', c'; (repeat split; try assumption).
        + lia.
        + destruct (Nat.eq_dec w k) as [->|]; [rewrite Kk in K; discriminate|lia]. }
    destruct (Go (length cs) (le_n _)) as (ls & N & I & Pl). exists ls. split; [exact N|]. rewrite firstn_all in Pl. split; [|rewrite Pl, Pm; reflexivity].
    intros s. rewrite I. destruct s as [|w s]; [split; [intros (w & s' & c & E & _); discriminate|intros; contradiction]|]. rewrite leaf_cons. split.
    + intros (w' & s' & c & E & _ & K & R). injection E as <- <-. eauto.
    + intros (c & K & R). exists w, s, c. repeat split; try assumption. unfold kid in K. change (kids t) with cs in K. destruct (nth_error cs w) eqn:E; [|discriminate]. apply nth_error_Some. congruence.
Qed.
Lemma leaves_permute {X} (t : tree (list X)) ls : gathered t -> NoDup ls -> (forall s, In s ls <-> leaf_at t s) -> Permutation (flat_map (records t) ls) (info t).
Proof.
  intros G N I. destruct (leaf_lists t G) as (l0 & N0 & I0 & P0). rewrite <- P0. apply Permutation_flat_map. apply NoDup_Permutation; [exact N|exact N0|]. intros s. rewrite I, I0. reflexivity.
Qed.
Lemma has_leaf {X} (t : tree X) : exists s, leaf_at t s.
Proof.
  induction t as [a cs IH] using tree_ind'. destruct (leaf_dec (T a cs)) as [L|(w & c & K)]; [eauto|]. destruct (IH c) as (s & L); [apply kid_in in K; exact K|]. exists (w :: s). apply leaf_cons. eauto.
Qed.
