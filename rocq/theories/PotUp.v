(** The multipole expansions of the DAG stand for the charges below their boxes. *)
From Coq Require Import Reals ZArith List Bool Arith Lia Lra Psatz Permutation.
From Verif Require Import Base ListFacts IndexModel IndexSpec GridProofs TreeModel TreeFacts LookupModel DagModel DagSpec DagProofs MethodModel MethodTasks FmmProofs LinkSpec EvalModel EvalSpec EvalProofs LapModel LapSpec LapArrays LapProofs TranModel TranTable TranSpec TranProofs TranProps PotModel PotSpec PotFacts PotBoxes.
Import ListNotations.
Open Scope R_scope.

Lemma which_of c w : Forall (fun v => (v < 8)%nat) (c ++ [w]) -> Z.to_nat (which_child (idx_of (c ++ [w]))) = w.
Proof.
  intros F. apply Forall_app in F. destruct F as [Fc Fw]. inversion Fw as [|? ? W8 _]; subst. rewrite idx_snoc. destruct (follow_facts c root_index root_grid Fc) as (Gr & _). fold (idx_of c) in Gr.
  destruct (child_facts (Z.of_nat w) (idx_of c) ltac:(lia) Gr) as (_ & _ & _ & E). rewrite E. apply Nat2Z.id.
Qed.
Lemma leaf_only {X} (t : tree X) s c : leaf_at t c -> prefix c s -> sub t s <> None -> s = c.
Proof.
  intros (n & S & K) [r ->] H. rewrite sub_app, S in H. destruct r as [|w r]; [apply app_nil_r|]. cbn [sub] in H. rewrite K in H. congruence.
Qed.
Lemma leaf_sub {X} (t : tree X) s : leaf_at t s -> sub t s <> None.
Proof. intros (n & S & _). congruence. Qed.
Lemma leaf_or {X} (t : tree X) c n : sub t c = Some n -> leaf_at t c \/ exists w, sub t (c ++ [w]) <> None.
Proof.
  intros S. destruct (leaf_dec n) as [(n' & E & K)|(w & d & K)].
  - cbn [sub] in E. injection E as <-. left. exists n. auto.
  - right. exists w. rewrite sub_snoc, S, K. discriminate.
Qed.
Lemma prefix_snoc_inv (c s : path) : prefix c s -> s = c \/ exists w, prefix (c ++ [w]) s.
Proof. intros [[|w r] ->]; [left; apply app_nil_r|]. right. exists w, r. rewrite <- app_assoc. reflexivity. Qed.
Lemma prefix_trans (a b c : path) : prefix a b -> prefix b c -> prefix a c.
Proof. intros [r ->] [r' ->]. exists (r ++ r'). rewrite app_assoc. reflexivity. Qed.
Lemma prefix_two (a b s : path) : prefix a s -> prefix b s -> (length a <= length b)%nat -> prefix a b.
Proof.
  intros A B L. apply prefix_firstn in A. apply prefix_firstn in B. destruct A as [_ A], B as [_ B]. apply prefix_firstn. split; [exact L|]. rewrite <- B, firstn_firstn, Nat.min_l by exact L. exact A.
Qed.
Lemma prefix_eq (a b s : path) : prefix a s -> prefix b s -> length a = length b -> a = b.
Proof. intros A B L. apply prefix_firstn in A. apply prefix_firstn in B. destruct A as [_ A], B as [_ B]. rewrite <- A, <- B, L. reflexivity. Qed.

Section Values.
Context (corner : pt) (size : R) (tb : table) (S : tree (list charge)) (E : list edge) (NE : NoDup E) (targets : path -> list pt) (val : dnode -> value).
Context (Sv : solves value_zero value_add (edge_value tb corner size targets) (leaf_value S) E val).
Lemma into_nodup v : NoDup (into v E).
Proof. apply NoDup_filter. exact NE. Qed.
Lemma into_in v e : In e (into v E) <-> In e E /\ eto e = v.
Proof. unfold into. rewrite filter_In. destruct (dnode_dec (eto e) v); intuition congruence. Qed.
Lemma val_source c : val (src c, Parts) = Sources (records S c).
Proof. rewrite (Sv (src c, Parts)). reflexivity. Qed.
Lemma val_multipole c : val (src c, Normal) = sum value_zero value_add (map (fun e => edge_value tb corner size targets e (val (efrom e))) (into (src c, Normal) E)).
Proof. rewrite (Sv (src c, Normal)). reflexivity. Qed.
End Values.

Section Up.
Context (corner : pt) (size : R) (Hsize : 0 < size) (tb : table) (HS : sound tb) (Etb : table_of_order (tb_p tb) = Ok tb).
Context {B : Type} (S : tree (list charge)) (T : tree B) (fuel : nat) (HS8 : eight S) (HSl : lower fuel S).
Context (Hbox : boxed cpos corner size S).
Context (Hplain : forall s, In s (info S) -> plain corner size S T (cpos s)) (Hg : gathered S).
Notation chg := (records S).

Lemma records_root s c n : sub S c = Some n -> In s (info n) -> In s (info S).
Proof.
  revert n. induction c as [|w c IH] using rev_ind; intros n Sc I; [cbn in Sc; injection Sc as <-; exact I|]. rewrite sub_snoc in Sc. destruct (sub S c) as [m|] eqn:Sm; [|discriminate].
  apply (IH m eq_refl). assert (N : ~ leaf_at S c) by (intros (m' & E & K); rewrite Sm in E; injection E as <-; rewrite K in Sc; discriminate). rewrite (Hg c m Sm N). apply in_flat_map. exists (Some n). split; [apply (kid_in _ _ _ _ Sc)|exact I].
Qed.
Lemma chg_regular s c i : In s (chg c) -> (sub S i <> None \/ sub T i <> None) -> regular (middle corner size (idx_of i)) (cpos s).
Proof. unfold records. destruct (sub S c) as [n|] eqn:Sc; [|intros []]. intros I Hi. apply (Hplain s); [eapply records_root; eassumption|exact Hi]. Qed.
Lemma chg_inside s c : In s (chg c) -> inside corner size (idx_of c) (cpos s).
Proof. unfold records. destruct (sub S c) as [n|] eqn:Sc; [|intros []]. intros I. eapply Hbox; eassumption. Qed.
Lemma regular_ne c x : regular c x -> x <> c.
Proof.
  intros [H _] ->. unfold dist in H. replace ((px c - px c) ^ 2 + (py c - py c) ^ 2 + (pz c - pz c) ^ 2) with 0 in H by ring. rewrite sqrt_0 in H. assert (0 < / 10 ^ 14) by (apply Rinv_0_lt_compat, pow_lt; lra). lra.
Qed.

Lemma up_length i l M : upward tb corner size i l M -> length M = tri (Datatypes.S (tb_p tb)).
Proof. intros H. destruct (up_inv corner size Hsize tb HS i l M H) as [[L _] _]. exact L. Qed.
Lemma up_padd i l1 l2 a b : upward tb corner size i (flat_map chg l1) a -> upward tb corner size i (flat_map chg l2) b -> upward tb corner size i (flat_map chg (l1 ++ l2)) (padd a b).
Proof.
  intros H1 H2. rewrite flat_map_app. eapply up_add; [exact H1|exact H2|]. apply add_padd. rewrite (up_length _ _ _ H1), (up_length _ _ _ H2). reflexivity.
Qed.

Context (E : list edge) (NE : NoDup E) (targets : path -> list pt) (val : dnode -> value).
Context (Sv1 : forall c, val (src c, Parts) = Sources (chg c)).
Context (Sv2 : forall c, val (src c, Normal) = sum value_zero value_add (map (fun e => edge_value tb corner size targets e (val (efrom e))) (into (src c, Normal) E))).
Context (lmin : nat) (Hedges : forall c e, sub S c <> None -> (lmin <= length c)%nat -> (In e E /\ eto e = (src c, Normal) <->
  (leaf_at S c /\ e = mkEdge StoM (src c, Parts) (src c, Normal)) \/ exists w, sub S (c ++ [w]) <> None /\ e = mkEdge MtoM (src (c ++ [w]), Normal) (src c, Normal))).

Lemma up_ok : forall k c, (fuel - length c < k)%nat -> sub S c <> None -> (lmin <= length c)%nat ->
  exists ls M, val (src c, Normal) = Array M /\ upward tb corner size (idx_of c) (flat_map chg ls) M /\ NoDup ls /\ forall s, In s ls <-> leaf_at S s /\ prefix c s.
Proof.
  induction k as [|k IH]; intros c Hk Sc Lc; [lia|]. pose proof (ListsProofs.sub_lt8 _ _ _ HS8 Sc) as F8.
  rewrite (Sv2 c). set (g := fun e => edge_value tb corner size targets e (val (efrom e))).
  pose (Q := fun (e : edge) (s : path) => leaf_at S s /\ prefix (snd (fst (efrom e))) s).
  assert (Hin : forall e, In e (into (src c, Normal) E) <-> (leaf_at S c /\ e = mkEdge StoM (src c, Parts) (src c, Normal)) \/ exists w, sub S (c ++ [w]) <> None /\ e = mkEdge MtoM (src (c ++ [w]), Normal) (src c, Normal)) by (intros e; rewrite into_in; apply Hedges; assumption).
  destruct (sum_ex g (fun ls M => upward tb corner size (idx_of c) (flat_map chg ls) M) Q (up_padd (idx_of c)) (into (src c, Normal) E) (into_nodup E NE _)) as (ls & M & EM & UM & NM & IM).
  - destruct (sub S c) as [n|] eqn:Sn; [|congruence]. destruct (leaf_or S c n Sn) as [Lf|(w & Sw)]; intros Z.
    + assert (J : In (mkEdge StoM (src c, Parts) (src c, Normal)) (into (src c, Normal) E)) by (apply Hin; left; auto). rewrite Z in J. exact J.
    + assert (J : In (mkEdge MtoM (src (c ++ [w]), Normal) (src c, Normal)) (into (src c, Normal) E)) by (apply Hin; right; eauto). rewrite Z in J. exact J.
  - intros e J. apply Hin in J. destruct J as [[Lf ->]|(w & Sw & ->)].
    + exists [c]. unfold g. cbn [efrom]. rewrite Sv1. unfold edge_value. cbn [eop efrom eto fst snd src].
      destruct (C62_total (tb_p tb) tb corner size (g_pos tb HS) Etb Hsize) as (Tot & _). destruct (Tot (idx_of c) (chg c)) as (M & EM); [intros s J; apply regular_ne, (chg_regular s c c J); left; exact Sc|].
      exists M. rewrite EM. split; [reflexivity|]. split; [|split; [constructor; [intros []|constructor]|]].
      * cbn [flat_map]. rewrite app_nil_r. rewrite <- (rounded_regular (middle corner size (idx_of c)) (chg c)) by (intros s J; apply (chg_regular s c c J); left; exact Sc). apply up_sources; [|exact EM]. intros s J. apply inside_radius; [exact Hsize|]. apply chg_inside, J.
      * intros s. unfold Q. cbn [efrom fst snd src]. split; [intros [<-|[]]; split; [exact Lf|exists []; symmetry; apply app_nil_r]|]. intros [Ls Ps]. left. symmetry. eapply leaf_only; [exact Lf|exact Ps|apply leaf_sub, Ls].
    + destruct (IH (c ++ [w])) as (ls & M & EM & UM & NM & IM).
      * destruct (sub S (c ++ [w])) as [n|] eqn:Sn; [|congruence]. pose proof (HSl _ _ Sn) as Lw. rewrite app_length in *. cbn [length] in *. lia.
      * exact Sw.
      * rewrite app_length. lia.
      * exists ls. unfold g. cbn [efrom]. rewrite EM. unfold edge_value. cbn [eop efrom eto fst snd src]. pose proof (ListsProofs.sub_lt8 _ _ _ HS8 Sw) as Fw. rewrite (which_of c w Fw). assert (W8 : (w < 8)%nat) by (apply Forall_app in Fw; destruct Fw as [_ Fw]; inversion Fw; assumption).
        rewrite idx_snoc in UM. destruct (C62_total (tb_p tb) tb corner size (g_pos tb HS) Etb Hsize) as (_ & Tot & _). destruct (Tot (idx_of c) w _ M W8 UM) as (M' & EM'). exists M'. rewrite EM'. split; [reflexivity|]. split; [eapply up_child; eassumption|]. split; [exact NM|]. exact IM.
  - intros e1 e2 s J1 J2 [Ls Q1] [_ Q2]. apply Hin in J1. apply Hin in J2. destruct J1 as [[L1 ->]|(w1 & S1 & ->)], J2 as [[L2 ->]|(w2 & S2 & ->)]; cbn [efrom fst snd src] in *.
    + reflexivity.
    + exfalso. destruct L1 as (n & En & K). rewrite sub_snoc, En, K in S2. congruence.
    + exfalso. destruct L2 as (n & En & K). rewrite sub_snoc, En, K in S1. congruence.
    + assert (X : c ++ [w1] = c ++ [w2]) by (eapply prefix_eq; [exact Q1|exact Q2|rewrite !app_length; reflexivity]). apply app_inj_tail in X. destruct X as [_ ->]. reflexivity.
  - exists ls, M. split; [exact EM|]. split; [exact UM|]. split; [exact NM|]. intros s. rewrite IM. split.
    + intros (e & J & Ls & Ps). split; [exact Ls|]. apply Hin in J. destruct J as [[_ ->]|(w & _ & ->)]; cbn [efrom fst snd src] in Ps; [exact Ps|]. eapply prefix_trans; [|exact Ps]. exists [w]. reflexivity.
    + intros [Ls Ps]. destruct (prefix_snoc_inv c s Ps) as [->|(w & Pw)].
      * exists (mkEdge StoM (src c, Parts) (src c, Normal)). split; [apply Hin; left; auto|]. split; [exact Ls|exact Ps].
      * exists (mkEdge MtoM (src (c ++ [w]), Normal) (src c, Normal)). split; [|split; [exact Ls|exact Pw]]. apply Hin. right. exists w. split; [|reflexivity]. destruct Pw as [r ->]. apply leaf_sub in Ls. rewrite sub_app in Ls. destruct (sub S (c ++ [w])); congruence.
Qed.
End Up.
