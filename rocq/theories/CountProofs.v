(** Proofs about the table of edges. *)
From Coq Require Import ZArith List Bool Lia Permutation.
From Verif Require Import Base ListFacts LookupModel DagModel DagSpec LinkSpec EvalModel CountModel CountSpec.
Import ListNotations.
Open Scope Z_scope.

Lemma nth_resZ_bad A (l : list A) i : ~ (0 <= i < Z.of_nat (length l)) -> nth_resZ l i = Fail Oob.
Proof. intros H. unfold nth_resZ. destruct (Z.ltb_spec i 0); [reflexivity|]. unfold nth_res. rewrite (proj2 (nth_error_None l (Z.to_nat i))) by lia. reflexivity. Qed.
Section Table.
  Variable n : Z.
  Hypothesis Hn : 0 <= n.
  (** What a table of the right shape holds *)
  Definition holds (t : edge_table) (f : Z -> Z -> Z -> Z) : Prop :=
    length t = 12%nat /\ forall i, 0 <= i < 12 -> exists plane, nth_error t (Z.to_nat i) = Some plane /\ length plane = Z.to_nat n /\
      forall j, 0 <= j < n -> exists row, nth_error plane (Z.to_nat j) = Some row /\ length row = Z.to_nat n /\
        forall k, 0 <= k < n -> nth_error row (Z.to_nat k) = Some (f i j k).
  Lemma holds_ext t f g : (forall i j k, 0 <= i < 12 -> 0 <= j < n -> 0 <= k < n -> f i j k = g i j k) -> holds t f -> holds t g.
  Proof.
    intros E (L & H). split; [exact L|]. intros i Hi. destruct (H i Hi) as (p & P1 & P2 & P3). exists p. split; [exact P1|]. split; [exact P2|]. intros j Hj. destruct (P3 j Hj) as (r & R1 & R2 & R3). exists r. split; [exact R1|]. split; [exact R2|]. intros k Hk. rewrite <- E by assumption. exact (R3 k Hk).
  Qed.
  Lemma zero_holds : exists t, zero_table n = Ok t /\ holds t (fun _ _ _ => 0).
  Proof.
    unfold zero_table. destruct (Z.ltb_spec n 0); [lia|]. eexists. split; [reflexivity|]. split; [apply repeat_length|]. intros i Hi. exists (repeat (repeat 0 (Z.to_nat n)) (Z.to_nat n)). split; [apply nth_error_repeat; lia|]. split; [apply repeat_length|]. intros j Hj. exists (repeat 0 (Z.to_nat n)). split; [apply nth_error_repeat; lia|]. split; [apply repeat_length|]. intros k Hk. apply nth_error_repeat. lia.
  Qed.
  Lemma bump_holds t f i j k : holds t f -> 0 <= i < 12 -> 0 <= j < n -> 0 <= k < n -> f i j k + 1 < 2 ^ 31 ->
    exists t', bump t i j k = Ok t' /\ holds t' (fun a b c => f a b c + if (a =? i) && (b =? j) && (c =? k) then 1 else 0).
  Proof.
    intros (L & H) Hi Hj Hk B. destruct (H i Hi) as (p & P1 & P2 & P3). destruct (P3 j Hj) as (r & R1 & R2 & R3). pose proof (R3 k Hk) as C. unfold bump.
    rewrite (proj2 (nth_resZ_ok _ t i p) (conj (proj1 Hi) P1)). cbn [bind]. rewrite (proj2 (nth_resZ_ok _ p j r) (conj (proj1 Hj) R1)). cbn [bind]. rewrite (proj2 (nth_resZ_ok _ r k _) (conj (proj1 Hk) C)). cbn [bind].
    destruct (Z.ltb_spec (f i j k + 1) (2 ^ 31)); [|lia]. cbn [bind]. rewrite set_resZ_ok by lia. cbn [bind]. rewrite set_resZ_ok by lia. cbn [bind]. rewrite set_resZ_ok by lia.
    eexists. split; [reflexivity|]. split; [rewrite upd_length; exact L|]. intros a Ha. destruct (Z.eqb_spec a i) as [->|Na].
    - rewrite upd_same by lia. eexists. split; [reflexivity|]. split; [rewrite upd_length; exact P2|]. intros b Hb. destruct (Z.eqb_spec b j) as [->|Nb].
      + rewrite upd_same by lia. eexists. split; [reflexivity|]. split; [rewrite upd_length; exact R2|]. intros c Hc. destruct (Z.eqb_spec c k) as [->|Nc]; [rewrite upd_same by lia; reflexivity|]. rewrite upd_other by lia. rewrite (R3 c Hc). cbn. f_equal. lia.
      + rewrite upd_other by lia. destruct (P3 b Hb) as (r' & S1 & S2 & S3). exists r'. split; [exact S1|]. split; [exact S2|]. intros c Hc. rewrite (S3 c Hc). cbn. f_equal. lia.
    - rewrite upd_other by lia. destruct (H a Ha) as (p' & S1 & S2 & S3). exists p'. split; [exact S1|]. split; [exact S2|]. intros b Hb. destruct (S3 b Hb) as (r' & T1 & T2 & T3). exists r'. split; [exact T1|]. split; [exact T2|]. intros c Hc. rewrite (T3 c Hc). cbn. f_equal. lia.
  Qed.
  Lemma bump_fail t f i j k : holds t f -> 0 <= i < 12 -> ~ (0 <= j < n /\ 0 <= k < n) -> bump t i j k = Fail Oob.
  Proof.
    intros (L & H) Hi N. destruct (H i Hi) as (p & P1 & P2 & P3). unfold bump. rewrite (proj2 (nth_resZ_ok _ t i p) (conj (proj1 Hi) P1)). cbn [bind].
    destruct (Z_lt_dec j 0) as [J|J]; [rewrite nth_resZ_bad by lia; reflexivity|]. destruct (Z_lt_dec j n) as [J'|J'].
    - destruct (P3 j ltac:(lia)) as (r & R1 & R2 & R3). assert (J0 : 0 <= j) by lia; rewrite (proj2 (nth_resZ_ok _ p j r) (conj J0 R1)). cbn [bind]. rewrite nth_resZ_bad by lia. reflexivity.
    - rewrite nth_resZ_bad by lia. reflexivity.
  Qed.

  Variable loc : dnode -> Z.
  Definition tally (l : list edge) (i j k : Z) : Z := Z.of_nat (length (filter (fun e => (optoint (eop e) =? i) && (loc (efrom e) =? j) && (loc (eto e) =? k)) l)).
  Lemma op_range o : 0 <= optoint o < 12.
  Proof. destruct o; cbn; lia. Qed.
  Lemma tally_app a b i j k : tally (a ++ b) i j k = tally a i j k + tally b i j k.
  Proof. unfold tally. rewrite filter_app, app_length. lia. Qed.
  Lemma tally_le l i j k : 0 <= tally l i j k <= Z.of_nat (length l).
  Proof. unfold tally. pose proof (filter_length_le _ (fun e => (optoint (eop e) =? i) && (loc (efrom e) =? j) && (loc (eto e) =? k)) l). lia. Qed.
  (** All edges of some nodes, one after another *)
  Lemma collect_ok outs nodes : forall t done, holds t (tally done) ->
    (forall v e, In v nodes -> In e (outs v) -> efrom e = v /\ 0 <= loc v < n /\ 0 <= loc (eto e) < n) -> Z.of_nat (length done) + Z.of_nat (length (flat_map outs nodes)) < 2 ^ 31 ->
    exists t', collect_edges loc outs nodes t = Ok t' /\ holds t' (tally (done ++ flat_map outs nodes)).
  Proof.
    induction nodes as [|v nodes IH]; intros t done H R B; cbn [collect_edges foldM flat_map]; [exists t; rewrite app_nil_r; auto|]. cbn [flat_map] in B. rewrite app_length in B.
    assert (K : exists t', foldM (fun t e => bump t (optoint (eop e)) (loc v) (loc (eto e))) (outs v) t = Ok t' /\ holds t' (tally (done ++ outs v))).
    { assert (R' : forall e, In e (outs v) -> efrom e = v /\ 0 <= loc v < n /\ 0 <= loc (eto e) < n) by (intros e I; apply (R v e (or_introl eq_refl) I)). assert (B' : Z.of_nat (length done) + Z.of_nat (length (outs v)) < 2 ^ 31) by lia. clear IH R B. revert t done H B'. induction (outs v) as [|e es IHe]; intros t done H B'; cbn [foldM]; [exists t; rewrite app_nil_r; auto|]. cbn [length] in B'.
      destruct (R' e (or_introl eq_refl)) as (Ef & L1 & L2). pose proof (tally_le done (optoint (eop e)) (loc v) (loc (eto e))) as T0.
      destruct (bump_holds t (tally done) (optoint (eop e)) (loc v) (loc (eto e)) H (op_range _) L1 L2 ltac:(lia)) as (t1 & E1 & H1). rewrite E1. cbn [bind].
      replace (done ++ e :: es) with ((done ++ [e]) ++ es) by (rewrite <- app_assoc; reflexivity). apply IHe; [intros e' I; apply R'; right; exact I| |rewrite app_length; cbn [length]; lia].
      eapply holds_ext; [|exact H1]. intros a b c _ _ _. rewrite tally_app. f_equal. unfold tally. cbn [filter]. rewrite Ef, (Z.eqb_sym _ a), (Z.eqb_sym _ b), (Z.eqb_sym _ c). destruct ((a =? optoint (eop e)) && (b =? loc v) && (c =? loc (eto e))); reflexivity. }
    destruct K as (t1 & E1 & H1). rewrite E1. cbn [bind]. rewrite app_assoc. apply IH; [exact H1|intros w e I J; apply (R w e (or_intror I) J)|rewrite app_length; lia].
  Qed.
  (** The first edge to or from a place that does not exist *)
  Lemma collect_fail outs nodes : forall t done, holds t (tally done) ->
    (forall v e, In v nodes -> In e (outs v) -> efrom e = v) -> Z.of_nat (length done) + Z.of_nat (length (flat_map outs nodes)) < 2 ^ 31 ->
    (exists v e, In v nodes /\ In e (outs v) /\ ~ (0 <= loc v < n /\ 0 <= loc (eto e) < n)) -> collect_edges loc outs nodes t = Fail Oob.
  Proof.
    induction nodes as [|v nodes IH]; intros t done H R B (w & e & I & J & N); [destruct I|]. unfold collect_edges. cbn [foldM]. fold (collect_edges loc outs). cbn [flat_map] in B. rewrite app_length in B.
    assert (Dn : forall e, {0 <= loc v < n /\ 0 <= loc (eto e) < n} + {~ (0 <= loc v < n /\ 0 <= loc (eto e) < n)}) by (intros e'; destruct (Z_le_dec 0 (loc v)), (Z_lt_dec (loc v) n), (Z_le_dec 0 (loc (eto e'))), (Z_lt_dec (loc (eto e')) n); (left; lia) || (right; lia)).
    destruct (Forall_dec (fun e => 0 <= loc v < n /\ 0 <= loc (eto e) < n) Dn (outs v)) as [F|F].
    - rewrite Forall_forall in F. destruct (collect_ok outs [v] t done H) as (t1 & E1 & H1); [intros v' e' [<-|[]] I'; split; [apply (R v e' (or_introl eq_refl) I')|apply F, I']|cbn [flat_map]; rewrite app_nil_r; lia|].
      unfold collect_edges in E1. cbn [foldM] in E1. destruct (foldM _ (outs v) t) as [t2|]; [|discriminate]. cbn [bind] in E1 |- *. injection E1 as ->. cbn [flat_map] in H1. rewrite app_nil_r in H1.
      apply (IH t1 (done ++ outs v) H1); [intros v' e' I' J'; apply (R v' e' (or_intror I') J')|rewrite app_length; lia|]. destruct I as [<-|I]; [exfalso; apply N, F, J|]. exists w, e. auto.
    - assert (K : foldM (fun t e => bump t (optoint (eop e)) (loc v) (loc (eto e))) (outs v) t = Fail Oob); [|rewrite K; reflexivity].
      assert (R' : forall e, In e (outs v) -> efrom e = v) by (intros e' I'; apply (R v e' (or_introl eq_refl) I')). assert (B' : Z.of_nat (length done) + Z.of_nat (length (outs v)) < 2 ^ 31) by lia. clear IH R B I J N. revert t done H B' R' F. induction (outs v) as [|x es IHe]; intros t done H B' R' F; [exfalso; apply F; constructor|]. cbn [foldM]. cbn [length] in B'.
      destruct (Dn x) as [D|D]; [|rewrite (bump_fail t _ _ _ _ H (op_range _) D); reflexivity]. pose proof (tally_le done (optoint (eop x)) (loc v) (loc (eto x))) as T0. destruct D as [D1 D2].
      destruct (bump_holds t (tally done) (optoint (eop x)) (loc v) (loc (eto x)) H (op_range _) D1 D2 ltac:(lia)) as (t1 & E1 & H1). rewrite E1. cbn [bind].
      apply (IHe t1 (done ++ [x])); [|rewrite app_length; cbn [length]; lia|intros e' I'; apply R'; right; exact I'|intros F'; apply F; constructor; [auto|exact F']].
      eapply holds_ext; [|exact H1]. intros a b c _ _ _. rewrite tally_app. f_equal. unfold tally. cbn [filter]. rewrite (R' x (or_introl eq_refl)), (Z.eqb_sym _ a), (Z.eqb_sym _ b), (Z.eqb_sym _ c). destruct ((a =? optoint (eop x)) && (b =? loc v) && (c =? loc (eto x))); reflexivity.
  Qed.

  Lemma lines_ok t f : holds t f -> mapM (fun i => mapM (fun j => mapM (fun k =>
      do plane <- nth_resZ t i; do row <- nth_resZ plane j; do c <- nth_resZ row k; Ok (i, j, k, c))
      (zseq 0 (Z.to_nat n))) (zseq 0 (Z.to_nat n))) (zseq 0 12) = Ok (map (fun i => map (fun j => map (fun k => (i, j, k, f i j k)) (zseq 0 (Z.to_nat n))) (zseq 0 (Z.to_nat n))) (zseq 0 12)).
  Proof.
    intros (L & H). assert (Rg : forall m x, In x (zseq 0 m) -> 0 <= x < Z.of_nat m) by (intros m x I; unfold zseq in I; apply in_map_iff in I; destruct I as (y & <- & I); apply in_seq in I; lia).
    apply mapM_ok. intros i Ii. apply Rg in Ii. destruct (H i ltac:(lia)) as (p & P1 & P2 & P3). apply mapM_ok. intros j Ij. apply Rg in Ij. destruct (P3 j ltac:(lia)) as (r & R1 & R2 & R3). apply mapM_ok. intros k Ik. apply Rg in Ik.
    assert (I0 : 0 <= i) by lia; rewrite (proj2 (nth_resZ_ok _ t i p) (conj I0 P1)). cbn [bind]. assert (J0 : 0 <= j) by lia; rewrite (proj2 (nth_resZ_ok _ p j r) (conj J0 R1)). cbn [bind]. assert (K0 : 0 <= k < n) by lia; rewrite (proj2 (nth_resZ_ok _ r k _) (conj (proj1 K0) (R3 k K0))). reflexivity.
  Qed.
End Table.

(** The lists of nodes hold all nodes but the target leaves; no edge leaves those. *)
Lemma out_perm E nodes : NoDup nodes -> (forall e, In e E -> In (efrom e) nodes) -> Permutation (flat_map (fun v => out_of v E) nodes) E.
Proof.
  revert E. induction nodes as [|v nodes IH]; intros E ND H.
  - destruct E as [|e E]; [constructor|destruct (H e (or_introl eq_refl))].
  - apply NoDup_cons_iff in ND. destruct ND as [Nv ND]. cbn [flat_map]. set (rest := filter (fun e => negb (if dnode_dec (efrom e) v then true else false)) E).
    assert (Q : flat_map (fun v => out_of v E) nodes = flat_map (fun v => out_of v rest) nodes).
    { clear IH H ND. induction nodes as [|w nodes IHn]; [reflexivity|]. cbn [flat_map]. rewrite IHn by (intros I; apply Nv; right; exact I). f_equal. unfold out_of, rest. clear IHn. induction E as [|e E IHE]; [reflexivity|]. cbn [filter]. destruct (dnode_dec (efrom e) v) as [->|Ne]; cbn [negb].
      - destruct (dnode_dec v w) as [->|_]; [exfalso; apply Nv; left; reflexivity|exact IHE].
      - cbn [filter]. rewrite IHE. reflexivity. }
    rewrite Q. rewrite (IH rest ND).
    + unfold out_of, rest. clear. induction E as [|e E IH]; [constructor|]. cbn [filter]. destruct (dnode_dec (efrom e) v); cbn [negb app]; [constructor; exact IH|]. etransitivity; [|apply perm_skip; exact IH]. symmetry. apply Permutation_middle.
    + intros e I. unfold rest in I. apply filter_In in I. destruct I as [I J]. destruct (H e I) as [Q'|K]; [|exact K]. exfalso. destruct (dnode_dec (efrom e) v) as [_|X]; [discriminate J|]. apply X. symmetry. exact Q'.
Qed.

Lemma op_code o o' : (optoint o =? optoint o') = if op_dec o o' then true else false.
Proof. destruct o, o'; reflexivity. Qed.
Lemma lines_concat n loc l : concat (map (@concat _) (map (fun i => map (fun j => map (fun k => (i, j, k, tally loc l i j k)) (zseq 0 n)) (zseq 0 n)) (zseq 0 12))) = all_lines n (fun o j k => between loc o j k l).
Proof.
  assert (E : forall o j k, tally loc l (optoint o) j k = between loc o j k l).
  { intros o j k. unfold tally, between. f_equal. f_equal. apply filter_ext. intros e. rewrite op_code. reflexivity. }
  assert (F : forall o, concat (map (fun j => map (fun k => (optoint o, j, k, tally loc l (optoint o) j k)) (zseq 0 n)) (zseq 0 n)) = flat_map (fun j => map (fun k => (optoint o, j, k, between loc o j k l)) (zseq 0 n)) (zseq 0 n)).
  { intros o. rewrite flat_map_concat_map. f_equal. apply map_ext. intros j. apply map_ext. intros k. rewrite E. reflexivity. }
  unfold all_lines. rewrite flat_map_concat_map. f_equal. replace (zseq 0 12) with (map optoint operations) by reflexivity. rewrite !map_map.
  replace (combine (map optoint operations) operations) with (map (fun o => (optoint o, o)) operations) by reflexivity. rewrite map_map. apply map_ext. intros o. apply F.
Qed.
Lemma tally_perm loc a b i j k : Permutation a b -> tally loc a i j k = tally loc b i j k.
Proof. intros P. unfold tally. f_equal. apply Permutation_length. induction P; cbn [filter]; try destruct (_ && _ && _); try destruct (_ && _ && _); eauto using Permutation. Qed.
Lemma between_perm loc o j k a b : Permutation a b -> between loc o j k a = between loc o j k b.
Proof. intros P. unfold between. f_equal. apply Permutation_length. induction P; cbn [filter]; try destruct (_ && _ && _); try destruct (_ && _ && _); eauto using Permutation. Qed.
Lemma all_lines_ext n f g : (forall o j k, f o j k = g o j k) -> all_lines n f = all_lines n g.
Proof. intros H. unfold all_lines. rewrite !flat_map_concat_map. f_equal. apply map_ext. intros io. rewrite !flat_map_concat_map. f_equal. apply map_ext. intros j. apply map_ext. intros k. rewrite H. reflexivity. Qed.

Lemma printed loc outs sl sn tn n : 0 <= n ->
  (forall v e, In v (sl ++ sn ++ tn) -> In e (outs v) -> efrom e = v /\ 0 <= loc v < n /\ 0 <= loc (eto e) < n) ->
  Z.of_nat (length (flat_map outs (sl ++ sn ++ tn))) < 2 ^ 31 ->
  printedges loc outs sl sn tn n = Ok (all_lines (Z.to_nat n) (fun o j k => between loc o j k (flat_map outs (sl ++ sn ++ tn)))).
Proof.
  intros Hn R B. unfold printedges. destruct (zero_holds n Hn) as (t0 & -> & H0). cbn [bind]. rewrite !flat_map_app, !app_length in B.
  destruct (collect_ok n loc outs sl t0 [] H0) as (t1 & -> & H1); [intros v e I; apply R; rewrite in_app_iff; auto|cbn [length]; lia|]. cbn [bind app] in *.
  destruct (collect_ok n loc outs sn t1 _ H1) as (t2 & -> & H2); [intros v e I; apply R; rewrite !in_app_iff; auto|lia|]. cbn [bind].
  destruct (collect_ok n loc outs tn t2 _ H2) as (t3 & -> & H3); [intros v e I; apply R; rewrite !in_app_iff; auto|rewrite app_length; lia|]. cbn [bind].
  rewrite (lines_ok n t3 _ H3). cbn [bind]. f_equal. rewrite lines_concat, !flat_map_app, app_assoc. reflexivity.
Qed.
Lemma collect_app loc outs a b : forall t, collect_edges loc outs (a ++ b) t = (do t1 <- collect_edges loc outs a t; collect_edges loc outs b t1).
Proof.
  unfold collect_edges. induction a as [|v a IH]; intros t; cbn [app foldM bind]; [reflexivity|]. destruct (foldM _ (outs v) t); cbn [bind]; [apply IH|reflexivity].
Qed.
Lemma printed_fail loc outs sl sn tn n : 0 <= n -> (forall v e, In v (sl ++ sn ++ tn) -> In e (outs v) -> efrom e = v) ->
  Z.of_nat (length (flat_map outs (sl ++ sn ++ tn))) < 2 ^ 31 ->
  (exists v e, In v (sl ++ sn ++ tn) /\ In e (outs v) /\ ~ (0 <= loc v < n /\ 0 <= loc (eto e) < n)) -> printedges loc outs sl sn tn n = Fail Oob.
Proof.
  intros Hn R B X. unfold printedges. destruct (zero_holds n Hn) as (t0 & -> & H0). cbn [bind].
  pose proof (collect_fail n Hn loc outs (sl ++ sn ++ tn) t0 [] H0 R B X) as F. rewrite collect_app in F. destruct (collect_edges loc outs sl t0) as [t1|]; cbn [bind] in *; [|injection F as ->; reflexivity]. rewrite collect_app in F. destruct (collect_edges loc outs sn t1) as [t2|]; cbn [bind] in *; [|injection F as ->; reflexivity]. rewrite F. reflexivity.
Qed.
