(** C96: the tables of the kernels over several calls. *)
From Coq Require Import ZArith Reals Lra Lia List.
From Verif Require Import Base ListFacts LapModel LapSpec LapProofs LapProps TranModel TranTable WaveModel WaveProps YukModel HelmModel TablesModel TablesSpec TablesProofs.
Import ListNotations.
Open Scope R_scope.

(** After any calls, the Laplace table is the one for the last DAG created. *)
Theorem C96_laplace : forall cs r s, run laplace_update (cs ++ [Create r]) initial = Ok s -> exists t, now s = Some t /\ right_laplace r t.
Proof.
  intros cs r s E. destruct (run_good _ _ laplace_update_right _ _ E) as (D & N & _). rewrite created_app in D. cbn [created] in D.
  apply Forall2_app_inv_l in D. destruct D as (l1 & l2 & _ & D2 & Hl). inversion D2 as [|? t ? ? Ht Dn]; subst. inversion Dn; subst. exists t. split; [|exact Ht].
  rewrite N, Hl, map_app. cbn [map]. apply last_snoc.
Qed.
Print Assumptions C96_laplace.

(** The Yukawa and Helmholtz tables likewise, whatever their parts are. *)
Theorem C96_parameter : forall C order (make : nat -> R -> R -> res C) cs r s, run (par_update order make) (cs ++ [Create r]) initial = Ok s ->
  exists t, now s = Some t /\ right_par order make r t.
Proof.
  intros C order make cs r s E. destruct (run_good _ _ (par_update_right order make) _ _ E) as (D & N & _). rewrite created_app in D. cbn [created] in D.
  apply Forall2_app_inv_l in D. destruct D as (l1 & l2 & _ & D2 & Hl). inversion D2 as [|? t ? ? Ht Dn]; subst. inversion Dn; subst. exists t. split; [|exact Ht].
  rewrite N, Hl, map_app. cbn [map]. apply last_snoc.
Qed.
Print Assumptions C96_parameter.

(** The j-th of some calls of evaluate, after any calls, works with the table for its own
    arguments from beginning to end. *)
Theorem C96_evaluate : forall h rs j r, nth_error rs j = Some r ->
  (forall s, run laplace_update (h ++ evaluations (length (created h)) rs) initial = Ok s ->
    exists t, nth_error (log s) (executed h + j) = Some (t, t) /\ right_laplace r t) /\
  (forall C order (make : nat -> R -> R -> res C) s, run (par_update order make) (h ++ evaluations (length (created h)) rs) initial = Ok s ->
    exists t, nth_error (log s) (executed h + j) = Some (t, t) /\ right_par order make r t).
Proof.
  intros h rs j r Hj. split.
  - intros s E. eapply evaluated; [exact laplace_update_right|exact E|exact Hj].
  - intros C order make s E. eapply evaluated; [exact (par_update_right order make)|exact E|exact Hj].
Qed.
Print Assumptions C96_evaluate.

(** Any execution works with the table for the last DAG created before it; the LCOs of its
    DAG keep the scale of the table for that DAG. *)
Theorem C96_used : forall a k b,
  (forall s, run laplace_update (a ++ Execute k :: b) initial = Ok s ->
    exists made used rk rl q, nth_error (log s) (executed a) = Some (made, used) /\ nth_error (created a) k = Some rk /\ created a = q ++ [rl] /\
      right_laplace rk made /\ right_laplace rl used /\ (S k = length (created a) -> made = used)) /\
  (forall C order (make : nat -> R -> R -> res C) s, run (par_update order make) (a ++ Execute k :: b) initial = Ok s ->
    exists made used rk rl q, nth_error (log s) (executed a) = Some (made, used) /\ nth_error (created a) k = Some rk /\ created a = q ++ [rl] /\
      right_par order make rk made /\ right_par order make rl used /\ (S k = length (created a) -> made = used)).
Proof.
  intros a k b. split.
  - intros s E. eapply used; [exact laplace_update_right|exact E].
  - intros C order make s E. eapply used; [exact (par_update_right order make)|exact E].
Qed.
Print Assumptions C96_used.

(** Creating a Laplace DAG succeeds for 3, 6 and 9 digits and for no others. *)
Theorem C96_digits : forall cs s r, run laplace_update cs initial = Ok s -> r_size r <> 0 ->
  ((exists s', run laplace_update (cs ++ [Create r]) initial = Ok s') <-> r_digits r = 3%Z \/ r_digits r = 6%Z \/ r_digits r = 9%Z).
Proof.
  intros cs s r E Hs. split.
  - intros (s' & E'). destruct (C96_laplace _ _ _ E') as (t & _ & (_ & _ & _ & Hn & _ & W)). apply digits_cases in W. destruct W as (q & p & _ & _ & _ & _ & H). lia.
  - intros H. rewrite run_app, E. cbn [bind]. unfold run. cbn [foldM step].
    assert (U : exists t, laplace_update (now s) r = Ok t).
    { assert (Nw : exists t, laplace_new (r_digits r) (r_size r) = Ok t).
      { unfold laplace_new, rdiv, digits_index. destruct (Req_EM_T (r_size r) 0); [contradiction|]. cbn [bind]. destruct (Z.ltb_spec (r_digits r) 0); [lia|]. cbn [bind].
        destruct (ex_tables (Z.to_nat (r_digits r))) as (tb & wt & -> & -> & _); [lia|]. cbn [bind]. eauto. }
      destruct (now s) as [t0|]; cbn [laplace_update]; [|exact Nw]. destruct (negb _); [exact Nw|]. destruct (Req_EM_T _ _); [eauto|]. unfold laplace_resize, rdiv.
      destruct (Req_EM_T (r_size r) 0); [contradiction|]. cbn [bind]. eauto. }
    destruct U as (t & ->). cbn [bind]. eauto.
Qed.
Print Assumptions C96_digits.

(** Yukawa and Helmholtz DAGs need a first parameter; the table has terms beyond the first for
    3 and 6 digits only. *)
Theorem C96_order : forall C (make : nat -> R -> R -> res C) cs r s order, order = yuk_p \/ order = helm_p -> run (par_update order make) (cs ++ [Create r]) initial = Ok s ->
  r_params r <> [] /\ (0 <= r_digits r < 15)%Z /\ exists t, now s = Some t /\
  (r_digits r = 3%Z -> k_p t = 9%nat) /\ (r_digits r = 6%Z -> k_p t = 18%nat) /\ (r_digits r <> 3%Z -> r_digits r <> 6%Z -> k_p t = 0%nat).
Proof.
  intros C make cs r s order Ho E. destruct (C96_parameter C order make _ _ _ E) as (t & Nt & (par & rest & Hp & _ & _ & _ & _ & Hn & Ok & _)). split; [rewrite Hp; discriminate|].
  assert (O : nth_error [0; 0; 0; 9; 0; 0; 18; 0; 0; 0; 0; 0; 0; 0; 0]%nat (Z.to_nat (r_digits r)) = Some (k_p t)) by (destruct Ho as [->| ->]; apply nth_res_ok in Ok; exact Ok).
  assert (B : (Z.to_nat (r_digits r) < 15)%nat) by (apply (nth_error_Some [0; 0; 0; 9; 0; 0; 18; 0; 0; 0; 0; 0; 0; 0; 0]%nat); rewrite O; discriminate). split; [lia|]. exists t. split; [exact Nt|].
  remember (Z.to_nat (r_digits r)) as k eqn:Hk. split; [|split]; intros.
  - replace k with 3%nat in O by lia. injection O as <-. reflexivity.
  - replace k with 6%nat in O by lia. injection O as <-. reflexivity.
  - do 15 (destruct k as [|k]; [solve [injection O as <-; reflexivity|lia]|]). lia.
Qed.
Print Assumptions C96_order.

(** A leaf of a DAG that is executed under the table of a DAG created later: the potential is
    that of the sources moved away from the centre of their box by the quotient of the sizes
    of the two domains, with the accuracy of the later DAG. *)
Theorem C96_stretched : forall made used ra ru lev c l t phi a (k := r_size ra / r_size ru), right_laplace ra made -> right_laplace ru used -> 0 < r_size ra -> 0 < r_size ru ->
  0 <= k * a < dist c t -> regular c t -> (forall s, In s l -> dist c (cpos s) <= a /\ regular c (cpos s) /\ / 10 ^ 14 < k * dist c (cpos s)) ->
  exists v, leaf made used lev c l t phi = Ok (phi + v) /\
    Rabs (v - coulomb (map (stretch k c) l) t) <= total_charge l / (dist c t - k * a) * (k * a / dist c t) ^ (tb_p (fst (l_parts used)) + 1).
Proof. exact leaf_stretched. Qed.
Print Assumptions C96_stretched.

(** With the table of its own DAG the leaf gives the potential of the sources. *)
Theorem C96_own : forall t0 r lev c l t phi a, right_laplace r t0 -> 0 < r_size r -> 0 <= a < dist c t -> regular c t -> (forall s, In s l -> dist c (cpos s) <= a /\ regular c (cpos s)) ->
  exists v, leaf t0 t0 lev c l t phi = Ok (phi + v) /\ Rabs (v - coulomb l t) <= total_charge l / (dist c t - a) * (a / dist c t) ^ (tb_p (fst (l_parts t0)) + 1).
Proof.
  intros t0 r lev c l t phi a Hr Hp Ha Ht Hl. assert (K : r_size r / r_size r = 1) by (field; lra).
  destruct (leaf_stretched t0 t0 r r lev c l t phi a Hr Hr Hp Hp) as (v & E & B); [rewrite K, Rmult_1_l; exact Ha|exact Ht| |].
  { intros s Hin. rewrite K, Rmult_1_l. destruct (Hl s Hin) as [A [B C]]. split; [exact A|]. split; [split; assumption|exact B]. }
  exists v. split; [exact E|]. rewrite K, Rmult_1_l in B. replace (map (stretch 1 c) l) with l in B; [exact B|].
  clear. induction l as [|[q [x y z]] l IH]; [reflexivity|]. cbn [map]. f_equal; [|exact IH]. destruct c. unfold stretch. cbn. f_equal. f_equal; ring.
Qed.
Print Assumptions C96_own.

Lemma ex_regular x : 1 <= x -> dist (mkPt 0 0 0) (mkPt x 0 0) = x /\ regular (mkPt 0 0 0) (mkPt x 0 0).
Proof.
  intros X. assert (T : 0 < / 10 ^ 14 < 1) by (split; [apply Rinv_0_lt_compat, pow_lt; lra|]; rewrite <- Rinv_1; apply Rinv_lt_contravar; [rewrite Rmult_1_l; apply pow_lt; lra|apply Rlt_pow_R1; [lra|lia]]).
  assert (D : dist (mkPt 0 0 0) (mkPt x 0 0) = x) by (unfold dist; cbn [px py pz]; replace (_ + _ + _) with (x * x) by ring; apply sqrt_square; lra).
  assert (O : off_axis (mkPt 0 0 0) (mkPt x 0 0) = x) by (unfold off_axis; cbn [px py pz]; replace (_ + _) with (x * x) by ring; apply sqrt_square; lra).
  split; [exact D|]. split; rewrite D; [lra|]. right. rewrite O. nra.
Qed.

(** "Each DAG is executed with its own table": two DAGs of three digits, on domains of the
    sizes 8 and 4, are created, and then the first is executed.  A unit charge at (1, 0, 0) in
    a box around the origin has the potential 1/9 at (10, 0, 0); the execution gives a value
    within 1/1000 of 1/8, which is the potential of a charge at (2, 0, 0). *)
Theorem C96_interleaved_refuted : exists s made used v,
  run laplace_update [Create (mkReq 3 8 []); Create (mkReq 3 4 []); Execute 0] initial = Ok s /\ log s = [(made, used)] /\
  leaf made used 2 (mkPt 0 0 0) [mkCharge 1 (mkPt 1 0 0)] (mkPt 10 0 0) 0 = Ok v /\
  coulomb [mkCharge 1 (mkPt 1 0 0)] (mkPt 10 0 0) = 1 / 9 /\ Rabs (v - 1 / 8) <= 1 / 1000 /\ 1 / 100 < v - 1 / 9.
Proof.
  destruct (C96_digits [] _ (mkReq 3 8 []) eq_refl ltac:(cbn; lra)) as [_ [s1 E1]]; [left; reflexivity|]. cbn [app] in E1.
  destruct (C96_digits _ _ (mkReq 3 4 []) E1 ltac:(cbn; lra)) as [_ [s2 E2]]; [left; reflexivity|]. cbn [app] in E2.
  destruct (run_good _ _ laplace_update_right _ _ E2) as (D & N & L). cbn [created] in D. inversion D as [|? made ? l1 Hm D1 Q1 Q2]; subst. inversion D1 as [|? used ? l2 Hu D2 Q3 Q4]; subst. inversion D2; subst.
  rewrite <- Q2 in N. cbn in N. cbn [executed] in L. destruct (log s2) eqn:L2; [|discriminate].
  assert (E3 : run laplace_update [Create (mkReq 3 8 []); Create (mkReq 3 4 []); Execute 0] initial = Ok (mkSt (Some used) (dags s2) [(made, used)])).
  { change [Create (mkReq 3 8 []); Create (mkReq 3 4 []); Execute 0] with ([Create (mkReq 3 8 []); Create (mkReq 3 4 [])] ++ [Execute 0]). rewrite run_app, E2. cbn [bind]. unfold run. cbn [foldM step].
    rewrite <- Q2 at 1. cbn [nth_res nth_error bind]. rewrite N, L2. reflexivity. }
  destruct (ex_regular 1) as [d1 r1]; [lra|]. destruct (ex_regular 10) as [d10 r10]; [lra|].
  assert (T : 0 < / 10 ^ 14 < 1) by (split; [apply Rinv_0_lt_compat, pow_lt; lra|]; rewrite <- Rinv_1; apply Rinv_lt_contravar; [rewrite Rmult_1_l; apply pow_lt; lra|apply Rlt_pow_R1; [lra|lia]]).
  destruct (leaf_stretched made used _ _ 2 (mkPt 0 0 0) [mkCharge 1 (mkPt 1 0 0)] (mkPt 10 0 0) 0 1 Hm Hu) as (v & Ev & B); cbn [r_size] in *; try lra; auto.
  { intros s [<-|[]]. cbn [cpos]. rewrite d1. split; [lra|]. split; [exact r1|lra]. }
  assert (P9 : tb_p (fst (l_parts used)) = 9%nat).
  { destruct Hu as (_ & _ & _ & _ & Tu & _). change (laplace_table 3 = Ok (fst (l_parts used))) in Tu. unfold laplace_table in Tu. cbn [nth_res nth_error expan_length bind] in Tu.
    destruct (table_of_order_ok 9 ltac:(lia)) as (tb & E & P & _). rewrite E in Tu. injection Tu as <-. exact P. }
  rewrite P9, d10 in B. cbn [map stretch coulomb total_charge fold_right cq cpos px py pz] in B.
  replace (8 / 4) with 2 in B by field. rewrite Rabs_R1 in B.
  assert (d8 : dist (mkPt 10 0 0) (mkPt (0 + 2 * (1 - 0)) (0 + 2 * (0 - 0)) (0 + 2 * (0 - 0))) = 8) by (unfold dist; cbn [px py pz]; replace (_ + _ + _) with (8 * 8) by ring; apply sqrt_square; lra).
  rewrite d8 in B. assert (d9 : dist (mkPt 10 0 0) (mkPt 1 0 0) = 9) by (unfold dist; cbn [px py pz]; replace (_ + _ + _) with (9 * 9) by ring; apply sqrt_square; lra).
  assert (V : Rabs (v - 1 / 8) <= 1 / 1000).
  { replace (v - 1 / 8) with (v - (1 / 8 + 0)) by ring. eapply Rle_trans; [exact B|]. replace (2 * 1 / 10) with (/ 5) by field. change (9 + 1)%nat with 10%nat. rewrite pow_inv. simpl pow. lra. }
  exists (mkSt (Some used) (dags s2) [(made, used)]), made, used, v. split; [exact E3|]. split; [reflexivity|]. split; [rewrite Ev; f_equal; ring|]. split; [|split; [exact V|]].
  - cbn. rewrite d9. lra.
  - pose proof (Rle_abs (- (v - 1 / 8))) as W. rewrite Rabs_Ropp in W. lra.
Qed.
Print Assumptions C96_interleaved_refuted.

(** Creating, executing and creating again; evaluate after that. *)
Example C96_nonvacuous : let A := mkReq 3 8 [] in let B := mkReq 6 4 [] in
  exists s ta tb, run laplace_update ([Create A; Execute 0] ++ evaluations 1 [B; A]) initial = Ok s /\ log s = [(ta, ta); (tb, tb); (ta, ta)] /\ right_laplace A ta /\ right_laplace B tb /\
    tb_p (fst (l_parts ta)) = 9%nat /\ tb_p (fst (l_parts tb)) = 18%nat.
Proof.
  cbv zeta. assert (N3 : forall n, (n = 3 \/ n = 6)%Z -> forall z, z <> 0 -> exists t, laplace_new n z = Ok t /\ tb_p (fst (l_parts t)) = nth (Z.to_nat n) expan_length 0%nat).
  { intros n Hn z Hz. unfold laplace_new, rdiv, digits_index. destruct (Req_EM_T z 0); [contradiction|]. cbn [bind]. destruct (Z.ltb_spec n 0); [lia|]. cbn [bind].
    destruct (ex_tables (Z.to_nat n)) as (tb & wt & -> & -> & P & _); [lia|]. cbn [bind]. eexists. split; [reflexivity|]. exact P. }
  destruct (N3 3%Z (or_introl eq_refl) 8 ltac:(lra)) as (ta & Ea & Pa). destruct (N3 6%Z (or_intror eq_refl) 4 ltac:(lra)) as (tb & Eb & Pb).
  assert (Ra := laplace_new_right _ _ _ [] Ea). assert (Rb := laplace_new_right _ _ _ [] Eb).
  exists (mkSt (Some ta) [ta; tb; ta] [(ta, ta); (tb, tb); (ta, ta)]), ta, tb. split; [|split; [reflexivity|]; split; [exact Ra|]; split; [exact Rb|]; split; assumption].
  destruct Ra as (Da & _). destruct Rb as (Db & _). cbn [r_digits] in Da, Db.
  assert (U1 : laplace_update None (mkReq 3 8 []) = Ok ta) by exact Ea.
  assert (U2 : laplace_update (Some ta) (mkReq 6 4 []) = Ok tb) by (cbn [laplace_update r_digits r_size]; rewrite Da; exact Eb).
  assert (U3 : laplace_update (Some tb) (mkReq 3 8 []) = Ok ta) by (cbn [laplace_update r_digits r_size]; rewrite Db; exact Ea).
  unfold run, initial. cbn [app evaluations foldM step now dags log]. rewrite U1. cbn [bind app step now dags log nth_res nth_error foldM]. rewrite U2.
  cbn [bind app step now dags log nth_res nth_error foldM]. rewrite U3. cbn [bind app step now dags log nth_res nth_error foldM]. reflexivity.
Qed.

(** The Yukawa table: a change of lambda alone makes a new one. *)
Example C96_parameter_nonvacuous : let make := fun (_ : nat) (_ _ : R) => Ok tt in
  exists s t, run (par_update yuk_p make) [Create (mkReq 3 8 [2]); Create (mkReq 3 8 [/ 16])] initial = Ok s /\ now s = Some t /\ k_par t = / 16 /\ k_scale t = 1 / 2 /\ k_p t = 9%nat.
Proof.
  cbv zeta. assert (A : exists t, par_new yuk_p (fun (_ : nat) (_ _ : R) => Ok tt) 3 8 2 = Ok t /\ k_par t = 2 /\ k_digits t = 3%Z /\ k_size t = 8).
  { unfold par_new. destruct (Rlt_dec 1 (2 * 8)); [|lra]. unfold rdiv. destruct (Req_EM_T 8 0); [lra|]. cbn [bind]. eexists. split; [reflexivity|]. auto. }
  assert (B : exists t, par_new yuk_p (fun (_ : nat) (_ _ : R) => Ok tt) 3 8 (/ 16) = Ok t /\ k_par t = / 16 /\ k_scale t = 1 / 2 /\ k_p t = 9%nat).
  { unfold par_new. destruct (Rlt_dec 1 (/ 16 * 8)); [lra|]. cbn [bind]. eexists. split; [reflexivity|]. cbn. split; [reflexivity|]. split; [lra|reflexivity]. }
  destruct A as (ta & Ea & A1 & A2 & A3). destruct B as (tb & Eb & B1 & B2 & B3). exists (mkSt (Some tb) [ta; tb] []), tb. split; [|auto].
  set (make := fun (_ : nat) (_ _ : R) => Ok tt) in *.
  assert (U1 : par_update yuk_p make None (mkReq 3 8 [2]) = Ok ta) by exact Ea.
  assert (U2 : par_update yuk_p make (Some ta) (mkReq 3 8 [/ 16]) = Ok tb).
  { unfold par_update, par_changed. cbn [r_params nth_res nth_error bind r_digits r_size]. rewrite A1, A2, A3. cbn [Z.eqb Pos.eqb negb]. destruct (Req_EM_T 8 8); [|lra].
    destruct (Req_EM_T 2 (/ 16)); [lra|]. exact Eb. }
  unfold run, initial. cbn [foldM step now dags log]. rewrite U1. cbn [bind app step now dags log foldM]. rewrite U2. reflexivity.
Qed.
