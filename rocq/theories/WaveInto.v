(** lap_e_to_l: the local expansion of exponential expansions. *)
From Coq Require Import Reals List Lia Lra ZArith Psatz Arith.
From Coquelicot Require Import Coquelicot.
From Verif Require Import Base ListFacts IndexModel LegSpec LegProofs LegAdd LapModel LapSpec LapArrays LapProofs SolidProofs SolidAdd SolidPair SolidTrans SolidMtl TranModel TranArrays TranOps TranField TranMove TranDmat TranTable TranEval MergeShiftModel WaveModel WaveSpec WaveAlg WaveTab WaveUp WaveFrom WaveShift.
Import ListNotations.
Open Scope C_scope.

(** ** writing coefficients *)
Lemma coefs_upd p (c : nat -> nat -> cplx) M n m v : coefs p c M -> (m <= n <= p)%nat ->
  exists M', set_res M (midx n m) v = Ok M' /\ coefs p (fun i j => if (Nat.eqb i n && Nat.eqb j m)%bool then v else c i j) M'.
Proof. intros H B. destruct (coefs_set p c (fun _ _ => false) (fun _ _ => v) M n m v H B eq_refl) as [E H']. eexists. split; [exact E|]. exact H'. Qed.
Lemma row_loop p (F : list cplx -> nat -> res (list cplx)) (c : nat -> nat -> cplx) (h : nat -> cplx -> cplx) n K W : coefs p c W -> (K <= S n)%nat -> (n <= p)%nat ->
  (forall W c' m, (m < K)%nat -> coefs p c' W -> F W m = set_res W (midx n m) (h m (c' n m))) ->
  exists W', foldM F (seq 0 K) W = Ok W' /\ coefs p (fun i j => if (Nat.eqb i n && Nat.ltb j K)%bool then h j (c i j) else c i j) W'.
Proof.
  intros HW HK Hn HF. destruct (loop_ind _ F (fun k W => coefs p (fun i j => if (Nat.eqb i n && Nat.ltb j k)%bool then h j (c i j) else c i j) W) 0 K W) as (W' & E & H').
  - eapply coefs_ext; [|exact HW]. intros i j _. cbn beta. rewrite Bool.andb_comm. reflexivity.
  - intros k W' Hk H. change (0 + k)%nat with k. rewrite (HF W' _ k Hk H). match goal with |- context [set_res W' _ ?v] => destruct (coefs_upd p _ W' n k v H ltac:(lia)) as (W2 & E2 & H2) end. exists W2. split; [exact E2|].
    eapply coefs_ext; [|exact H2]. intros i j B. cbn beta. rewrite Nat.eqb_refl, Nat.ltb_irrefl. cbn [andb]. destruct (Nat.eqb_spec i n) as [->|N]; cbn [andb]; [|reflexivity].
    destruct (Nat.eqb_spec j k) as [->|N]; [replace (k <? S k)%nat with true by (symmetry; apply Nat.ltb_lt; lia); reflexivity|].
    destruct (Nat.ltb_spec j k), (Nat.ltb_spec j (S k)); try lia; reflexivity.
  - exists W'. split; [exact E|exact H'].
Qed.
Lemma one_loop A (F : list A -> nat -> res (list A)) (a : nat -> A) N ms :
  (forall z m, In m ms -> length z = N -> F z m = Ok (upd z m (a m))) -> (forall m, In m ms -> (m < N)%nat) -> forall z, length z = N ->
  exists z', foldM F ms z = Ok z' /\ length z' = N /\ forall i, (In i ms -> nth_error z' i = Some (a i)) /\ (~ In i ms -> nth_error z' i = nth_error z i).
Proof.
  induction ms as [|m ms IH]; intros HF Hm z L; [exists z; repeat split; [exact L|intros []]|]. cbn [foldM]. rewrite HF by (try (left; reflexivity); exact L). cbn [bind]. pose proof (Hm m (or_introl eq_refl)).
  destruct (IH (fun z i Hi => HF z i (or_intror Hi)) (fun i Hi => Hm i (or_intror Hi)) (upd z m (a m)) ltac:(rewrite upd_length; exact L)) as (z' & E & L' & V). exists z'. split; [exact E|]. split; [exact L'|]. intros i. destruct (V i) as [V1 V2]. split.
  - intros Hi. destruct (in_dec Nat.eq_dec i ms) as [J|J]; [apply V1, J|]. destruct Hi as [->|Hi]; [|contradiction]. rewrite (V2 J), upd_same by lia. reflexivity.
  - intros Hi. rewrite V2 by (intros J; apply Hi; right; exact J). apply upd_other. intros ->. apply Hi. left. reflexivity.
Qed.

Section Into.
Variable (q : quad) (tb : table).
Hypothesis Q : qok q.
Hypothesis HS : sound tb.
Notation p := (tb_p tb).
Notation wt := (the_waves q p).

(** ** the sums over the angles *)
Definition zsum (e : nat -> nat -> C) (k m : nat) : C :=
  csum (fun i => (e k (S i) + RtoC ((-1) ^ m) * Cconj (e k (S i))) * cis (- (INR m * ang q k (S i)))) (cnt q k / 2).
Lemma e_get e k i : (k < q_s q)%nat -> (i < cnt q k / 2)%nat -> nth_res (wave_list q e) (place q k + (1 + i) - 1) = Ok (e k (S i) : cplx).
Proof. intros Hk Hi. apply nth_res_some. replace (place q k + (1 + i) - 1)%nat with (place q k + (S i - 1))%nat by lia. apply wave_list_nth; lia. Qed.
Lemma angle_sum_ok op e k m : (k < q_s q)%nat -> (1 <= m <= frq q k)%nat -> (forall u : C, op u (conj u) = u + RtoC ((-1) ^ m) * Cconj u) ->
  angle_sum op wt (wave_list q e) (cnt q k / 2) (place q k) (fplace q k) (frq q k) m = Ok (zsum e k m).
Proof.
  intros Hk Hm Hop. unfold angle_sum. rewrite (csum_loop 1 _ _ (fun i => (e k (S i) + RtoC ((-1) ^ m) * Cconj (e k (S i))) * cis (- (INR m * ang q k (S i))))).
  - f_equal. unfold zsum. ceq.
  - intros v i Hi. rewrite e_get by assumption. cbn [bind the_waves w_ealphaj]. replace (fplace q k + (1 + i - 1) * frq q k + m - 1)%nat with (fplace q k + (S i - 1) * frq q k + (m - 1))%nat by (replace (1 + i - 1)%nat with i by lia; replace (S i - 1)%nat with i by lia; lia).
    rewrite (ea_get q) by lia. cbn [bind]. apply ok_eq. rewrite Hop. rewrite <- cis_conj. reflexivity.
Qed.
Lemma angle_sums_ok e k : (k < q_s q)%nat -> exists z, angle_sums wt (wave_list q e) (cnt q k / 2) (place q k) (fplace q k) (frq q k) = Ok z /\
  forall m, (m <= frq q k)%nat -> nth_error z m = Some (zsum e k m).
Proof.
  intros Hk. unfold angle_sums. rewrite (csum_loop 1 _ _ (fun i => e k (S i) + Cconj (e k (S i)))).
  2:{ intros v i Hi. rewrite e_get by assumption. cbn [bind]. apply ok_eq. reflexivity. }
  cbn [bind]. rewrite set_res_ok by (rewrite repeat_length; lia). cbn [bind].
  match goal with |- context [foldM _ (by2 1 (frq q k)) ?a] => set (z0 := a) end.
  assert (L0 : length z0 = (frq q k + 1)%nat) by (unfold z0; rewrite upd_length, repeat_length; reflexivity).
  match goal with |- context [foldM ?F0 (by2 1 (frq q k)) z0] => destruct (one_loop cplx F0 (zsum e k) (frq q k + 1) (by2 1 (frq q k))) with (z := z0) as (z1 & E1 & L1 & V1); try assumption end.
  { intros z m Hm L. apply by2_in in Hm. destruct Hm as [Hm Ev]. rewrite parity in Ev by lia. rewrite angle_sum_ok; [|exact Hk|lia|].
    - cbn [bind]. apply set_res_ok. lia.
    - assert (O : Nat.odd m = true) by (rewrite <- Nat.negb_even; destruct (Nat.even m); [discriminate|reflexivity]). apply Nat.odd_spec in O. destruct O as [i ->]. intros u. rewrite pow_add, pow_mult. replace ((-1) ^ 2)%R with 1%R by ring. rewrite pow1. unfold csub, conj. ceq. }
  { intros m Hm. apply by2_in in Hm. lia. }
  match goal with |- context [bind ?X _] => replace X with (@Ok (list cplx) z1) by (symmetry; exact E1) end. cbn [bind].
  match goal with |- context [foldM ?F0 (by2 2 (frq q k)) z1] => destruct (one_loop cplx F0 (zsum e k) (frq q k + 1) (by2 2 (frq q k))) with (z := z1) as (z2 & E2 & L2 & V2); try assumption end.
  { intros z m Hm L. apply by2_in in Hm. destruct Hm as [Hm Ev]. rewrite parity in Ev by lia. rewrite angle_sum_ok; [|exact Hk|lia|].
    - cbn [bind]. apply set_res_ok. lia.
    - assert (O : Nat.even m = true) by (destruct (Nat.even m); [reflexivity|discriminate]). apply Nat.even_spec in O. destruct O as [i ->]. intros u. rewrite pow_mult. replace ((-1) ^ 2)%R with 1%R by ring. rewrite pow1. unfold cadd, conj. ceq. }
  { intros m Hm. apply by2_in in Hm. lia. }
  exists z2. split; [exact E2|]. intros m Hm. destruct (V2 m) as [A B]. destruct (V1 m) as [A' B'].
  destruct (in_dec Nat.eq_dec m (by2 2 (frq q k))) as [I|I]; [apply A, I|]. rewrite (B I). destruct (in_dec Nat.eq_dec m (by2 1 (frq q k))) as [J|J]; [apply A', J|]. rewrite (B' J).
  assert (m = 0)%nat as ->.
  { destruct m as [|m]; [reflexivity|exfalso]. destruct (Nat.even (S m)) eqn:Ev.
    - apply I, by2_in. assert (m <> 0)%nat by (intros ->; discriminate). rewrite parity, Ev by lia. split; [lia|reflexivity].
    - apply J, by2_in. rewrite parity, Ev by lia. split; [lia|reflexivity]. }
  unfold z0. rewrite upd_same by (rewrite repeat_length; lia). f_equal. unfold zsum. transitivity (csum (fun i => e k (S i) + Cconj (e k (S i))) (cnt q k / 2)); [ceq|]. apply csum_ext. intros i _. cbn [pow INR]. rewrite Rmult_0_l, Ropp_0, cis_0. ring.
Qed.

(** ** the sums over the wave lengths *)
Definition wsum (e : nat -> nat -> C) (kap : nat -> R) (K n m : nat) : C := csum (fun k => if (m <=? frq q k)%nat then zsum e k m * RtoC (kap k ^ n) else 0) K.
Lemma collect_ok e : exists W, collect p wt (wave_list q e) (repeat (0, 0)%R ((p + 1) * (p + 2) / 2)) = Ok W /\ coefs p (wsum e (fun k => - len q k)%R (q_s q)) W.
Proof.
  unfold collect. cbn [w_q the_waves].
  match goal with |- context [foldM ?F0 (seq 0 (q_s q)) ?s0] => destruct (loop_ind _ F0 (fun K W => coefs p (wsum e (fun k => - len q k)%R K) W) 0 (q_s q) s0) as (W & E & H) end.
  - exact (new_coefs p).
  - intros k W Hk H. change (0 + k)%nat with k. rewrite (get_m q Q), (get_sm q Q), (get_f q Q), (get_smf q Q) by lia. cbn [bind]. destruct (angle_sums_ok e k Hk) as (z & Ez & Hz). rewrite Ez. cbn [bind]. rewrite (get_lam q Q) by lia. cbn [bind].
    match goal with |- context [foldM ?F0 (seq 0 (S p)) W] => destruct (loop_ind _ F0 (fun n W => coefs p (fun i j => if (i <? n)%nat then wsum e (fun k => - len q k)%R (S k) i j else wsum e (fun k => - len q k)%R k i j) W) 0 (S p) W) as (W' & E' & H') end.
    + exact H.
    + intros n W1 Hn H1. change (0 + n)%nat with n.
      match goal with |- context [foldM ?F0 (seq 0 (S (Nat.min n (frq q k)))) W1] => destruct (row_loop p F0 _ (fun m v => (v : C) + zsum e k m * RtoC ((- len q k) ^ n)) n (S (Nat.min n (frq q k))) W1 H1 ltac:(lia) ltac:(lia)) as (W2 & E2 & H2) end.
      { intros W3 c' m Hm H3. rewrite (coefs_nth p _ W3 n m H3) by lia. cbn [bind]. rewrite (nth_ok cplx _ _ _ (Hz m ltac:(lia))). cbn [bind]. rewrite cscale_R. reflexivity. }
      exists W2. split; [exact E2|]. eapply coefs_ext; [|exact H2]. intros i j B. cbn beta. destruct (Nat.eqb_spec i n) as [->|N]; cbn [andb].
      * replace (n <? S n)%nat with true by (symmetry; apply Nat.ltb_lt; lia). rewrite Nat.ltb_irrefl. unfold wsum. cbn [csum]. destruct (Nat.leb_spec j (frq q k)), (Nat.ltb_spec j (S (Nat.min n (frq q k)))); try lia; [reflexivity|exact (eq_sym (Cplus_0_r _))].
      * destruct (Nat.ltb_spec i n), (Nat.ltb_spec i (S n)); try lia; reflexivity.
    + exists W'. split; [exact E'|]. eapply coefs_ext; [|exact H']. intros i j B. cbn beta. replace (i <? S p)%nat with true by (symmetry; apply Nat.ltb_lt; lia). reflexivity.
  - exists W. split; [exact E|exact H].
Qed.

Lemma flip_ok (c : nat -> nat -> C) W : coefs p c W -> exists W', flip_odd p W = Ok W' /\ coefs p (fun n m => c n m * RtoC ((-1) ^ n)) W'.
Proof.
  intros HW. unfold flip_odd, by2. rewrite <- foldM_map. set (K := ((p + 2 - 1) / 2)%nat).
  assert (HK : (2 * K <= p + 1 < 2 * K + 2)%nat) by (unfold K; pose proof (Nat.div_mod (p + 2 - 1) 2 ltac:(lia)); pose proof (Nat.mod_upper_bound (p + 2 - 1) 2 ltac:(lia)); lia).
  set (inv := fun (i : nat) (st : list cplx * nat) => snd st = tri (1 + 2 * i) /\ coefs p (fun n m => if (Nat.odd n && (n <? 2 * i)%nat)%bool then cscale (c n m) (-1) else c n m) (fst st)).
  match goal with |- context [foldM ?F0 (seq 0 K) ?s0] => destruct (loop_ind _ F0 inv 0 K s0) as ([W' off] & E & Ho & H) end.
  - split; [reflexivity|]. cbn [fst]. eapply coefs_ext; [|exact HW]. intros n m _. cbn beta. replace (n <? 2 * 0)%nat with false by (symmetry; apply Nat.ltb_ge; lia). rewrite Bool.andb_false_r. reflexivity.
  - intros i [W1 off] Hi [Ho H1]. cbn [fst snd] in *. change (0 + i)%nat with i. set (n := (1 + 2 * i)%nat) in *.
    match goal with |- context [foldM ?F0 (seq 0 (S n)) (W1, off)] => destruct (loop_ind _ F0 (fun k st => snd st = (off + k)%nat /\ coefs p (fun a b => if (Nat.eqb a n && Nat.ltb b k)%bool then cscale (c a b) (-1) else if (Nat.odd a && (a <? 2 * i)%nat)%bool then cscale (c a b) (-1) else c a b) (fst st)) 0 (S n) (W1, off)) as ([W2 off2] & E2 & Ho2 & H2) end.
    + cbn [fst snd]. split; [lia|]. eapply coefs_ext; [|exact H1]. intros a b _. cbn beta. rewrite (Bool.andb_comm (Nat.eqb a n)). reflexivity.
    + intros k [W3 off3] Hk [Ho3 H3]. cbn [fst snd] in *. change (0 + k)%nat with k. subst off3. rewrite Ho. replace (tri n + k)%nat with (midx n k) by (rewrite midx_tri; reflexivity). rewrite (coefs_nth p _ W3 n k H3) by lia. cbn [bind].
      rewrite Nat.eqb_refl, Nat.ltb_irrefl. cbn [andb]. replace (n <? 2 * i)%nat with false by (symmetry; apply Nat.ltb_ge; lia). rewrite Bool.andb_false_r.
      destruct (coefs_upd p _ W3 n k (cscale (c n k) (-1)) H3 ltac:(lia)) as (W4 & E4 & H4). rewrite E4. cbn [bind]. eexists. split; [reflexivity|]. cbn [fst snd]. split; [rewrite midx_tri; lia|].
      eapply coefs_ext; [|exact H4]. intros a b B. cbn beta. destruct (Nat.eqb_spec a n) as [->|N]; cbn [andb]; [|reflexivity]. destruct (Nat.eqb_spec b k) as [->|N]; [replace (k <? S k)%nat with true by (symmetry; apply Nat.ltb_lt; lia); reflexivity|].
      destruct (Nat.ltb_spec b k), (Nat.ltb_spec b (S k)); try lia; reflexivity.
    + match goal with |- context [bind ?X _] => replace X with (@Ok (list cplx * nat) (W2, off2)) by (symmetry; exact E2) end. cbn [bind fst snd] in *. eexists. split; [reflexivity|]. unfold inv. cbn [fst snd]. split.
      * rewrite Ho2, Ho. replace (1 + 2 * S i)%nat with (S (S n)) by lia. rewrite !tri_S. lia.
      * eapply coefs_ext; [|exact H2]. intros a b B. cbn beta. destruct (Nat.eqb_spec a n) as [->|N]; cbn [andb].
        -- replace (b <? S n)%nat with true by (symmetry; apply Nat.ltb_lt; lia). replace (Nat.odd n) with true by (symmetry; apply Nat.odd_spec; exists i; lia). replace (n <? 2 * S i)%nat with true by (symmetry; apply Nat.ltb_lt; lia). reflexivity.
        -- destruct (Nat.odd a) eqn:O; cbn [andb]; [|reflexivity]. apply Nat.odd_spec in O. destruct O as [b' O]. destruct (Nat.ltb_spec a (2 * i)), (Nat.ltb_spec a (2 * S i)); try lia; reflexivity.
  - match goal with |- context [bind ?X _] => replace X with (@Ok (list cplx * nat) (W', off)) by (symmetry; exact E) end. cbn [bind fst snd] in *. exists W'. split; [reflexivity|]. eapply coefs_ext; [|exact H]. intros n m B. cbn beta.
    destruct (Nat.odd n) eqn:O; cbn [andb].
    + apply Nat.odd_spec in O. destruct O as [i ->]. replace (2 * i + 1 <? 2 * K)%nat with true by (symmetry; apply Nat.ltb_lt; lia). rewrite cscale_R, pow_add, pow_mult. replace ((-1) ^ 2)%R with 1%R by ring. rewrite pow1. f_equal. f_equal. ring.
    + assert (Ev : Nat.even n = true) by (rewrite <- Nat.negb_odd, O; reflexivity). apply Nat.even_spec in Ev. destruct Ev as [i ->]. rewrite pow_mult. replace ((-1) ^ 2)%R with 1%R by ring. rewrite pow1. exact (eq_sym (Cmult_1_r _)).
Qed.

Lemma ipow_cp m : ipow m = cp Ci m.
Proof. induction m as [|m IH]; [reflexivity|]. cbn [ipow cp]. rewrite IH. reflexivity. Qed.
Lemma divide_ok (c : nat -> nat -> C) W : coefs p c W -> exists W', divide_out p (tb_sqf tb) W = Ok W' /\ coefs p (fun n m => c n m * (cp Ci m * RtoC (/ nf n (n + m)))) W'.
Proof.
  intros HW. unfold divide_out. apply each_term_ok; [apply (proj1 HW)|]. intros n m W1 B L E. rewrite (proj2 HW n m B) in E. rewrite (nth_ok cplx _ _ _ E). cbn [bind].
  pose proof (table_ok _ _ (g_sqf tb HS)) as Ht. rewrite (nth_ok R _ _ _ (Ht (n - m)%nat ltac:(lia))), (nth_ok R _ _ _ (Ht (n + m)%nat ltac:(lia))). cbn [bind].
  pose proof (LapArrays.sqrt_fact_pos (n - m)). pose proof (LapArrays.sqrt_fact_pos (n + m)). unfold cdivr. destruct (Req_EM_T (sqrt (INR (fact (n - m)))) 0); [lra|]. cbn [bind]. destruct (Req_EM_T (sqrt (INR (fact (n + m)))) 0); [lra|]. cbn [bind].
  apply ok_eq. rewrite cmul_C. f_equal. rewrite ipow_cp. unfold nf. replace (2 * n - (n + m))%nat with (n - m)%nat by lia. rewrite sqrt_mult by apply pos_INR. set (u := cp Ci m). apply injective_projections; unfold Cmult, RtoC; cbn [fst snd]; field; lra.
Qed.

(** ** what the local expansion is *)
Definition resum (g : nat -> nat -> C) : R := rsum (fun k => rsum (fun i => 2 * fst (g k (S i)))%R (cnt q k / 2)) (q_s q).
Definition loc (e : nat -> nat -> C) (kap : nat -> R) (n m : nat) : C := wsum e kap (q_s q) n m * (cp Ci m * RtoC (/ nf n (n + m))).

Lemma rsum_split f a b : rsum f (a + b) = (rsum f a + rsum (fun k => f (a + k)%nat) b)%R.
Proof. induction b as [|b IH]; [rewrite Nat.add_0_r; cbn [rsum]; ring|]. rewrite Nat.add_succ_r. cbn [rsum]. rewrite IH. ring. Qed.
Lemma pair_term (E h : C) a m : fst ((E + RtoC ((-1) ^ m) * Cconj E) * cis (- a) * cp Ci m * Cconj h) = (2 * fst (E * (cp Ci m * RtoC (fst (h * cis a)%C)))%C)%R.
Proof.
  assert (X : forall u : C, fst (Cconj u) = fst u) by reflexivity.
  set (B := cis (- a) * cp Ci m * Cconj h). replace ((E + RtoC ((-1) ^ m) * Cconj E) * cis (- a) * cp Ci m * Cconj h) with (E * B + RtoC ((-1) ^ m) * (Cconj E * B)) by (unfold B; ring).
  assert (C1 : RtoC ((-1) ^ m) * Cconj B = cis a * cp Ci m * h).
  { unfold B. rewrite !conj_mul, conj_conj, cis_conj, Ropp_involutive. rewrite <- (cp_Ci_sign m) at 2. ring. }
  rewrite fst_add. rewrite fst_scal, <- (X (Cconj E * B)), conj_mul, conj_conj, <- fst_scal. replace (RtoC ((-1) ^ m) * (E * Cconj B)) with (E * (RtoC ((-1) ^ m) * Cconj B)) by ring. rewrite C1, <- fst_add.
  replace (E * B + E * (cis a * cp Ci m * h)) with (E * cp Ci m * (h * cis a + Cconj h * cis (- a))) by (unfold B; ring).
  replace (Cconj h * cis (- a)) with (Cconj (h * cis a)) by (rewrite conj_mul, cis_conj; reflexivity). rewrite conj_2re, RtoC_mult. rewrite <- fst_scal. f_equal. ring.
Qed.
Lemma loc_real e kap : reals p (loc e kap).
Proof.
  intros n Hn. unfold loc. assert (Z0 : snd (wsum e kap (q_s q) n 0) = 0%R).
  { unfold wsum. apply csum_real. intros k _. cbn [Nat.leb]. assert (Z1 : snd (zsum e k 0) = 0%R).
    { unfold zsum. apply csum_real. intros i _. cbn [pow INR]. rewrite Rmult_0_l, Ropp_0, cis_0. unfold Cmult, Cplus, Cconj, RtoC. cbn [fst snd]. ring. }
    unfold Cmult, RtoC. cbn [fst snd]. rewrite Z1. ring. }
  cbn [cp]. unfold Cmult, RtoC. cbn [fst snd]. rewrite Z0. ring.
Qed.
Lemma loc_val e kap t : val p (loc e kap) t = resum (fun k j => e k j * lp (kap k) t p (frq q k) (ang q k j)).
Proof.
  set (term := fun k i n m => if ((m <=? frq q k) && (m <=? n))%nat%bool then (2 * fst (e k (S i) * (RtoC (kap k ^ n) * T t n m (ang q k (S i))))%C)%R else 0%R).
  transitivity (rsum (fun n => rsum (fun m => rsum (fun k => rsum (fun i => term k i n m) (cnt q k / 2)) (q_s q)) (S p)) (S p)).
  - unfold val. apply rsum_ext. intros n Hn. unfold prr. replace (S p) with (S n + (p - n))%nat by lia. rewrite rsum_split.
    rewrite (rsum_ext (fun i => rsum _ _) (fun _ => 0%R) (p - n)).
    2:{ intros i _. rewrite (rsum_ext _ (fun _ => 0%R)); [apply rsum_zero|]. intros k _. rewrite (rsum_ext _ (fun _ => 0%R)); [apply rsum_zero|]. intros j _. unfold term. replace (S n + i <=? n)%nat with false by (symmetry; apply Nat.leb_gt; lia). rewrite Bool.andb_false_r. reflexivity. }
    rewrite rsum_zero, Rplus_0_r. apply rsum_ext. intros m Hm. unfold loc, wsum. set (h := har t n (n + m)). set (u := cp Ci m * RtoC (/ nf n (n + m))).
    replace (csum (fun k => if (m <=? frq q k)%nat then zsum e k m * RtoC (kap k ^ n) else 0) (q_s q) * u * Cconj h) with (csum (fun k => u * Cconj h * (if (m <=? frq q k)%nat then zsum e k m * RtoC (kap k ^ n) else 0)) (q_s q)) by (rewrite csum_scal; ring).
    rewrite csum_fst, <- rsum_scal. apply rsum_ext. intros k _. unfold term. replace (m <=? n)%nat with true by (symmetry; apply Nat.leb_le; lia). rewrite Bool.andb_true_r. destruct (m <=? frq q k)%nat.
    2:{ rewrite rsum_zero, Cmult_0_r. cbn [fst RtoC]. ring. }
    unfold zsum. replace (u * Cconj h * (csum _ _ * RtoC (kap k ^ n))) with (csum (fun i => u * Cconj h * RtoC (kap k ^ n) * ((e k (S i) + RtoC ((-1) ^ m) * Cconj (e k (S i))) * cis (- (INR m * ang q k (S i))))) (cnt q k / 2)) by (rewrite csum_scal; ring).
    rewrite csum_fst, <- rsum_scal. apply rsum_ext. intros i _. set (a := (INR m * ang q k (S i))%R). set (E := e k (S i)). unfold T. fold h a.
    replace (u * Cconj h * RtoC (kap k ^ n) * ((E + RtoC ((-1) ^ m) * Cconj E) * cis (- a))) with (RtoC (kap k ^ n * / nf n (n + m)) * ((E + RtoC ((-1) ^ m) * Cconj E) * cis (- a) * cp Ci m * Cconj h)) by (unfold u; rewrite RtoC_mult; ring).
    rewrite fst_scal, pair_term. set (v := fst (h * cis a)). replace (E * (RtoC (kap k ^ n) * (cp Ci m * RtoC (eps m * v / nf n (n + m))))) with (RtoC (kap k ^ n * / nf n (n + m) * eps m) * (E * (cp Ci m * RtoC v))) by (unfold Rdiv; rewrite !RtoC_mult; ring).
    rewrite fst_scal. ring.
  - unfold resum. transitivity (rsum (fun k => rsum (fun i => rsum (fun n => rsum (fun m => term k i n m) (S p)) (S p)) (cnt q k / 2)) (q_s q)).
    { rewrite (rsum_ext _ (fun n => rsum (fun k => rsum (fun m => rsum (fun i => term k i n m) (cnt q k / 2)) (S p)) (q_s q))) by (intros; apply rsum_swap). rewrite rsum_swap. apply rsum_ext. intros k _.
      rewrite (rsum_ext _ (fun n => rsum (fun i => rsum (fun m => term k i n m) (S p)) (cnt q k / 2))) by (intros; apply rsum_swap). apply rsum_swap. }
    apply rsum_ext. intros k _. apply rsum_ext. intros i _. rewrite rsum_swap. unfold lp. set (E := e k (S i)). set (a := ang q k (S i)). set (f := frq q k).
    set (w := fun m => csum (fun n => if (m <=? n)%nat then RtoC (kap k ^ n) * T t n m a else 0) (S p)).
    assert (I : forall m, rsum (fun n => term k i n m) (S p) = if (m <=? f)%nat then (2 * fst (E * w m)%C)%R else 0%R).
    { intros m. destruct (m <=? f)%nat eqn:Em.
      - unfold w. rewrite <- csum_scal, csum_fst, <- rsum_scal. apply rsum_ext. intros n _. unfold term. fold E a f. rewrite Em. cbn [andb]. destruct (m <=? n)%nat; [reflexivity|]. rewrite Cmult_0_r. cbn [fst RtoC]. ring.
      - rewrite <- (rsum_zero (S p)). apply rsum_ext. intros n _. unfold term. fold f. rewrite Em. reflexivity. }
    rewrite (rsum_ext _ _ _ (fun m _ => I m)). rewrite <- csum_scal, csum_fst, <- rsum_scal.
    assert (W0 : forall m, (p < m)%nat -> w m = 0) by (intros m Hm; apply csum_zero; intros n Hn; replace (m <=? n)%nat with false by (symmetry; apply Nat.leb_gt; lia); reflexivity).
    destruct (Nat.le_gt_cases p f) as [H|H].
    + replace (S f) with (S p + (f - p))%nat by lia. rewrite rsum_split. rewrite (rsum_ext (fun i0 => _ * fst (E * w (S p + i0)%nat)%C)%R (fun _ => 0%R)), rsum_zero, Rplus_0_r.
      * apply rsum_ext. intros m Hm. replace (m <=? f)%nat with true by (symmetry; apply Nat.leb_le; lia). reflexivity.
      * intros j _. rewrite W0 by lia. rewrite Cmult_0_r. cbn [fst RtoC]. ring.
    + replace (S p) with (S f + (p - f))%nat by lia. rewrite rsum_split. rewrite (rsum_ext (fun i0 => if (S f + i0 <=? f)%nat then _ else _) (fun _ => 0%R)), rsum_zero, Rplus_0_r.
      * apply rsum_ext. intros m Hm. replace (m <=? f)%nat with true by (symmetry; apply Nat.leb_le; lia). reflexivity.
      * intros j _. replace (S f + j <=? f)%nat with false by (symmetry; apply Nat.leb_gt; lia). reflexivity.
Qed.

Lemma wsum_flip e kap K n m : wsum e kap K n m * RtoC ((-1) ^ n) = wsum e (fun k => - kap k)%R K n m.
Proof.
  unfold wsum. rewrite Cmult_comm, <- csum_scal. apply csum_ext. intros k _. destruct (m <=? frq q k)%nat; [|ring]. replace (- kap k)%R with (-1 * kap k)%R by ring. rewrite Rpow_mult_distr, RtoC_mult. ring.
Qed.
Lemma unturn_x t (c := cos (acos 0 / 2)) (s := sin (acos 0 / 2)) : rot_y c (- - s) (turn PX t) = t.
Proof. destruct quarter as (A & B & D). fold c s in A, B, D. unfold rot_y, turn. cbn [vx vy vz]. rewrite !Ropp_involutive, B, D. apply vec_eq; cbn [vx vy vz]; ring. Qed.
Lemma unturn_y t (c := cos (acos 0 / 2)) (s := sin (acos 0 / 2)) : rot_z (eang (PI / 2)) (rot_y c (- s) (turn PY t)) = t.
Proof.
  destruct quarter as (A & B & D). fold c s in A, B, D. unfold rot_y, rot_z, eang, turn. cbn [vx vy vz fst snd]. rewrite cos_PI2, sin_PI2. replace (c * c - - s * - s)%R with 0%R by lra. replace (2 * c * - s)%R with (-1)%R by lra. apply vec_eq; cbn [vx vy vz]; ring.
Qed.

Lemma e_to_l_ok d e c0 L : coefs p c0 L -> exists L' c', lap_e_to_l tb wt (wave_list q e) (axis_of d) (plus_dir d) L = Ok L' /\ coefs p (fun n m => c0 n m + c' n m) L' /\ reals p c' /\
  forall t, val p c' t = resum (fun k j => e k j * lp (- sgn d * len q k) (turn d t) p (frq q k) (ang q k j)).
Proof.
  intros HL. unfold lap_e_to_l. destruct (collect_ok e) as (W1 & E1 & H1). rewrite E1. cbn [bind].
  set (kap := fun k => (- sgn d * len q k)%R).
  assert (X : exists W2, (if plus_dir d then Ok W1 else flip_odd p W1) = Ok W2 /\ coefs p (wsum e kap (q_s q)) W2).
  { destruct (plus_dir d) eqn:Ed.
    - exists W1. split; [reflexivity|]. eapply coefs_ext; [|exact H1]. intros n m _. unfold wsum. apply csum_ext. intros k _. unfold kap. replace (- sgn d)%R with (-1)%R by (destruct d; cbn [sgn]; try discriminate Ed; ring). replace (-1 * len q k)%R with (- len q k)%R by ring. reflexivity.
    - destruct (flip_ok _ _ H1) as (W2 & E2 & H2). exists W2. split; [exact E2|]. eapply coefs_ext; [|exact H2]. intros n m _. cbn beta. rewrite wsum_flip. unfold wsum. apply csum_ext. intros k _. unfold kap. replace (- sgn d)%R with 1%R by (destruct d; cbn [sgn]; try discriminate Ed; ring). replace (1 * len q k)%R with (- - len q k)%R by ring. reflexivity. }
  destruct X as (W2 & E2 & H2). rewrite E2. cbn [bind]. destruct (divide_ok _ _ H2) as (W3 & E3 & H3). rewrite E3. cbn [bind]. change (coefs p (loc e kap) W3) in H3.
  destruct (g_keys tb HS 0%R key_zero) as (d1 & d2 & D1 & D2 & R1 & R2). unfold dmat_plus, dmat_minus. rewrite D1, D2. cbn [bind].
  destruct quarter as (A & _ & _). set (c := cos (acos 0 / 2)) in *. set (s := sin (acos 0 / 2)) in *.
  assert (Y : exists W4 c', match axis_of d with AX => rotate_y tb W3 d2 (repeat (0, 0)%R ((p + 1) * (p + 2) / 2)) | AY => bind (rotate_y tb W3 d1 (repeat (0, 0)%R ((p + 1) * (p + 2) / 2))) (fun W2 => rotate_z tb W2 (PI / 2) W3) | AZ => Ok W3 end = Ok W4 /\
    coefs p c' W4 /\ reals p c' /\ forall t, val p c' t = val p (loc e kap) (turn d t)).
  { assert (T : forall t, turn d t = match axis_of d with AX => turn PX t | AY => turn PY t | AZ => t end) by (intros; destruct d; reflexivity).
    destruct (axis_of d).
    - destruct (rotate_y_ok tb _ _ d2 W3 _ _ R2 H3 (blank_len tb)) as (a2 & W4 & Ey & Hy & Wy). exists W4. eexists. split; [exact Ey|]. split; [exact Hy|]. split; [apply (reals_ry c (- - s)); [nra|exact Wy|apply loc_real]|].
      intros t. rewrite T. rewrite <- (val_ry c (- - s) a2 p (loc e kap) (turn PX t)); [|nra|exact Wy|apply loc_real]. unfold c, s. rewrite unturn_x. reflexivity.
    - destruct (rotate_y_ok tb _ _ d1 W3 _ _ R1 H3 (blank_len tb)) as (a2 & W4 & Ey & Hy & Wy). rewrite Ey. cbn [bind]. assert (Rr : reals p (fun n => ry (a2 n) n (loc e kap n))) by (apply (reals_ry c (- s)); [nra|exact Wy|apply loc_real]).
      destruct (rotate_z_ok tb W4 (PI / 2) W3 _ Hy) as (W5 & Ez & Hz); [apply (proj1 H3)|]. exists W5. eexists. split; [exact Ez|]. split; [exact Hz|]. split; [apply reals_rz, Rr|].
      intros t. rewrite T. rewrite <- (val_ry c (- s) a2 p (loc e kap) (turn PY t)); [|nra|exact Wy|apply loc_real]. rewrite <- (val_rz (eang (PI / 2)) p (fun n => ry (a2 n) n (loc e kap n)) (rot_y c (- s) (turn PY t))) by apply cis_sq. unfold c, s. rewrite unturn_y. reflexivity.
    - exists W3, (loc e kap). split; [reflexivity|]. split; [exact H3|]. split; [apply loc_real|]. intros t. rewrite T. reflexivity. }
  destruct Y as (W4 & c' & E4 & H4 & R4 & V4).

  match goal with |- context [bind ?X _] => replace X with (@Ok (list cplx) W4) by (symmetry; destruct (axis_of d); exact E4) end. cbn [bind].
  destruct (each_term_ok p (fun (_ _ off : nat) (L0 : list cplx) => bind (nth_res L0 off) (fun v => bind (nth_res W4 off) (fun c => Ok (cadd v c)))) (fun n m => c0 n m + c' n m) L (proj1 HL)) as (L' & EL & HL').
  { intros n m W B _ EW. rewrite (proj2 HL n m B) in EW. rewrite (nth_ok cplx _ _ _ EW). cbn [bind]. rewrite (nth_ok cplx _ _ _ (proj2 H4 n m B)). cbn [bind]. reflexivity. }
  exists L', c'. split; [exact EL|]. split; [exact HL'|]. split; [exact R4|]. intros t. rewrite V4, loc_val. reflexivity.
Qed.
End Into.
