(** The tables of the exponential expansions. *)
From Coq Require Import Reals List Lia Lra ZArith Psatz Arith.
From Coquelicot Require Import Coquelicot.
From Verif Require Import Base ListFacts LapModel LapArrays TranModel WaveModel WaveSpec.
Import ListNotations.
Open Scope R_scope.

(** ** writing one entry after the other *)
Lemma put_ok A (pre rest : list A) v x : put (pre ++ x :: rest, length pre) v = Ok (pre ++ v :: rest, S (length pre)).
Proof.
  unfold put. cbn [fst snd]. assert (E : set_res (pre ++ x :: rest) (length pre) v = Ok (pre ++ v :: rest)).
  { induction pre as [|a pre IH]; [reflexivity|]. cbn [app length set_res]. rewrite IH. reflexivity. }
  rewrite E. reflexivity.
Qed.
Lemma put_list A (l : list A) : forall pre rest, length l = length rest -> foldM put l (pre ++ rest, length pre) = Ok (pre ++ l, (length pre + length l)%nat).
Proof.
  induction l as [|v l IH]; intros pre rest E; destruct rest as [|x rest]; try discriminate E; cbn [foldM].
  - rewrite app_nil_r, Nat.add_0_r. reflexivity.
  - rewrite put_ok. cbn [bind]. replace (pre ++ v :: rest) with ((pre ++ [v]) ++ rest) by (rewrite <- app_assoc; reflexivity).
    replace (S (length pre)) with (length (pre ++ [v])) by (rewrite app_length; cbn; lia). rewrite IH by (injection E; auto). rewrite <- app_assoc, app_length. cbn [app length]. f_equal. f_equal. lia.
Qed.
Lemma put_all A (l : list A) z n : length l = n -> foldM put l (repeat z n, 0%nat) = Ok (l, n).
Proof. intros E. pose proof (put_list A l [] (repeat z n)) as P. cbn [app length] in P. rewrite P by (rewrite repeat_length; exact E). rewrite E. reflexivity. Qed.
Lemma foldM_flat A B S (F : S -> A -> res S) (P : S -> B -> res S) (g : A -> list B) ks : (forall k st, In k ks -> F st k = foldM P (g k) st) -> forall st, foldM F ks st = foldM P (flat_map g ks) st.
Proof.
  induction ks as [|k ks IH]; intros E st; [reflexivity|]. cbn [foldM flat_map]. rewrite foldM_app. rewrite E by (left; reflexivity). destruct (foldM P (g k) st); cbn [bind]; [|reflexivity]. apply IH. intros; apply E; right; assumption.
Qed.
Lemma foldM_map A B S (P : S -> B -> res S) (g : A -> B) ks : forall st, foldM (fun st k => P st (g k)) ks st = foldM P (map g ks) st.
Proof. induction ks as [|k ks IH]; intros st; [reflexivity|]. cbn [foldM map]. destruct (P st (g k)); cbn [bind]; [apply IH|reflexivity]. Qed.

(** ** looking up *)
Fixpoint nsum (f : nat -> nat) (n : nat) : nat := match n with O => 0 | S k => nsum f k + f k end.
Lemma nsum_ext f g n : (forall k, (k < n)%nat -> f k = g k) -> nsum f n = nsum g n.
Proof. induction n as [|n IH]; intros H; cbn [nsum]; [reflexivity|]. rewrite IH, H by (try (intros; apply H); lia). reflexivity. Qed.
Lemma flat_len A (g : nat -> list A) n : length (flat_map g (seq 0 n)) = nsum (fun k => length (g k)) n.
Proof. induction n as [|n IH]; [reflexivity|]. rewrite seq_S, flat_map_app, app_length, IH. cbn [flat_map nsum plus]. rewrite app_nil_r. reflexivity. Qed.
Lemma flat_nth A (g : nat -> list A) n k i : (k < n)%nat -> (i < length (g k))%nat -> nth_error (flat_map g (seq 0 n)) (nsum (fun k => length (g k)) k + i) = nth_error (g k) i.
Proof.
  intros Hk Hi. replace n with (k + (1 + (n - k - 1)))%nat by lia. rewrite seq_app, flat_map_app, nth_error_app2 by (rewrite flat_len; lia).
  rewrite flat_len. match goal with |- nth_error _ ?x = _ => replace x with i by lia end. rewrite seq_app, flat_map_app. cbn [seq flat_map plus]. rewrite app_nil_r. apply nth_error_app1, Hi.
Qed.
Lemma flat_const A (g : nat -> list A) a n L : (forall k, length (g k) = L) -> length (flat_map g (seq a n)) = (n * L)%nat.
Proof. intros E. revert a. induction n as [|n IH]; intros a; [reflexivity|]. cbn [seq flat_map]. rewrite app_length, IH, E. lia. Qed.
Lemma flat_const_nth A (g : nat -> list A) a n L k i : (forall k, length (g k) = L) -> (k < n)%nat -> (i < L)%nat -> nth_error (flat_map g (seq a n)) (k * L + i) = nth_error (g (a + k)%nat) i.
Proof.
  intros E. revert a k. induction n as [|n IH]; intros a k Hk Hi; [lia|]. cbn [seq flat_map]. destruct k as [|k].
  - rewrite nth_error_app1 by (rewrite E; lia). rewrite Nat.add_0_r. reflexivity.
  - rewrite nth_error_app2 by (rewrite E; lia). rewrite E. replace (S k * L + i - L)%nat with (k * L + i)%nat by lia. rewrite IH by lia. f_equal. f_equal. lia.
Qed.
Lemma nth_res_some A (l : list A) i v : nth_error l i = Some v -> nth_res l i = Ok v.
Proof. intros E. unfold nth_res. rewrite E. reflexivity. Qed.
Lemma nth_resZ_some A (l : list A) z i v : z = Z.of_nat i -> nth_error l i = Some v -> nth_resZ l z = Ok v.
Proof. intros -> E. unfold nth_resZ. replace (Z.of_nat i <? 0)%Z with false by (symmetry; apply Z.ltb_ge; lia). rewrite Nat2Z.id. apply nth_res_some, E. Qed.

(** ** the constants *)
Fixpoint fplace (q : quad) (k : nat) : nat := match k with O => 0 | S k => fplace q k + cnt q k / 2 * frq q k end.
Record qok (q : quad) : Prop := mkQok {
  k_lam : length (q_lambda q) = q_s q; k_wgt : length (q_weight q) = q_s q; k_m : length (q_m q) = q_s q; k_f : length (q_f q) = q_s q;
  k_sm : forall k, (k <= q_s q)%nat -> nth_error (q_sm q) k = Some (place q k);
  k_smf : forall k, (k <= q_s q)%nat -> nth_error (q_smf q) k = Some (fplace q k);
  k_nexp : place q (q_s q) = q_nexp q;
  k_pos : forall k, (k < q_s q)%nat -> (2 <= cnt q k)%nat;
  k_even : forall k, (k < q_s q)%nat -> (cnt q k = 2 * (cnt q k / 2))%nat }.

Definition qcheck (q : quad) : bool :=
  (length (q_lambda q) =? q_s q)%nat && (length (q_weight q) =? q_s q)%nat && (length (q_m q) =? q_s q)%nat && (length (q_f q) =? q_s q)%nat &&
  forallb (fun k => match nth_error (q_sm q) k with Some v => (v =? place q k)%nat | None => false end) (seq 0 (S (q_s q))) &&
  forallb (fun k => match nth_error (q_smf q) k with Some v => (v =? fplace q k)%nat | None => false end) (seq 0 (S (q_s q))) &&
  (place q (q_s q) =? q_nexp q)%nat && forallb (fun k => (2 <=? cnt q k)%nat) (seq 0 (q_s q)) && forallb (fun k => (cnt q k =? 2 * (cnt q k / 2))%nat) (seq 0 (q_s q)).
Lemma qcheck_ok q : qcheck q = true -> qok q.
Proof.
  unfold qcheck. intros H. repeat (apply andb_prop in H; destruct H as [H ?]). rewrite forallb_forall in *.
  split; try (apply Nat.eqb_eq; assumption).
  - intros k Hk. assert (I : In k (seq 0 (S (q_s q)))) by (apply in_seq; lia). specialize (H4 k I). cbn beta in H4. destruct (nth_error (q_sm q) k); [|discriminate]. apply Nat.eqb_eq in H4. congruence.
  - intros k Hk. assert (I : In k (seq 0 (S (q_s q)))) by (apply in_seq; lia). specialize (H3 k I). cbn beta in H3. destruct (nth_error (q_smf q) k); [|discriminate]. apply Nat.eqb_eq in H3. congruence.
  - intros k Hk. apply Nat.leb_le, H1, in_seq. lia.
  - intros k Hk. apply Nat.eqb_eq, H0, in_seq. lia.
Qed.
Lemma case_3_ok : qok case_3.
Proof. apply qcheck_ok. vm_compute. reflexivity. Qed.
Lemma case_9_ok : qok case_9.
Proof. apply qcheck_ok. vm_compute. reflexivity. Qed.

Section Tables.
Variable (q : quad) (p : nat).
Hypothesis Q : qok q.

Lemma get_lam k : (k < q_s q)%nat -> nth_res (q_lambda q) k = Ok (len q k).
Proof. intros H. apply nth_res_some, nth_error_nth'. rewrite (k_lam q Q). exact H. Qed.
Lemma get_wgt k : (k < q_s q)%nat -> nth_res (q_weight q) k = Ok (wgt q k).
Proof. intros H. apply nth_res_some, nth_error_nth'. rewrite (k_wgt q Q). exact H. Qed.
Lemma get_m k : (k < q_s q)%nat -> nth_res (q_m q) k = Ok (cnt q k).
Proof. intros H. apply nth_res_some, nth_error_nth'. rewrite (k_m q Q). exact H. Qed.
Lemma get_f k : (k < q_s q)%nat -> nth_res (q_f q) k = Ok (frq q k).
Proof. intros H. apply nth_res_some, nth_error_nth'. rewrite (k_f q Q). exact H. Qed.
Lemma get_sm k : (k <= q_s q)%nat -> nth_res (q_sm q) k = Ok (place q k).
Proof. intros H. apply nth_res_some, (k_sm q Q), H. Qed.
Lemma get_smf k : (k <= q_s q)%nat -> nth_res (q_smf q) k = Ok (fplace q k).
Proof. intros H. apply nth_res_some, (k_smf q Q), H. Qed.
Lemma div_m k a : (k < q_s q)%nat -> rdiv a (INR (cnt q k)) = Ok (a / INR (cnt q k)).
Proof. intros H. unfold rdiv. destruct (Req_EM_T (INR (cnt q k)) 0) as [E|_]; [|reflexivity]. pose proof (k_pos q Q k H). apply INR_not_0 in E; [contradiction|] || (exfalso; apply (not_0_INR (cnt q k)); [lia|exact E]). Qed.
Lemma place_sum k : place q k = nsum (fun k => cnt q k / 2)%nat k.
Proof. induction k as [|k IH]; [reflexivity|]. cbn [place nsum]. rewrite IH. reflexivity. Qed.
Lemma fplace_sum k : fplace q k = nsum (fun k => cnt q k / 2 * frq q k)%nat k.
Proof. induction k as [|k IH]; [reflexivity|]. cbn [fplace nsum]. rewrite IH. reflexivity. Qed.
Lemma nsum_mul L f k : nsum (fun k => f k * L)%nat k = (nsum f k * L)%nat.
Proof. induction k as [|k IH]; [reflexivity|]. cbn [nsum]. rewrite IH. lia. Qed.
Lemma ang_eq k j : INR j * (2 * PI / INR (cnt q k)) = ang q k j.
Proof. unfold ang, Rdiv. ring. Qed.

(** xs and ys *)
Definition xy_row (trig : R -> R) (k j : nat) : list cplx := map (fun m => cis (len q k * IZR m * trig (ang q k j))) (zseq (-3) 7).
Definition xy_all (trig : R -> R) : list cplx := flat_map (fun k => flat_map (xy_row trig k) (seq 1 (cnt q k / 2))) (seq 0 (q_s q)).
Lemma xy_row_len trig k j : length (xy_row trig k j) = 7%nat.
Proof. reflexivity. Qed.
Lemma xys_ok trig : generate_xys trig q = Ok (xy_all trig).
Proof.
  unfold generate_xys. rewrite (foldM_flat _ _ _ _ put (fun k => flat_map (xy_row trig k) (seq 1 (cnt q k / 2)))).
  - fold (xy_all trig). rewrite put_all; [reflexivity|]. unfold xy_all. rewrite flat_len. rewrite (nsum_ext _ (fun k => cnt q k / 2 * 7)%nat) by (intros; apply flat_const, xy_row_len).
    rewrite nsum_mul, <- place_sum, (k_nexp q Q). lia.
  - intros k st Hk. apply in_seq in Hk. rewrite get_m, get_lam by lia. cbn [bind]. rewrite div_m by lia. cbn [bind]. apply foldM_flat. intros j st' _.
    rewrite (foldM_map _ _ _ put (fun m => cis (len q k * IZR m * trig (INR j * (2 * PI / INR (cnt q k)))))). rewrite ang_eq. reflexivity.
Qed.
Lemma xy_get trig k j z : (k < q_s q)%nat -> (j < cnt q k / 2)%nat -> (-3 <= z <= 3)%Z ->
  nth_resZ (xy_all trig) (Z.of_nat ((place q k + j) * 7 + 3) + z) = Ok (cis (len q k * IZR z * trig (ang q k (S j)))).
Proof.
  intros Hk Hj Hz. apply nth_resZ_some with (nsum (fun k => length (flat_map (xy_row trig k) (seq 1 (cnt q k / 2)))) k + (j * 7 + Z.to_nat (z + 3)))%nat.
  - rewrite (nsum_ext _ (fun k => cnt q k / 2 * 7)%nat) by (intros; apply flat_const, xy_row_len). rewrite nsum_mul, <- place_sum. lia.
  - unfold xy_all. rewrite flat_nth; [|exact Hk|rewrite (flat_const _ _ _ _ 7) by (intros; apply xy_row_len); lia].
    rewrite (flat_const_nth _ _ _ _ 7) by (try (intros; apply xy_row_len); lia). unfold xy_row, zseq. rewrite map_map. rewrite nth_error_map, ListFacts.nth_error_seq by lia. cbn [option_map]. f_equal. f_equal. f_equal. f_equal. f_equal. lia.
Qed.

(** zs *)
Definition z_all : list R := flat_map (fun k => map (fun m => exp (- len q k * INR m)) (seq 0 4)) (seq 0 (q_s q)).
Lemma zs_ok : generate_zs q = Ok z_all.
Proof.
  unfold generate_zs. rewrite (foldM_flat _ _ _ _ put (fun k => map (fun m => exp (- len q k * INR m)) (seq 0 4))).
  - fold z_all. rewrite put_all; [reflexivity|]. unfold z_all. rewrite (flat_const _ _ _ _ 4) by reflexivity. lia.
  - intros k st Hk. apply in_seq in Hk. rewrite get_lam by lia. cbn [bind]. apply foldM_map.
Qed.
Lemma z_get k z : (k < q_s q)%nat -> (0 <= z <= 3)%Z -> nth_resZ z_all (4 * Z.of_nat k + z) = Ok (exp (- len q k * IZR z)).
Proof.
  intros Hk Hz. apply nth_resZ_some with (k * 4 + Z.to_nat z)%nat; [lia|]. unfold z_all. rewrite (flat_const_nth _ _ _ _ 4) by (try reflexivity; lia).
  rewrite nth_error_map, ListFacts.nth_error_seq by lia. cbn [option_map]. rewrite INR_IZR_INZ. do 5 f_equal. lia.
Qed.

(** lambdaknm *)
Definition knm (k n m : nat) : R := len q k ^ n / sqrt (INR (fact (n - m))) / sqrt (INR (fact (n + m))).
Definition knm_all : list R := flat_map (fun k => flat_map (fun n => map (knm k n) (seq 0 (S n))) (seq 0 (S p))) (seq 0 (q_s q)).
Lemma sqrt_fact_pos i : 0 < sqrt (INR (fact i)).
Proof. apply sqrt_lt_R0, INR_fact_lt_0. Qed.
Lemma tri_sum n : nsum S n = tri n.
Proof. induction n as [|n IH]; [reflexivity|]. cbn [nsum]. rewrite tri_S, IH. reflexivity. Qed.
Lemma knm_len k : length (flat_map (fun n => map (knm k n) (seq 0 (S n))) (seq 0 (S p))) = tri (S p).
Proof. rewrite flat_len. rewrite <- tri_sum. apply nsum_ext. intros n _. rewrite map_length, seq_length. reflexivity. Qed.
Lemma knm_ok : generate_lambdaknm p q = Ok knm_all.
Proof.
  unfold generate_lambdaknm. rewrite set_res_ok by (rewrite repeat_length; lia). cbn [bind].
  match goal with |- context [foldM ?F (seq 1 (2 * p)) ?s] => destruct (loop_ind _ F (fun k a => length a = (2 * p + 1)%nat /\ forall i, (i <= k)%nat -> nth_error a i = Some (sqrt (INR (fact i)))) 1 (2 * p) s) as (temp & E & L & H) end.
  { split; [rewrite upd_length, repeat_length; reflexivity|]. intros i Hi. replace i with 0%nat by lia. rewrite upd_same by (rewrite repeat_length; lia). simpl. rewrite sqrt_1. reflexivity. }
  { intros k s Hk [L H]. replace (1 + k - 1)%nat with k by lia. rewrite (nth_ok _ _ _ _ (H k ltac:(lia))). cbn [bind]. rewrite set_res_ok by lia. eexists. split; [reflexivity|].
    split; [rewrite upd_length; exact L|]. intros i Hi. change (1 + k)%nat with (S k). destruct (Nat.eq_dec i (S k)) as [->|Ne].
    - rewrite upd_same by lia. rewrite sqrt_fact. reflexivity.
    - rewrite upd_other by lia. apply H. lia. }
  rewrite E. cbn [bind]. rewrite (foldM_flat _ _ _ _ put (fun k => flat_map (fun n => map (knm k n) (seq 0 (S n))) (seq 0 (S p)))).
  - fold knm_all. rewrite put_all; [reflexivity|]. unfold knm_all. rewrite (flat_const _ _ _ _ (tri (S p))) by (intros; apply knm_len). rewrite <- size_tri.
    rewrite <- Nat.mul_assoc. destruct (Nat.Even_or_Odd p) as [[x ->]|[x ->]].
    + replace ((2 * x + 1) * (2 * x + 2))%nat with ((2 * x + 1) * (x + 1) * 2)%nat by lia. rewrite Nat.mul_assoc, !Nat.div_mul by lia. reflexivity.
    + replace ((2 * x + 1 + 1) * (2 * x + 1 + 2))%nat with ((x + 1) * (2 * x + 3) * 2)%nat by lia. rewrite Nat.mul_assoc, !Nat.div_mul by lia. reflexivity.
  - intros k st Hk. apply in_seq in Hk. rewrite get_lam by lia. cbn [bind]. apply foldM_flat. intros n st' Hn. apply in_seq in Hn. rewrite <- (foldM_map _ _ _ put (knm k n)).
    assert (X : forall ms st, (forall m, In m ms -> (m <= n)%nat) -> foldM (fun st m => bind (nth_res temp (n - m)) (fun a => bind (nth_res temp (n + m)) (fun b => bind (rdiv (len q k ^ n) a) (fun v => bind (rdiv v b) (fun v => put st v))))) ms st = foldM (fun st m => put st (knm k n m)) ms st).
    { induction ms as [|m ms IH]; intros st0 Hm; [reflexivity|]. cbn [foldM]. pose proof (Hm m (or_introl eq_refl)). rewrite (nth_ok _ _ _ _ (H (n - m)%nat ltac:(lia))), (nth_ok _ _ _ _ (H (n + m)%nat ltac:(lia))). cbn [bind].
      pose proof (sqrt_fact_pos (n - m)). pose proof (sqrt_fact_pos (n + m)). unfold rdiv. destruct (Req_EM_T _ 0); [lra|]. cbn [bind]. destruct (Req_EM_T _ 0); [lra|]. cbn [bind]. fold (knm k n m).
      destruct (put st0 (knm k n m)); cbn [bind]; [|reflexivity]. apply IH. intros; apply Hm; right; assumption. }
    apply X. intros m Hm. apply in_seq in Hm. lia.
Qed.
Lemma knm_get k n m : (k < q_s q)%nat -> (m <= n <= p)%nat -> nth_res knm_all (k * ((p + 1) * (p + 2) / 2) + midx n m) = Ok (knm k n m).
Proof.
  intros Hk Hn. apply nth_res_some. rewrite size_tri. unfold knm_all. rewrite (flat_const_nth _ _ _ _ (tri (S p))); [|intros; apply knm_len|exact Hk|apply midx_lt; lia]. cbn [plus].
  rewrite midx_tri, <- tri_sum. rewrite (nsum_ext S (fun n => length (map (knm k n) (seq 0 (S n))))) by (intros; rewrite map_length, seq_length; reflexivity).
  rewrite flat_nth by (try (rewrite map_length, seq_length); lia). rewrite nth_error_map, ListFacts.nth_error_seq by lia. reflexivity.
Qed.

(** ealphaj *)
Definition ea_row (k j : nat) : list cplx := map (fun m => cis (INR m * ang q k j)) (seq 1 (frq q k)).
Definition ea_all : list cplx := flat_map (fun k => flat_map (ea_row k) (seq 1 (cnt q k / 2))) (seq 0 (q_s q)).
Lemma ea_row_len k j : length (ea_row k j) = frq q k.
Proof. unfold ea_row. rewrite map_length, seq_length. reflexivity. Qed.
Lemma ea_ok : generate_ealphaj q = Ok ea_all.
Proof.
  unfold generate_ealphaj. rewrite get_smf by lia. cbn [bind]. rewrite (foldM_flat _ _ _ _ put (fun k => flat_map (ea_row k) (seq 1 (cnt q k / 2)))).
  - fold ea_all. rewrite put_all; [reflexivity|]. unfold ea_all. rewrite flat_len, fplace_sum. apply nsum_ext. intros k _. apply flat_const, ea_row_len.
  - intros k st Hk. apply in_seq in Hk. rewrite get_m, get_f by lia. cbn [bind]. rewrite div_m by lia. cbn [bind]. apply foldM_flat. intros j st' _.
    rewrite (foldM_map _ _ _ put (fun m => cis (INR m * (INR j * (2 * PI / INR (cnt q k)))))). rewrite ang_eq. reflexivity.
Qed.
Lemma ea_get k j m : (k < q_s q)%nat -> (1 <= j <= cnt q k / 2)%nat -> (1 <= m <= frq q k)%nat -> nth_res ea_all (fplace q k + (j - 1) * frq q k + (m - 1)) = Ok (cis (INR m * ang q k j)).
Proof.
  intros Hk Hj Hm. apply nth_res_some. rewrite fplace_sum, <- Nat.add_assoc. rewrite (nsum_ext _ (fun k => length (flat_map (ea_row k) (seq 1 (cnt q k / 2))))) by (intros; symmetry; apply flat_const, ea_row_len).
  unfold ea_all. rewrite flat_nth; [|exact Hk|rewrite (flat_const _ _ _ _ (frq q k)) by apply ea_row_len; nia]. rewrite (flat_const_nth _ _ _ _ (frq q k)); [|apply ea_row_len|lia|lia].
  unfold ea_row. rewrite nth_error_map, ListFacts.nth_error_seq by lia. cbn [option_map]. replace (1 + (m - 1))%nat with m by lia. replace (1 + (j - 1))%nat with j by lia. reflexivity.
Qed.

Definition the_waves : wtab := mkWtab q (xy_all cos) (xy_all sin) z_all knm_all ea_all.
Lemma waves_ok : waves_of p q = Ok the_waves.
Proof. unfold waves_of. rewrite !xys_ok, zs_ok, knm_ok, ea_ok. reflexivity. Qed.
End Tables.
