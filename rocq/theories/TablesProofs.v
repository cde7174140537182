From Coq Require Import ZArith Reals Lra Lia List.
From Verif Require Import Base ListFacts LapModel LapSpec LapProofs LapProps TranModel TranTable WaveModel WaveProps TablesModel TablesSpec.
Import ListNotations.
Open Scope R_scope.

Lemma rdiv_inv a b v : rdiv a b = Ok v -> b <> 0 /\ v = a / b.
Proof. unfold rdiv. destruct (Req_EM_T b 0); [discriminate|]. intros [= <-]. auto. Qed.
Lemma index_inv n k : digits_index n = Ok k -> (0 <= n)%Z /\ k = Z.to_nat n.
Proof. unfold digits_index. destruct (Z.ltb_spec n 0); [discriminate|]. intros [= <-]. auto. Qed.

Lemma laplace_new_right n size t ps : laplace_new n size = Ok t -> right_laplace (mkReq n size ps) t.
Proof.
  unfold laplace_new. destruct (rdiv 1 size) as [s|] eqn:Es; [|discriminate]. cbn [bind]. destruct (digits_index n) as [k|] eqn:Ek; [|discriminate]. cbn [bind].
  destruct (laplace_table k) as [tb|] eqn:Et; [|discriminate]. cbn [bind]. destruct (wave_table k) as [wt|] eqn:Ew; [|discriminate]. cbn [bind]. intros [= <-].
  apply rdiv_inv in Es. destruct Es as [Hs ->]. apply index_inv in Ek. destruct Ek as [Hn ->]. repeat split; auto. cbn. field. exact Hs.
Qed.

Lemma laplace_update_right g r t : (forall t0, g = Some t0 -> exists r0, right_laplace r0 t0) -> laplace_update g r = Ok t -> right_laplace r t.
Proof.
  destruct r as [n size ps]. intros G U. destruct g as [t0|]; cbn [laplace_update r_digits r_size] in U; [|eapply laplace_new_right; exact U].
  destruct (G t0 eq_refl) as (r0 & D & Z0 & Sc & P & T & W). clear G. destruct (Z.eqb_spec (l_digits t0) n) as [E|]; [|eapply laplace_new_right; exact U].
  cbn [negb] in U. rewrite <- D in *. rewrite E in *. destruct (Req_EM_T (l_size t0) size) as [F|F].
  - injection U as <-. repeat split; cbn; auto. rewrite <- F, Z0. exact Sc.
  - unfold laplace_resize in U. destruct (rdiv 1 size) as [s|] eqn:Es; [|discriminate]. cbn [bind] in U. injection U as <-. apply rdiv_inv in Es. destruct Es as [Hs ->].
    repeat split; cbn; auto. field. exact Hs.
Qed.

Section Par.
Context {C : Type} (order : nat -> res nat) (make : nat -> R -> R -> res C).
Lemma par_new_right n size par t rest : par_new order make n size par = Ok t -> right_par order make (mkReq n size (par :: rest)) t.
Proof.
  unfold par_new. intros U. exists par, rest. cbn [r_params r_digits r_size].
  assert (F : exists f, (if Rlt_dec 1 (par * size) then rdiv 1 size else Ok par) = Ok f /\ f * size = Rmin 1 (par * size)).
  { unfold Rmin. destruct (Rlt_dec 1 (par * size)) as [L|L]; destruct (Rle_dec 1 (par * size)) as [M|M]; try lra.
    - unfold rdiv. destruct (Req_EM_T size 0) as [->|N]; [lra|]. eexists. split; [reflexivity|]. field. exact N.
    - exists par. split; [reflexivity|]. lra.
    - exists par. split; [reflexivity|]. reflexivity. }
  destruct F as (f & F & Fs). rewrite F in U. cbn [bind] in U. destruct (digits_index n) as [k|] eqn:Ek; [|discriminate]. cbn [bind] in U.
  destruct (order k) as [p|] eqn:Ep; [|discriminate]. cbn [bind] in U. destruct (make k size par) as [c|] eqn:Ec; [|discriminate]. cbn [bind] in U. injection U as <-.
  apply index_inv in Ek. destruct Ek as [Hn ->]. repeat split; auto.
Qed.
Lemma par_changed_false t n size par : par_changed (C := C) t n size par = false -> k_digits t = n /\ k_size t = size /\ k_par t = par.
Proof.
  unfold par_changed. destruct (Z.eqb_spec (k_digits t) n); [|discriminate]. cbn [negb]. destruct (Req_EM_T (k_size t) size); [|discriminate].
  destruct (Req_EM_T (k_par t) par); [|discriminate]. auto.
Qed.
Lemma par_update_right g r t : (forall t0, g = Some t0 -> exists r0, right_par order make r0 t0) -> par_update order make g r = Ok t -> right_par order make r t.
Proof.
  destruct r as [n size ps]. intros G U. unfold par_update in U. cbn [r_params r_digits r_size] in U. destruct ps as [|par rest]; [discriminate|]. cbn [nth_res nth_error bind] in U.
  destruct g as [t0|]; [|eapply par_new_right; exact U]. destruct (par_changed t0 n size par) eqn:Ch; [eapply par_new_right; exact U|]. injection U as <-.
  apply par_changed_false in Ch. destruct Ch as (A & B & D). destruct (G t0 eq_refl) as (r0 & par0 & rest0 & _ & E1 & E2 & E3 & E4 & E5 & E6 & E7).
  assert (e1 : r_digits r0 = n) by congruence. assert (e2 : r_size r0 = size) by congruence. assert (e3 : par0 = par) by congruence. rewrite e1, ?e2, ?e3 in *. exists par, rest. cbn. repeat split; congruence || assumption.
Qed.
End Par.

(** Any kernel: [right] relates a request to the table for it. *)
Section Calls.
Context {T : Type} (update : option T -> request -> res T) (right : request -> T -> Prop).
Hypothesis update_right : forall g r t, (forall t0, g = Some t0 -> exists r0, right r0 t0) -> update g r = Ok t -> right r t.

Definition good (cs : list call) (s : state T) : Prop :=
  Forall2 right (created cs) (dags s) /\ now s = last (map Some (dags s)) None /\ length (log s) = executed cs.

Lemma created_app a b : created (a ++ b) = created a ++ created b.
Proof. induction a as [|[r|k] a IH]; cbn; congruence. Qed.
Lemma executed_app a b : executed (a ++ b) = (executed a + executed b)%nat.
Proof. induction a as [|[r|k] a IH]; cbn; congruence. Qed.
Lemma run_app a b s : run update (a ++ b) s = do s1 <- run update a s; run update b s1.
Proof. unfold run. revert s. induction a as [|c a IH]; intros s; cbn [foldM app bind]; [reflexivity|]. destruct (step update s c) as [s1|]; cbn [bind]; [apply IH|reflexivity]. Qed.
Lemma last_snoc {A} (l : list A) a d : last (l ++ [a]) d = a.
Proof. induction l as [|x l IH]; [reflexivity|]. cbn [app last]. destruct (l ++ [a]) eqn:E; [destruct l; discriminate|exact IH]. Qed.
Lemma last_some (l : list T) t : last (map Some l) None = Some t -> exists l0, l = l0 ++ [t].
Proof.
  destruct l as [|x l] using rev_ind; [discriminate|]. rewrite map_app. cbn [map]. rewrite last_snoc. intros [= ->]. eauto.
Qed.

Lemma run_good cs s : run update cs initial = Ok s -> good cs s.
Proof.
  revert s. induction cs as [|c cs IH] using rev_ind; intros s E.
  - injection E as <-. split; [constructor|]. split; reflexivity.
  - rewrite run_app in E. destruct (run update cs initial) as [s1|] eqn:E1; [|discriminate]. cbn [bind] in E. destruct (IH s1 eq_refl) as (D & N & L). clear IH.
    unfold run in E. cbn [foldM] in E. destruct c as [r|k]; unfold step in E.
    + destruct (update (now s1) r) as [t|] eqn:U; [|discriminate]. cbn [bind] in E. injection E as <-. split; [|split].
      * rewrite created_app. cbn [created dags]. apply Forall2_app; [exact D|]. constructor; [|constructor]. apply (update_right (now s1)); [|exact U].
        intros t0 Ht. rewrite N in Ht. apply last_some in Ht. destruct Ht as (l0 & Hl). rewrite Hl in D. apply Forall2_app_inv_r in D. destruct D as (q1 & q2 & _ & D2 & _).
        inversion D2; subst. eauto.
      * cbn [now dags]. rewrite map_app. cbn [map]. rewrite last_snoc. reflexivity.
      * rewrite executed_app. cbn. lia.
    + destruct (nth_res (dags s1) k) as [d|] eqn:Ed; [|discriminate]. cbn [bind] in E. destruct (now s1) as [t|] eqn:Et; [|discriminate]. cbn [bind] in E. injection E as <-.
      split; [|split].
      * rewrite created_app. cbn [created dags]. rewrite app_nil_r. exact D.
      * cbn [now dags]. exact N.
      * rewrite executed_app. cbn [executed log]. rewrite app_length. cbn. lia.
Qed.

Lemma log_grows b s s' : run update b s = Ok s' -> exists l, log s' = log s ++ l.
Proof.
  revert s. induction b as [|c b IH]; intros s E; unfold run in E; cbn [foldM] in E; [injection E as <-; exists []; rewrite app_nil_r; reflexivity|].
  destruct (step update s c) as [s1|] eqn:E1; [|discriminate]. cbn [bind] in E. destruct (IH s1 E) as (l & Hl). unfold step in E1. destruct c as [r|k].
  - destruct (update (now s) r); [|discriminate]. cbn [bind] in E1. injection E1 as <-. eauto.
  - destruct (nth_res (dags s) k); [|discriminate]. cbn [bind] in E1. destruct (now s); [|discriminate]. injection E1 as <-. cbn [log] in Hl. rewrite <- app_assoc in Hl. eauto.
Qed.

Lemma Forall2_nth_r {A B} (P : A -> B -> Prop) l l' k b : Forall2 P l l' -> nth_error l' k = Some b -> exists a, nth_error l k = Some a /\ P a b.
Proof. intros H. revert k. induction H as [|x y l l' Hxy _ IH]; intros [|k] E; cbn in *; try discriminate; [injection E as <-; eauto|auto]. Qed.

Lemma F2_length {A B} (P : A -> B -> Prop) l l' : Forall2 P l l' -> length l = length l'.
Proof. induction 1; cbn; congruence. Qed.
Lemma used a k b s : run update (a ++ Execute k :: b) initial = Ok s ->
  exists d t rk rl q, nth_error (log s) (executed a) = Some (d, t) /\ nth_error (created a) k = Some rk /\ created a = q ++ [rl] /\ right rk d /\ right rl t /\
    (S k = length (created a) -> d = t).
Proof.
  intros E. change (Execute k :: b) with ([Execute k] ++ b) in E. rewrite app_assoc in E. rewrite run_app in E. destruct (run update (a ++ [Execute k]) initial) as [s2|] eqn:E2; [|discriminate].
  cbn [bind] in E. apply log_grows in E. destruct E as (l & El). rewrite run_app in E2. destruct (run update a initial) as [s1|] eqn:E1; [|discriminate]. cbn [bind] in E2.
  destruct (run_good a s1 E1) as (D & N & L). unfold run in E2. cbn [foldM] in E2. unfold step in E2. destruct (nth_res (dags s1) k) as [d|] eqn:Ed; [|discriminate]. cbn [bind] in E2.
  destruct (now s1) as [t|] eqn:Et; [|discriminate]. cbn [bind] in E2. injection E2 as <-. cbn [log] in El. apply nth_res_ok in Ed.
  destruct (Forall2_nth_r _ _ _ _ _ D Ed) as (rk & Hk & Rk). symmetry in N. apply last_some in N. destruct N as (l0 & Hl). pose proof D as D'. rewrite Hl in D. apply Forall2_app_inv_r in D.
  destruct D as (q1 & q2 & _ & D2 & Hq). inversion D2 as [|x y z w Rx Dn]; subst. inversion Dn; subst. exists d, t, rk, x, q1. split; [|split; [|split; [|split; [|split]]]]; auto.
  - rewrite El, <- L, <- app_assoc. rewrite nth_error_app2 by lia. rewrite Nat.sub_diag. reflexivity.
  - intros Hlen. apply F2_length in D'. rewrite <- Hlen in D'. rewrite Hl in Ed, D'. rewrite app_length in D'. cbn in D'. rewrite nth_error_app2 in Ed by lia.
    replace (k - length l0)%nat with 0%nat in Ed by lia. cbn in Ed. congruence.
Qed.

Lemma created_evaluations k rs : created (evaluations k rs) = rs /\ executed (evaluations k rs) = length rs.
Proof. revert k. induction rs as [|r rs IH]; intros k; cbn; [auto|]. destruct (IH (S k)) as [-> ->]. auto. Qed.
Lemma evaluations_app k a b : evaluations k (a ++ b) = evaluations k a ++ evaluations (k + length a) b.
Proof. revert k. induction a as [|r a IH]; intros k; cbn [app evaluations length]; [rewrite Nat.add_0_r; reflexivity|]. rewrite IH. replace (S k + length a)%nat with (k + S (length a))%nat by lia. reflexivity. Qed.

(** calls of evaluate after any calls *)
Lemma evaluated h rs s j r : run update (h ++ evaluations (length (created h)) rs) initial = Ok s -> nth_error rs j = Some r ->
  exists t, nth_error (log s) (executed h + j) = Some (t, t) /\ right r t.
Proof.
  intros E Hj. apply nth_error_split in Hj. destruct Hj as (l1 & l2 & -> & <-). rewrite evaluations_app in E. cbn [evaluations] in E.
  set (K := (length (created h) + length l1)%nat) in *.
  replace (h ++ evaluations (length (created h)) l1 ++ Create r :: Execute K :: evaluations (S K) l2)
    with ((h ++ evaluations (length (created h)) l1 ++ [Create r]) ++ Execute K :: evaluations (S K) l2) in E by (rewrite <- !app_assoc; reflexivity).
  apply used in E. destruct E as (d & t & rk & rl & q & H1 & H2 & H3 & H4 & H5 & H6).
  rewrite !created_app in *. rewrite !executed_app in H1. destruct (created_evaluations (length (created h)) l1) as [C1 C2]. rewrite C1 in *. rewrite C2 in H1. cbn [created executed] in *.
  rewrite !app_length in H6. cbn [length] in H6. specialize (H6 ltac:(unfold K; lia)). subst d. exists t. split; [replace (executed h + length l1)%nat with (executed h + (length l1 + 0))%nat by lia; exact H1|].
  rewrite app_assoc in H3. apply app_inj_tail in H3. destruct H3 as [_ ->]. exact H5.
Qed.
End Calls.

(** The effect of another scale *)
Lemma sub_stretch k c s : point_sub (cpos (stretch k c s)) c = mkPt (k * px (point_sub (cpos s) c)) (k * py (point_sub (cpos s) c)) (k * pz (point_sub (cpos s) c)).
Proof. destruct s as [q [x y z]], c as [a b e]. unfold stretch, point_sub. cbn. f_equal; ring. Qed.

Lemma norm3_scal k d : 0 < k -> norm3 (mkPt (k * px d) (k * py d) (k * pz d)) = k * norm3 d.
Proof.
  intros K. apply norm3_unique; [apply Rmult_le_pos; [lra|apply norm3_nonneg]|]. cbn [px py pz]. replace (k * norm3 d * (k * norm3 d)) with (k * k * (norm3 d * norm3 d)) by ring. rewrite norm3_sq. ring.
Qed.

Lemma angles_scal sgn d k : 0 < k -> tiny < norm3 d -> tiny < k * norm3 d -> forall r ct e, angles sgn d = Ok (r, ct, e) ->
  angles sgn (mkPt (k * px d) (k * py d) (k * pz d)) = Ok (k * r, ct, e).
Proof.
  intros K T1 T2 r ct e. assert (T := tiny_pos). unfold angles. rewrite norm3_scal by exact K. cbn [px py pz].
  assert (P : sqrt (k * px d * (k * px d) + k * py d * (k * py d)) = k * sqrt (px d * px d + py d * py d)).
  { replace (k * px d * (k * px d) + k * py d * (k * py d)) with ((k * k) * (px d * px d + py d * py d)) by ring. rewrite sqrt_mult_alt by nra. rewrite sqrt_square by lra. reflexivity. }
  rewrite P. set (pj := sqrt (px d * px d + py d * py d)) in *. set (n := norm3 d) in *.
  destruct (Rle_dec n tiny); [lra|]. destruct (Rle_dec (k * n) tiny); [lra|].
  assert (Q : forall x y, rdiv (k * x) (k * y) = rdiv x y).
  { intros x y. unfold rdiv. destruct (Req_EM_T (k * y) 0) as [Y|Y]; destruct (Req_EM_T y 0) as [Y'|Y'].
    - reflexivity.
    - exfalso. apply Rmult_integral in Y. lra.
    - exfalso. apply Y. rewrite Y'. ring.
    - f_equal. field. lra. }
  rewrite !Q. replace (sgn * (k * py d)) with (k * (sgn * py d)) by ring. rewrite Q. destruct (rdiv (pz d) n); [|discriminate]. cbn [bind]. destruct (rdiv pj n) as [ratio|]; [|discriminate]. cbn [bind].
  intros H. destruct (if Rle_dec ratio tiny then _ else _) as [v|]; [|discriminate]. cbn [bind] in *. injection H as <- <- <-. reflexivity.
Qed.

Lemma s_to_m_scal p sqf d q s1 s2 M k : 0 < k -> s1 = k * s2 -> tiny < norm3 d -> tiny < k * norm3 d ->
  lap_s_to_m p sqf d q s1 M = lap_s_to_m p sqf (mkPt (k * px d) (k * py d) (k * pz d)) q s2 M.
Proof.
  intros K -> T1 T2. assert (T := tiny_pos). destruct (angles_ok (-1) d) as (ct & e & A & _); [lra|lra|].
  unfold lap_s_to_m. rewrite (angles_scal (-1) d k K T1 T2 _ _ _ A), A. destruct (set_res _ 0 1); [|reflexivity]. cbn [bind]. destruct (set_res _ 0 (1, 0)); [|reflexivity]. cbn [bind].
  replace (k * norm3 d * s2) with (norm3 d * (k * s2)) by ring. reflexivity.
Qed.

Lemma S_to_M_scal p sqf s1 s2 c l k : 0 < k -> s1 = k * s2 -> (forall s, In s l -> tiny < dist c (cpos s) /\ tiny < k * dist c (cpos s)) ->
  S_to_M p sqf s1 c l = S_to_M p sqf s2 c (map (stretch k c) l).
Proof.
  intros K E H. unfold S_to_M. generalize (new_expansion p). induction l as [|s l IH]; intros M; [reflexivity|]. cbn [foldM map].
  destruct (H s (or_introl eq_refl)) as [H1 H2]. rewrite <- norm3_dist in H1, H2. rewrite (s_to_m_scal p sqf _ _ s1 s2 M k K E H1 H2), sub_stretch.
  change (cq (stretch k c s)) with (cq s). destruct (lap_s_to_m _ _ _ _ _ _); [|reflexivity]. cbn [bind]. apply IH. intros s' Hin. apply H. right. exact Hin.
Qed.

Lemma dist_stretch k c s : 0 < k -> dist c (cpos (stretch k c s)) = k * dist c (cpos s).
Proof. intros K. rewrite <- !norm3_dist, sub_stretch. apply norm3_scal, K. Qed.
Lemma off_stretch k c s : 0 < k -> off_axis c (cpos (stretch k c s)) = k * off_axis c (cpos s).
Proof.
  intros K. unfold off_axis, stretch. cbn [cpos px py]. replace (_ + _) with ((k * k) * ((px (cpos s) - px c) ^ 2 + (py (cpos s) - py c) ^ 2)) at 1 by ring.
  rewrite sqrt_mult_alt by nra. rewrite sqrt_square by lra. reflexivity.
Qed.
Lemma regular_stretch k c s : 0 < k -> regular c (cpos s) -> / 10 ^ 14 < k * dist c (cpos s) -> regular c (cpos (stretch k c s)).
Proof.
  intros K [_ B] C. split; rewrite !dist_stretch by exact K; [exact C|]. rewrite off_stretch by exact K. destruct B as [B|B]; [left; rewrite B; ring|right].
  replace (/ 10 ^ 14 * (k * dist c (cpos s))) with (k * (/ 10 ^ 14 * dist c (cpos s))) by ring. apply Rmult_lt_compat_l; assumption.
Qed.
Lemma total_stretch k c l : total_charge (map (stretch k c) l) = total_charge l.
Proof. induction l as [|s l IH]; cbn; [reflexivity|]. f_equal. exact IH. Qed.

Lemma leaf_stretched made used ra ru lev c l t phi a (k := r_size ra / r_size ru) : right_laplace ra made -> right_laplace ru used -> 0 < r_size ra -> 0 < r_size ru ->
  0 <= k * a < dist c t -> regular c t -> (forall s, In s l -> dist c (cpos s) <= a /\ regular c (cpos s) /\ / 10 ^ 14 < k * dist c (cpos s)) ->
  exists v, leaf made used lev c l t phi = Ok (phi + v) /\
    Rabs (v - coulomb (map (stretch k c) l) t) <= total_charge l / (dist c t - k * a) * (k * a / dist c t) ^ (tb_p (fst (l_parts used)) + 1).
Proof.
  intros (_ & _ & Sa & _) (_ & _ & Su & _ & Tu & _) Pa Pu Ha Rt Hl. assert (K : 0 < k) by (apply Rdiv_lt_0_compat; assumption).
  set (tb := fst (l_parts used)) in *. set (sa := laplace_scale made lev). set (su := laplace_scale used lev).
  assert (G : generate_sqf (tb_p tb) = Ok (tb_sqf tb)).
  { unfold laplace_table in Tu. destruct (nth_res _ _) as [p|]; [|discriminate]. cbn [bind] in Tu. unfold table_of_order in Tu. destruct (generate_sqf p) as [sq|] eqn:Eg; [|discriminate].
    cbn [bind] in Tu. destruct (generate_sqbinom p); [|discriminate]. cbn [bind] in Tu. destruct (generate_wigner_dmatrix p) as [[dp dm]|]; [|discriminate]. cbn [bind] in Tu. injection Tu as <-. exact Eg. }
  assert (P2 : 0 < 2 ^ lev) by (apply pow_lt; lra).
  assert (Ea : l_scale made = / r_size ra) by (apply Rmult_eq_reg_r with (r_size ra); [rewrite Sa; field|]; lra).
  assert (Eu : l_scale used = / r_size ru) by (apply Rmult_eq_reg_r with (r_size ru); [rewrite Su; field|]; lra).
  assert (Es : su = k * sa) by (unfold su, sa, laplace_scale, k; rewrite Ea, Eu; field; lra).
  assert (Na : sa <> 0) by (unfold sa, laplace_scale; rewrite Ea; apply Rmult_integral_contrapositive; split; [apply Rinv_neq_0_compat|]; lra).
  destruct (C59_multipole_regular (tb_p tb) (tb_sqf tb) sa c (map (stretch k c) l) (k * a) t phi G Na Ha Rt) as (M & v & EM & EV & B).
  { intros s Hin. apply in_map_iff in Hin. destruct Hin as (s0 & <- & Hin). destruct (Hl s0 Hin) as (D & Rg & Q). rewrite dist_stretch by exact K. split; [apply Rmult_le_compat_l; lra|]. apply regular_stretch; assumption. }
  exists v. split; [|rewrite total_stretch in B; exact B]. unfold leaf. fold tb su sa.
  rewrite (S_to_M_scal _ _ su sa c l k K Es), EM. 2:{ intros s Hin. destruct (Hl s Hin) as (_ & [Rg _] & Q). split; assumption. }
  cbn [bind]. destruct (C59_adds (tb_p tb) (tb_sqf tb) sa c [] (map (stretch k c) l) G Na) as [(M1 & M2 & M' & A1 & A2 & A3 & A4) _].
  { cbn [app]. intros s Hin Hc. apply in_map_iff in Hin. destruct Hin as (s0 & <- & Hin). destruct (Hl s0 Hin) as (_ & _ & Q). rewrite <- (dist_stretch k c s0 K), Hc in Q.
    unfold dist in Q. rewrite !Rminus_eq_0 in Q. replace (0 ^ 2 + 0 ^ 2 + 0 ^ 2) with 0 in Q by ring. rewrite sqrt_0 in Q. assert (T := tiny_pos). unfold tiny in T. lra. }
  cbn [app] in A3. unfold S_to_M in A1. cbn [foldM] in A1. injection A1 as <-. rewrite A2 in A3. rewrite EM in A2. injection A2 as <-. injection A3 as <-. rewrite A4. cbn [bind]. exact EV.
Qed.
