(** From the charges of the source boxes to a target: I_to_I, the sums of views, I_to_L. *)
From Coq Require Import Reals List Lia Lra ZArith Psatz Arith.
From Coquelicot Require Import Coquelicot.
From Verif Require Import Base ListFacts IndexModel LegSpec LegProofs LegAdd LapModel LapSpec LapArrays LapProofs SolidProofs SolidAdd SolidPair SolidTrans SolidMtl TranModel TranSpec TranArrays TranOps TranField TranMove TranDmat TranTable TranEval TranProofs DagSpec MergeShiftModel MergeShiftSpec MergeShiftProofs WaveModel WaveSpec WaveAlg WaveTab WaveUp WaveFrom WaveShift WaveInto.
From Coq Require Import FunctionalExtensionality.
Import ListNotations.
Open Scope C_scope.

(** ** half of the angles are enough *)
Lemma cis_pi a : cis (a + PI) = RtoC (-1) * cis a.
Proof. unfold cis. rewrite neg_cos, neg_sin. ceq. Qed.
Lemma cis_pi_mul m a : cis (INR m * (a + PI)) = RtoC ((-1) ^ m) * cis (INR m * a).
Proof.
  induction m as [|m IH]; [cbn [INR pow]; rewrite !Rmult_0_l; ceq|]. rewrite S_INR. replace ((INR m + 1) * (a + PI))%R with (INR m * (a + PI) + (a + PI))%R by ring. replace ((INR m + 1) * a)%R with (INR m * a + a)%R by ring.
  rewrite (cis_add _ (a + PI)), (cis_add _ a), IH, cis_pi. cbn [pow]. rewrite RtoC_mult. ring.
Qed.
Lemma T_pi v n m a : T v n m (a + PI) = Cconj (T v n m a).
Proof.
  unfold T. rewrite conj_mul, cis_pi_mul. set (h := har v n (n + m)). set (e := cis (INR m * a)).
  replace (h * (RtoC ((-1) ^ m) * e)) with (RtoC ((-1) ^ m) * (h * e)) by ring. rewrite fst_scal. rewrite <- (cp_Ci_sign m) at 1.
  set (u := Cconj (cp Ci m)). set (w := fst (h * e)). replace (Cconj (RtoC (eps m * w / nf n (n + m)))) with (RtoC (eps m * w / nf n (n + m))) by ceq.
  assert (X : (((-1) ^ m) * ((-1) ^ m) = 1)%R) by (rewrite <- Rpow_mult_distr; replace (-1 * -1)%R with 1%R by ring; apply pow1).
  transitivity (u * RtoC ((-1) ^ m * (-1) ^ m * (eps m * w / nf n (n + m)))); [|rewrite X, Rmult_1_l; reflexivity].
  unfold Rdiv. rewrite !RtoC_mult. ring.
Qed.
Lemma conj_R (r : R) : Cconj (RtoC r) = RtoC r. Proof. ceq. Qed.
Lemma lp_pi kap v p f a : lp kap v p f (a + PI) = Cconj (lp kap v p f a).
Proof.
  unfold lp. rewrite csum_conj. apply csum_ext. intros m _. rewrite csum_conj. apply csum_ext. intros n _. destruct (m <=? n)%nat; [|symmetry; apply conj_R]. rewrite conj_mul, conj_R, T_pi. reflexivity.
Qed.
Lemma cexp_pi lam v a : cexp (exponent lam v (a + PI)) = Cconj (cexp (exponent lam v a)).
Proof.
  unfold cexp, exponent. cbn [fst snd]. rewrite conj_mul, conj_R, cis_conj. f_equal. f_equal. rewrite neg_cos, neg_sin. ring.
Qed.
Lemma rtotal_rsum f n : rtotal f n = rsum f n.
Proof. induction n as [|n IH]; [reflexivity|]. cbn [rtotal rsum]. rewrite IH. reflexivity. Qed.

Section Chain.
Variable (q : quad) (tb : table) (corner : pt) (size : R).
Hypothesis Q : qok q.
Hypothesis HS : sound tb.
Hypothesis Hsize : (0 < size)%R.
Notation p := (tb_p tb).
Notation wt := (the_waves q p).
Notation resum := (resum q).

Lemma quad_half g : (forall k a, (k < q_s q)%nat -> g k (a + PI)%R = Cconj (g k a)) -> quadrature q g = resum (fun k j => RtoC (wgt q k / INR (cnt q k)) * g k (ang q k j)).
Proof.
  intros Hg. unfold quadrature, WaveInto.resum. rewrite rtotal_rsum. apply rsum_ext. intros k Hk. rewrite rtotal_rsum. pose proof (k_pos q Q k Hk) as P. pose proof (k_even q Q k Hk) as Ev.
  assert (N : (0 < INR (cnt q k))%R) by (apply lt_0_INR; lia). set (h := (cnt q k / 2)%nat) in *.
  replace (rsum (fun j => fst (g k (ang q k (S j)))) (cnt q k)) with (rsum (fun i => 2 * fst (g k (ang q k (S i))))%R h).
  - rewrite (rsum_ext (fun i => 2 * fst (RtoC (wgt q k / INR (cnt q k)) * g k (ang q k (S i)))%C)%R (fun i => (wgt q k / INR (cnt q k)) * (2 * fst (g k (ang q k (S i)))))%R) by (intros i _; rewrite fst_scal; ring). rewrite (rsum_scal (wgt q k / INR (cnt q k))). unfold Rdiv. ring.
  - assert (E2 : cnt q k = (h + h)%nat) by lia. transitivity (rsum (fun j => fst (g k (ang q k (S j)))) (h + h)); [|f_equal; lia]. rewrite rsum_split, <- rsum_plus. apply rsum_ext. intros i Hi. replace (ang q k (S (h + i))) with (ang q k (S i) + PI)%R.
    + rewrite Hg by exact Hk. cbn [Cconj fst]. unfold Cconj. cbn [fst]. ring.
    + unfold ang. replace (S (h + i)) with (h + S i)%nat by lia. rewrite plus_INR. assert (E3 : INR (cnt q k) = (2 * INR h)%R) by (rewrite E2, plus_INR; ring). rewrite E3 in *. field. lra.
Qed.

(** ** linearity *)
Lemma resum_ext f g : (forall k j, (k < q_s q)%nat -> (1 <= j <= cnt q k / 2)%nat -> f k j = g k j) -> resum f = resum g.
Proof. intros H. unfold WaveInto.resum. apply rsum_ext. intros k Hk. apply rsum_ext. intros i Hi. rewrite H by lia. reflexivity. Qed.
Lemma resum_plus f g : resum (fun k j => f k j + g k j) = (resum f + resum g)%R.
Proof. unfold WaveInto.resum. rewrite <- rsum_plus. apply rsum_ext. intros k _. rewrite <- rsum_plus. apply rsum_ext. intros i _. rewrite fst_add. ring. Qed.
Lemma resum_scal r f : resum (fun k j => RtoC r * f k j) = (r * resum f)%R.
Proof. unfold WaveInto.resum. rewrite <- rsum_scal. apply rsum_ext. intros k _. rewrite <- rsum_scal. apply rsum_ext. intros i _. rewrite fst_scal. ring. Qed.
Lemma resum_zero : resum (fun _ _ => 0) = 0%R.
Proof. unfold WaveInto.resum. transitivity (rsum (fun _ => 0%R) (q_s q)); [|apply rsum_zero]. apply rsum_ext. intros k _. transitivity (rsum (fun _ => 0%R) (cnt q k / 2)); [|apply rsum_zero]. apply rsum_ext. intros i _. cbn [fst RtoC]. ring. Qed.

Fixpoint rlsum {X} (f : X -> R) (l : list X) : R := match l with [] => 0%R | x :: l => (f x + rlsum f l)%R end.
Lemma rlsum_app X (f : X -> R) a b : rlsum f (a ++ b) = (rlsum f a + rlsum f b)%R.
Proof. induction a as [|x a IH]; cbn [app rlsum]; [ring|]. rewrite IH. ring. Qed.
Lemma rlsum_flat X Y (f : Y -> R) (g : X -> list Y) l : rlsum f (flat_map g l) = rlsum (fun x => rlsum f (g x)) l.
Proof. induction l as [|x l IH]; [reflexivity|]. cbn [flat_map rlsum]. rewrite rlsum_app, IH. reflexivity. Qed.
Lemma rlsum_ext X (f g : X -> R) l : (forall x, In x l -> f x = g x) -> rlsum f l = rlsum g l.
Proof. induction l as [|x l IH]; intros H; [reflexivity|]. cbn [rlsum]. rewrite H by (left; reflexivity). rewrite IH by (intros; apply H; right; assumption). reflexivity. Qed.
Lemma rlsum_plus X (f g : X -> R) l : rlsum (fun x => f x + g x)%R l = (rlsum f l + rlsum g l)%R.
Proof. induction l as [|x l IH]; cbn [rlsum]; [ring|]. rewrite IH. ring. Qed.
Lemma rlsum_scal X (f : X -> R) r l : rlsum (fun x => r * f x)%R l = (r * rlsum f l)%R.
Proof. induction l as [|x l IH]; cbn [rlsum]; [ring|]. rewrite IH. ring. Qed.

(** ** the accumulators of I_to_L *)
Notation W := (nat -> nat -> C).
Definition six : list dir := [MZ; PZ; MY; PY; MX; PX].
Definition accs (A : dir -> W) (acc : list (list cplx)) : Prop := length acc = 6%nat /\ forall d, nth_error acc (slot d) = Some (wave_list q (A d)).
Definition mfac (m : move) : W := sfac q (m_x m) (m_y m) (m_z m).
Definition fits (V : Z -> W) (views : list (list cplx)) : Prop := length views = 28%nat /\ forall tag, (0 <= tag < 28)%Z -> nth_error views (Z.to_nat tag) = Some (wave_list q (V tag)).
Definition mok (m : move) : Prop := (-3 <= m_x m <= 3)%Z /\ (-3 <= m_y m <= 3)%Z /\ (0 <= m_z m <= 3)%Z /\ (0 <= m_tag m < 28)%Z.

Lemma slot_inj d d' : slot d = slot d' -> d = d'. Proof. destruct d, d'; cbn; congruence. Qed.
Lemma slot_lt d : (slot d < 6)%nat. Proof. destruct d; cbn; lia. Qed.
Definition weigh (A : dir -> W) (LP : dir -> W) : R := rlsum (fun d => resum (fun k j => A d k j * LP d k j)) six.
Definition mval (V : Z -> W) (LP : dir -> W) (m : move) : R := resum (fun k j => V (m_tag m) k j * mfac m k j * LP (m_acc m) k j).
Lemma weigh_add A m (D : W) LP : weigh (fun d => if dir_eqb d m then fun k j => A d k j + D k j else A d) LP = (weigh A LP + resum (fun k j => (D k j * LP m k j)%C))%R.
Proof.
  assert (X : resum (fun k j => (A m k j + D k j) * LP m k j) = (resum (fun k j => (A m k j * LP m k j)%C) + resum (fun k j => (D k j * LP m k j)%C))%R).
  { rewrite <- resum_plus. apply resum_ext. intros. ring. }
  unfold weigh, six. destruct m; cbn [rlsum dir_eqb]; rewrite X; ring.
Qed.
Lemma acc_loop V views ms : fits V views -> List.Forall mok ms -> forall A acc, accs A acc ->
  exists A' acc', foldM (fun acc m => bind (nth_resZ views (m_tag m)) (fun W => bind (nth_res acc (slot (m_acc m))) (fun a => bind (lap_e_to_e wt a W (m_x m) (m_y m) (m_z m)) (fun a => set_res acc (slot (m_acc m)) a)))) ms acc = Ok acc' /\
    accs A' acc' /\ forall LP, weigh A' LP = (weigh A LP + rlsum (mval V LP) ms)%R.
Proof.
  intros [LV HV] Hm. induction Hm as [|m ms Hm _ IH]; intros A acc [LA HA].
  - exists A, acc. split; [reflexivity|]. split; [split; assumption|]. intros LP. cbn [rlsum]. ring.
  - cbn [foldM]. destruct Hm as (B1 & B2 & B3 & B4). rewrite (nth_resZ_some _ _ _ _ _ (eq_sym (Z2Nat.id _ (proj1 B4))) (HV _ B4)). cbn [bind]. rewrite (nth_res_some _ _ _ _ (HA (m_acc m))). cbn [bind].
    rewrite (e_to_e_ok q p Q) by assumption. cbn [bind]. rewrite set_res_ok by (rewrite LA; apply slot_lt). cbn [bind].
    destruct (IH (fun d => if dir_eqb d (m_acc m) then fun k j => A d k j + V (m_tag m) k j * mfac m k j else A d) (upd acc (slot (m_acc m)) (wave_list q (fun k j => A (m_acc m) k j + V (m_tag m) k j * mfac m k j)))) as (A' & acc' & E' & H' & G').
    { split; [rewrite upd_length; exact LA|]. intros d. destruct (dir_eqb d (m_acc m)) eqn:Ed.
      - apply dir_eqb_eq in Ed. subst d. rewrite upd_same by (rewrite LA; apply slot_lt). reflexivity.
      - rewrite upd_other; [apply HA|]. intros Es. apply slot_inj in Es. subst d. revert Ed. destruct (m_acc m); discriminate. }
    exists A', acc'. split; [exact E'|]. split; [exact H'|]. intros LP. rewrite G', weigh_add. cbn [rlsum]. unfold mval at 2. ring.
Qed.

Lemma unit_bound n i (u : unit) : nth_resZ (repeat tt n) i = Ok u -> (0 <= i < Z.of_nat n)%Z.
Proof.
  intros H. unfold nth_resZ in H. destruct (Z.ltb_spec i 0); [discriminate|]. unfold nth_res in H. destruct (nth_error (repeat tt n) (Z.to_nat i)) eqn:E; [|discriminate].
  assert (N : nth_error (repeat tt n) (Z.to_nat i) <> None) by congruence. apply nth_error_Some in N. rewrite repeat_length in N. lia.
Qed.
Lemma e_to_e_bounds k x y z v : k <> HelProp -> e_to_e k x y z = Ok v -> (-3 <= x <= 3)%Z /\ (-3 <= y <= 3)%Z /\ (0 <= z <= 3)%Z.
Proof.
  intros Hk H. unfold e_to_e in H. destruct (nth_resZ (repeat tt 7) (3 + x)) eqn:E1; [|discriminate]. cbn [bind] in H. destruct (nth_resZ (repeat tt 7) (3 + y)) eqn:E2; [|discriminate]. cbn [bind] in H.
  apply unit_bound in E1, E2. destruct k; try congruence; apply unit_bound in H; lia.
Qed.
Lemma mapM_in A B (f : A -> res B) l r y : mapM f l = Ok r -> In y r -> exists x, In x l /\ f x = Ok y.
Proof.
  revert r. induction l as [|x l IH]; intros r H I; [injection H as <-; destruct I|]. cbn [mapM] in H. destruct (f x) eqn:E; [|discriminate]. cbn [bind] in H. destruct (mapM f l) eqn:E'; [|discriminate]. injection H as <-.
  destruct I as [->|I]; [exists x; split; [left; reflexivity|exact E]|]. destruct (IH _ eq_refl I) as (x' & I' & F). exists x'. split; [right; exact I'|exact F].
Qed.
Lemma i_to_l_ok u ms : i_to_l Lap u = Ok ms -> List.Forall mok ms.
Proof.
  unfold i_to_l. destruct (nth_resZ (shifts Lap) _) as [l|]; [|intros H; injection H as <-; constructor]. intros H. apply List.Forall_forall. intros m I. destruct (mapM_in _ _ _ _ _ _ H I) as (x & _ & F).
  destruct (nth_resZ (repeat tt 28) (m_tag x)) eqn:E1; [|discriminate]. cbn [bind] in F. destruct (e_to_e Lap (m_x x) (m_y x) (m_z x)) eqn:E2; [|discriminate]. injection F as <-. destruct (e_to_e_bounds Lap _ _ _ _ ltac:(discriminate) E2) as (B1 & B2 & B3).
  pose proof (unit_bound _ _ _ E1). unfold mok. tauto.
Qed.

(** ** I_to_L *)
Definition LPt (t : vec) (d : dir) : W := fun k j => lp (- sgn d * len q k) (turn d t) p (frq q k) (ang q k j).
Lemma six_loop (A : dir -> W) acc : accs A acc -> forall ds c0 L, coefs p c0 L -> reals p c0 ->
  exists c L', foldM (fun L x => bind (nth_res acc (slot (fst (fst x)))) (fun E => lap_e_to_l tb wt E (snd (fst x)) (snd x) L)) (map (fun d => (d, axis_of d, plus_dir d)) ds) L = Ok L' /\
    coefs p c L' /\ reals p c /\ forall t, val p c t = (val p c0 t + rlsum (fun d => resum (fun k j => (A d k j * LPt t d k j)%C)) ds)%R.
Proof.
  intros [LA HA]. induction ds as [|d ds IH]; intros c0 L HL Hr; cbn [map foldM].
  - exists c0, L. split; [reflexivity|]. split; [exact HL|]. split; [exact Hr|]. intros t. cbn [rlsum]. ring.
  - cbn [fst snd]. rewrite (nth_res_some _ _ _ _ (HA d)). cbn [bind]. destruct (e_to_l_ok q tb Q HS d (A d) c0 L HL) as (L1 & c1 & E1 & H1 & R1 & V1). rewrite E1. cbn [bind].
    destruct (IH _ L1 H1 (reals_plus _ _ _ Hr R1)) as (c & L' & E' & H' & R' & V'). exists c, L'. split; [exact E'|]. split; [exact H'|]. split; [exact R'|]. intros t. rewrite V', val_plus, V1. cbn [rlsum]. unfold LPt. ring.
Qed.
Lemma new_zero : coefs p (fun _ _ => RtoC 0) (new_expansion p) /\ reals p (fun _ _ => RtoC 0).
Proof. split; [apply new_coefs|intros n _; reflexivity]. Qed.

Lemma I_to_L_ok sc u V views ms : fits V views -> i_to_l Lap u = Ok ms ->
  exists c L, I_to_L tb wt sc u views = Ok L /\ coefs p c L /\ reals p c /\ forall t, val p c t = (sc * 2 * rlsum (mval V (LPt t)) ms)%R.
Proof.
  intros HV Em. unfold I_to_L. rewrite Em. cbn [bind w_q the_waves].
  assert (A0 : accs (fun _ _ _ => (0, 0)%R) (repeat (repeat (0, 0)%R (q_nexp q)) 6)).
  { split; [reflexivity|]. intros d. rewrite (zeros q Q) by reflexivity. destruct d; reflexivity. }
  destruct (acc_loop V views ms HV (i_to_l_ok u ms Em) _ _ A0) as (A & acc & E & H & G).
  match goal with |- context [bind ?X _] => replace X with (@Ok (list (list cplx)) acc) by (symmetry; exact E) end. cbn [bind].
  assert (A1 : accs (fun d k j => RtoC (sc * 2) * A d k j) (map (map (fun v => cscale v (sc * 2))) acc)).
  { destruct H as [LA HA]. split; [rewrite map_length; exact LA|]. intros d. rewrite nth_error_map, HA. cbn [option_map]. f_equal. rewrite !wave_spots, map_map. apply map_ext. intros x. rewrite cscale_R. apply Cmult_comm. }
  destruct new_zero as [Z1 Z2]. destruct (six_loop _ _ A1 six _ _ Z1 Z2) as (c & L & EL & HL & RL & VL). exists c, L. split; [exact EL|]. split; [exact HL|]. split; [exact RL|].
  intros t. rewrite VL, val_zero, Rplus_0_l. pose proof (G (LPt t)) as Gt. transitivity (sc * 2 * weigh A (LPt t))%R.
  - unfold weigh. rewrite <- rlsum_scal. apply rlsum_ext. intros d _. rewrite <- resum_scal. apply resum_ext. intros. ring.
  - rewrite Gt. f_equal. replace (weigh (fun _ _ _ => (0, 0)%R) (LPt t)) with 0%R; [ring|]. unfold weigh, six. cbn [rlsum].
    assert (X : forall d, resum (fun k j => ((0, 0)%R : C) * LPt t d k j) = 0%R) by (intros d; etransitivity; [|apply resum_zero]; apply resum_ext; intros; apply injective_projections; unfold Cmult, RtoC; cbn [fst snd]; ring). rewrite !X. ring.
Qed.

(** ** the views of the parent *)
Lemma add_list (u w : W) : add_expansion (wave_list q u) (wave_list q w) = Ok (wave_list q (fun k j => u k j + w k j)).
Proof.
  destruct (add_expansion_ok (wave_list q u) (wave_list q w)) as (l & E & Ll & H); [rewrite !wave_list_len; lia|]. rewrite E. f_equal. apply holds_list. split; [rewrite Ll, wave_list_len; apply (k_nexp q Q)|]. split; [apply (k_nexp q Q)|].
  intros k j Hk Hj. apply H; apply wave_list_nth; assumption.
Qed.
Definition pfac (x : MergeShiftModel.put) : W := sfac q (p_x x) (p_y x) (p_z x).
Definition pok (x : MergeShiftModel.put) : Prop := (-3 <= p_x x <= 3)%Z /\ (-3 <= p_y x <= 3)%Z /\ (0 <= p_z x <= 3)%Z /\ (0 <= p_tag x < 28)%Z /\ exists d, p_view x = Z.of_nat (view d).
Lemma branch_view tag dx dy dz : exists d, p_view (branch Lap tag dx dy dz) = Z.of_nat (view d).
Proof.
  unfold branch. destruct (tag <=? 1)%Z; [exists MZ; reflexivity|]. destruct (tag <=? 5)%Z; [exists MY; reflexivity|]. destruct (tag <=? 13)%Z; [exists MX; reflexivity|].
  destruct (tag <=? 15)%Z; [exists PZ; reflexivity|]. destruct (tag <=? 19)%Z; [exists PY; reflexivity|]. exists PX; reflexivity.
Qed.
Lemma i_to_i_ok s t ps : near_child t s -> i_to_i Lap s t = Ok ps -> List.Forall pok ps.
Proof.
  intros Hn E. destruct (i_to_i_views Lap s t Hn) as (ps' & E' & _ & Ht & _). rewrite E in E'. injection E' as <-. apply List.Forall_forall. intros x I. unfold i_to_i in E.
  destruct (table_row _ _ _) as [row|]; [|discriminate]. cbn [bind] in E. destruct (mapM_in _ _ _ _ _ _ E I) as (tag & _ & F). cbv zeta in F. destruct (e_to_e _ _ _ _) eqn:E2 in F; [|discriminate]. cbn [bind] in F. injection F as <-.
  destruct (e_to_e_bounds Lap _ _ _ _ ltac:(discriminate) E2) as (B1 & B2 & B3). pose proof (Ht _ I). repeat split; try tauto; try apply branch_view; lia.
Qed.
Definition vdir (z : Z) : dir := match z with 0 => PX | 1 => MX | 2 => PY | 3 => MY | 4 => PZ | _ => MZ end%Z.
Lemma vdir_view d : vdir (Z.of_nat (view d)) = d. Proof. destruct d; reflexivity. Qed.

Lemma I_to_I_ok s t ps (Sd : dir -> W) views : i_to_i Lap s t = Ok ps -> List.Forall pok ps -> (forall d, nth_error views (view d) = Some (wave_list q (Sd d))) ->
  I_to_I wt s t views = Ok (map (fun x => (p_tag x, wave_list q (fun k j => Sd (vdir (p_view x)) k j * pfac x k j))) ps).
Proof.
  intros E HP HV. unfold I_to_I. rewrite E. cbn [bind w_q the_waves]. clear E. induction HP as [|x ps (B1 & B2 & B3 & B4 & d & Ed) _ IH]; [reflexivity|]. cbn [mapM map].
  rewrite (nth_resZ_some _ _ _ _ _ Ed (HV d)). cbn [bind]. rewrite <- (zeros q Q (fun _ _ => (0, 0)%R)) by reflexivity. rewrite (e_to_e_ok q p Q) by assumption. cbn [bind].
  rewrite (zeros q Q) by reflexivity. rewrite IH. cbn [bind]. rewrite Ed, vdir_view. do 3 f_equal. apply wave_list_ext. intros k j _ _. unfold pfac. apply injective_projections; unfold Cplus, Cmult; cbn [fst snd]; ring.
Qed.

Definition pair_val (D : W) (LP : dir -> W) (x : MergeShiftModel.put) (m : move) : R := if (m_tag m =? p_tag x)%Z then resum (fun k j => D k j * pfac x k j * mfac m k j * LP (m_acc m) k j) else 0%R.
Lemma add_views_ok (Sd : dir -> W) ps : List.Forall pok ps -> forall V views, fits V views ->
  exists V' views', add_views views (map (fun x => (p_tag x, wave_list q (fun k j => Sd (vdir (p_view x)) k j * pfac x k j))) ps) = Ok views' /\ fits V' views' /\
    forall ms LP, rlsum (mval V' LP) ms = (rlsum (mval V LP) ms + rlsum (fun x => rlsum (pair_val (Sd (vdir (p_view x))) LP x) ms) ps)%R.
Proof.
  unfold add_views. induction 1 as [|x ps Hx _ IH]; intros V views [LV HV].
  - exists V, views. split; [reflexivity|]. split; [split; assumption|]. intros ms LP. cbn [rlsum]. ring.
  - cbn [map foldM fst snd]. destruct Hx as (_ & _ & _ & B4 & _). set (D := Sd (vdir (p_view x))).
    rewrite (nth_resZ_some _ _ _ _ _ (eq_sym (Z2Nat.id _ (proj1 B4))) (HV _ B4)). cbn [bind]. rewrite add_list. cbn [bind].
    unfold set_resZ. destruct (Z.ltb_spec (p_tag x) 0); [lia|]. rewrite set_res_ok by lia. cbn [bind].
    set (V1 := fun tag => if (tag =? p_tag x)%Z then fun k j => V tag k j + D k j * pfac x k j else V tag).
    destruct (IH V1 (upd views (Z.to_nat (p_tag x)) (wave_list q (fun k j => V (p_tag x) k j + D k j * pfac x k j)))) as (V' & views' & E' & H' & G').
    { split; [rewrite upd_length; exact LV|]. intros tag Ht. unfold V1. destruct (Z.eqb_spec tag (p_tag x)) as [->|N]; [rewrite upd_same by lia; reflexivity|]. rewrite upd_other by lia. apply HV, Ht. }
    exists V', views'. split; [exact E'|]. split; [exact H'|]. intros ms LP. rewrite G'. cbn [rlsum]. fold D. rewrite <- Rplus_assoc. f_equal. rewrite <- rlsum_plus. apply rlsum_ext. intros m _. unfold mval, V1, pair_val. destruct (m_tag m =? p_tag x)%Z; [|ring].
    rewrite <- resum_plus. apply resum_ext. intros. ring.
Qed.

Definition share_val (Sd : dir -> W) (LP : dir -> W) (y : share) : R := resum (fun k j => Sd (vdir (c_view y)) k j * sfac q (c_x y) (c_y y) (c_z y) k j * LP (c_acc y) k j).
Lemma shares_sum (Sd LP : dir -> W) s t u ps ms l : i_to_i Lap s t = Ok ps -> i_to_l Lap u = Ok ms -> shares_of Lap s t u = Ok l ->
  rlsum (fun x => rlsum (pair_val (Sd (vdir (p_view x))) LP x) ms) ps = rlsum (share_val Sd LP) l.
Proof.
  intros E1 E2 E3. unfold shares_of in E3. rewrite E1, E2 in E3. cbn [bind] in E3. injection E3 as <-. rewrite rlsum_flat. apply rlsum_ext. intros x _. rewrite rlsum_flat. apply rlsum_ext. intros m _. unfold pair_val. destruct (m_tag m =? p_tag x)%Z; [|reflexivity].
  cbn [rlsum]. rewrite Rplus_0_r. unfold share_val. cbn [c_view c_x c_y c_z c_acc]. apply resum_ext. intros k j _ _. rewrite <- sfac_add. unfold pfac, mfac. ring.
Qed.

(** ** what the charges of one box are worth *)
Definition box_wave (s : index) (l : list charge) (d : dir) : W := fun k j => RtoC (wgt q k / INR (cnt q k)) * fold_right (fun c v => RtoC (fst c) * lp (sgn d * len q k) (turn d (snd c)) p (frq q k) (ang q k j) + v) 0 (rels corner size s l).
Definition the_dir (s t u : index) : dir := match shares_of Lap s t u with Ok (x :: _) => c_acc x | _ => PZ end.
Definition mid_fac (s u : index) (d : dir) : W := let '(x, y, z) := seen_by d (ix s - ix u) (iy s - iy u) (iz s - iz u) in sfac q x y z.
Definition box_val (t u : index) (LP : dir -> W) (b : index * list charge) : R :=
  if apartb (ix (fst b) - ix u) (iy (fst b) - iy u) (iz (fst b) - iz u)
  then let d := the_dir (fst b) t u in resum (fun k j => box_wave (fst b) (snd b) d k j * mid_fac (fst b) u d k j * LP d k j) else 0%R.

Lemma merged_ok t g V : merged tb wt corner size t g V -> exists Vf, fits Vf V /\
  forall u ms LP, child_of t u -> i_to_l Lap u = Ok ms -> rlsum (mval Vf LP) ms = rlsum (box_val t u LP) g.
Proof.
  induction 1 as [|g V s l M views new V' HM (Vf & HF & HG) Hn Hl HU EM EI EA].
  - exists (fun _ _ _ => (0, 0)%R). split.
    + split; [reflexivity|]. intros tag Ht. cbn [w_q the_waves]. rewrite (zeros q Q) by reflexivity. apply nth_error_repeat. lia.
    + intros u ms LP _ _. cbn [rlsum]. induction ms as [|m ms IH]; [reflexivity|]. cbn [rlsum]. rewrite IH. unfold mval. replace (resum _) with 0%R; [ring|]. symmetry. etransitivity; [|apply resum_zero]. apply resum_ext. intros. apply injective_projections; unfold Cmult, RtoC; cbn [fst snd]; ring.
  - destruct (up_inv corner size Hsize tb HS s l M HU) as [HC _]. destruct (M_to_I_ok q tb Q HS _ M HC) as (views' & EM' & LV & HV). rewrite EM in EM'. injection EM' as <-.
    destruct (i_to_i_views Lap s t Hn) as (ps & Ep & _). pose proof (i_to_i_ok s t ps Hn Ep) as HP. pose proof (I_to_I_ok s t ps (box_wave s l) views Ep HP HV) as EI'. rewrite EI in EI'. injection EI' as ->.
    destruct (add_views_ok (box_wave s l) ps HP Vf V HF) as (V1 & views1 & E1 & H1 & G1). rewrite EA in E1. injection E1 as <-. exists V1. split; [exact H1|].
    intros u ms LP Hc Em. rewrite G1, (HG u ms LP Hc Em), rlsum_app. f_equal. cbn [rlsum]. rewrite Rplus_0_r. destruct (shares_right Lap s t u Hn Hc) as (sl & Es & HSh). rewrite (shares_sum _ _ s t u ps ms sl Ep Em Es).
    unfold box_val. cbn [fst snd]. destruct HSh as [(Ha & x & -> & d & Hv & Hacc & Hseen & _)|(Ha & ->)].
    + replace (apartb _ _ _) with true by (symmetry; apply apartb_iff, Ha). cbn [rlsum]. rewrite Rplus_0_r. unfold the_dir. rewrite Es, Hacc. unfold share_val, mid_fac. rewrite Hacc, <- Hseen.
      assert (Ev : vdir (c_view x) = d) by (destruct d; cbn [waves] in Hv; injection Hv as -> _; reflexivity). rewrite Ev. reflexivity.
    + destruct (apartb _ _ _) eqn:Ea; [|reflexivity]. apply apartb_iff in Ea. contradiction.
Qed.
Lemma merged_total t s l M V g : merged tb wt corner size t g V -> near_child t s -> upward tb corner size s l M ->
  exists views new V', M_to_I tb wt M = Ok views /\ I_to_I wt s t views = Ok new /\ add_views V new = Ok V'.
Proof.
  intros HM Hn HU. destruct (merged_ok t g V HM) as (Vf & HF & _).
  destruct (up_inv corner size Hsize tb HS s l M HU) as [HC _]. destruct (M_to_I_ok q tb Q HS _ M HC) as (views & EM & LV & HV).
  destruct (i_to_i_views Lap s t Hn) as (ps & Ep & _). pose proof (i_to_i_ok s t ps Hn Ep) as HP. pose proof (I_to_I_ok s t ps (box_wave s l) views Ep HP HV) as EI.
  destruct (add_views_ok (box_wave s l) ps HP Vf V HF) as (V1 & views1 & E1 & H1 & G1). eauto 10.
Qed.

(** ** at a target *)
Lemma from_middle d u x k h a : wave p (frq q k) (len q k) (along d (units (side size (ilevel u)) x (middle corner size u))) h -> h a = lp (- sgn d * len q k) (turn d (rel corner size u x)) p (frq q k) a.
Proof.
  intros H. apply (lowpass_unique _ _ _ _ H). destruct (lp_lowpass (- sgn d * len q k) (turn d (rel corner size u x)) p (frq q k)) as (N & c & A & B & G). exists N, c. split; [exact A|]. split; [|exact G]. intros b. rewrite <- B. f_equal.
  rewrite along_zeta. rewrite <- tov_units. pose proof (side_pos size (ilevel u) Hsize) as P. unfold zeta, turn, tov, units. destruct d; cbn [sgn px py pz vx vy vz]; apply injective_projections; unfold Cmult, RtoC; cbn [fst snd]; field; lra.
Qed.
Lemma grid_along d s u : ilevel s = ilevel u -> along d (units (side size (ilevel u)) (middle corner size u) (middle corner size s)) = let '(x, y, z) := seen_by d (ix s - ix u) (iy s - iy u) (iz s - iz u) in grid x y z.
Proof.
  intros El. pose proof (side_pos size (ilevel u) Hsize) as P. unfold along, units, middle, grid. rewrite El. set (h := side size (ilevel u)) in *. cbv zeta. cbn [px py pz]. destruct d; cbn [seen_by]; rewrite ?opp_IZR, !minus_IZR; f_equal; field; lra.
Qed.
Lemma arrives_value d s u y x v : ilevel s = ilevel u -> arrives q p corner size d s u y x v ->
  v = resum (fun k j => RtoC (wgt q k / INR (cnt q k)) * (lp (sgn d * len q k) (turn d (rel corner size s y)) p (frq q k) (ang q k j) * mid_fac s u d k j * LPt (rel corner size u x) d k j)).
Proof.
  intros El (h & g & Hh & Hg & ->). rewrite grid_along by exact El. unfold mid_fac. destruct (seen_by d _ _ _) as [[a b] c]. rewrite quad_half.
  - apply resum_ext. intros k j _ _. f_equal. rewrite (wave_is_lp d _ _ _ _ _ _ (Hh k)), (from_middle d u x k _ _ (Hg k)), tov_units. reflexivity.
  - intros k al _. rewrite !(wave_is_lp d _ _ _ _ _ _ (Hh k)), !(from_middle d u x k _ _ (Hg k)), !lp_pi, cexp_pi, !conj_mul. reflexivity.
Qed.
Definition worth d s u y x : R := quadrature q (fun k a => lp (sgn d * len q k) (turn d (tov (units (side size (ilevel s)) (middle corner size s) y))) p (frq q k) a * cexp (exponent (len q k) (along d (units (side size (ilevel u)) (middle corner size u) (middle corner size s))) a) * lp (sgn d * len q k) (turn d (tov (units (side size (ilevel u)) x (middle corner size u)))) p (frq q k) a).
Lemma arrives_worth d s u y x : arrives q p corner size d s u y x (worth d s u y x).
Proof. exists (fun k => lp (sgn d * len q k) (turn d (tov (units (side size (ilevel s)) (middle corner size s) y))) p (frq q k)), (fun k => lp (sgn d * len q k) (turn d (tov (units (side size (ilevel u)) x (middle corner size u)))) p (frq q k)). split; [intros; apply wave_lp|]. split; [intros; apply wave_lp|]. reflexivity. Qed.
Lemma arrives_unique d s u y x v : arrives q p corner size d s u y x v -> v = worth d s u y x.
Proof.
  intros (h & g & Hh & Hg & ->). unfold worth, quadrature. f_equal. apply functional_extensionality. intros k. do 2 f_equal. f_equal. apply functional_extensionality. intros j. rewrite (wave_is_lp d _ _ _ _ _ _ (Hh k)), (wave_is_lp d _ _ _ _ _ _ (Hg k)). reflexivity.
Qed.

Lemma box_sum d s u x l (pot : charge -> R) : ilevel s = ilevel u -> (forall c, In c l -> arrives q p corner size d s u (cpos c) x (pot c)) ->
  resum (fun k j => box_wave s l d k j * mid_fac s u d k j * LPt (rel corner size u x) d k j) = rlsum (fun c => cq c * pot c)%R l.
Proof.
  intros El. induction l as [|c l IH]; intros H; cbn [rlsum].
  - etransitivity; [|apply resum_zero]. apply resum_ext. intros k j _ _. unfold box_wave. cbn [rels map fold_right]. ring.
  - rewrite <- IH by (intros; apply H; right; assumption). rewrite (arrives_value _ _ _ _ _ _ El (H c (or_introl eq_refl))), <- resum_scal, <- resum_plus. apply resum_ext. intros k j _ _. unfold box_wave. cbn [rels map fold_right fst snd]. fold (rels corner size s l). ring.
Qed.
Lemma merged_in t g V s l : merged tb wt corner size t g V -> In (s, l) g -> near_child t s /\ ilevel s = (ilevel t + 1)%Z.
Proof. induction 1 as [|g V s' l' M views new V' _ IH Hn Hl]; intros I; [destruct I|]. apply in_app_or in I. destruct I as [I|[E|[]]]; [auto|]. injection E as <- <-. split; assumption. Qed.
Lemma over_boxes_sum g f : over_boxes g f = rlsum (fun b : index * list charge => rlsum (fun c => cq c * f (fst b) c)%R (snd b)) g.
Proof.
  unfold over_boxes. induction g as [|[s l] g IH]; [reflexivity|]. cbn [fold_right rlsum fst snd]. rewrite IH. set (z := rlsum _ g). clear. induction l as [|c l IH]; cbn [fold_right rlsum]; [ring|]. rewrite IH. ring.
Qed.

Lemma chain t g V u : merged tb wt corner size t g V -> child_of t u -> ilevel u = (ilevel t + 1)%Z ->
  exists L, I_to_L tb wt (level_scale size (ilevel t)) u V = Ok L /\ (exists c, coefs p c L /\ reals p c) /\
    (forall s l, In (s, l) g -> apart s u -> (2 <= snd (seen_by (the_dir s t u) (ix s - ix u) (iy s - iy u) (iz s - iz u)) <= 3)%Z) /\
    forall x phi pot, x <> middle corner size u ->
      (forall s l c, In (s, l) g -> In c l -> (apart s u -> arrives q p corner size (the_dir s t u) s u (cpos c) (rounded (middle corner size u) x) (pot s c)) /\ (~ apart s u -> pot s c = 0%R)) ->
      L_to_T p (tb_sqf tb) (level_scale size (ilevel u)) (box_center corner size u) L x phi = Ok (phi + / side size (ilevel u) * over_boxes g pot)%R.
Proof.
  intros HM Hc Hl. destruct (merged_ok t g V HM) as (Vf & HF & HG).
  assert (Em : exists ms, i_to_l Lap u = Ok ms).
  { destruct (i_to_l Lap u) as [ms|e] eqn:E; [eauto|]. exfalso. destruct (shares_right Lap u t u) as (l & Es & _); [|exact Hc|unfold shares_of in Es; destruct (i_to_i Lap u t); [|discriminate]; rewrite E in Es; discriminate].
    intros a. destruct (Hc a) as [_ ->]. lia. }
  destruct Em as [ms Em]. destruct (I_to_L_ok (level_scale size (ilevel t)) u Vf V ms HF Em) as (c & L & EL & HL & RL & VL). exists L. split; [exact EL|]. split; [eauto|]. split.
  - intros s l I Ha. destruct (merged_in _ _ _ _ _ HM I) as [Hn _]. destruct (shares_right Lap s t u Hn Hc) as (sl & Es & [(_ & y & -> & d & _ & Hacc & Hseen & Hb)|(N & _)]); [|contradiction].
    unfold the_dir. rewrite Es, Hacc, <- Hseen. exact Hb.
  - intros x phi pot Hx Hp. assert (D1 : (0 < norm3 (point_sub x (box_center corner size u)))%R) by (rewrite box_center_middle, norm3_dist; apply dist_pos, Hx).
    unfold L_to_T. rewrite (eval_l _ _ _ (level_scale size (ilevel u)) c L (HT tb HS) HL D1 (scale_pos size Hsize _)). rewrite (scaled_rel corner size Hsize), VL, (HG u ms _ Hc Em). cbn [bind]. do 2 f_equal. assert (Sc : (level_scale size (ilevel t) * 2 = / side size (ilevel u))%R).
      { rewrite level_scale_side, Hl, side_child by exact Hsize. pose proof (side_pos size (ilevel t) Hsize). field. lra. }
      rewrite Sc. f_equal. rewrite over_boxes_sum. apply rlsum_ext. intros [s l] I. destruct (merged_in _ _ _ _ _ HM I) as [Hn Hs']. unfold box_val. cbn [fst snd]. destruct (apartb _ _ _) eqn:Ea.
      * apply apartb_iff in Ea. apply box_sum; [congruence|]. intros y J. apply (Hp s l y I J), Ea.
      * symmetry. transitivity (rlsum (fun _ : charge => 0%R) l); [|clear; induction l as [|y l IH]; cbn [rlsum]; [|rewrite IH]; ring]. apply rlsum_ext. intros y J. destruct (Hp s l y I J) as [_ Z0]. rewrite Z0; [ring|]. intros A. apply apartb_iff in A. congruence.
Qed.
End Chain.
