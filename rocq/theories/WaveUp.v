(** M_to_I: the exponential expansions of a multipole expansion. *)
From Coq Require Import Reals List Lia Lra ZArith Psatz Arith.
From Coquelicot Require Import Coquelicot.
From Verif Require Import Base ListFacts LegSpec LegProofs LegAdd LapModel LapArrays LapProofs SolidProofs SolidAdd SolidPair TranModel TranArrays TranOps TranField WaveModel WaveSpec WaveAlg WaveTab.
Import ListNotations.
Open Scope C_scope.

(** ** loops with step two *)
Definition lsum (g : nat -> C) (l : list nat) : C := fold_right (fun n v => g n + v) 0 l.
Lemma lsum_app g a b : lsum g (a ++ b) = lsum g a + lsum g b.
Proof. induction a as [|x a IH]; cbn [app lsum fold_right]; [unfold lsum; cbn [fold_right]; ring|]. fold (lsum g (a ++ b)). fold (lsum g a). rewrite IH. ring. Qed.
Lemma lsum_loop (f : cplx -> nat -> res cplx) (g : nat -> C) l : (forall v n, In n l -> f v n = Ok (v + g n)) -> forall v0 : C, foldM f l v0 = Ok (v0 + lsum g l).
Proof.
  induction l as [|n l IH]; intros H v0; cbn [foldM]; [unfold lsum; cbn [fold_right]; f_equal; ceq|]. rewrite H by (left; reflexivity). cbn [bind]. rewrite IH by (intros; apply H; right; assumption).
  f_equal. cbn [lsum fold_right]. fold (lsum g l). ring.
Qed.
Lemma by2_split a b : by2 a (S b) = by2 a b ++ (if ((a <=? S b) && Nat.even (S b - a))%nat%bool then [S b] else []).
Proof.
  unfold by2. destruct (Nat.leb_spec a (S b)) as [H|H]; cbn [andb].
  - destruct (Nat.Even_or_Odd (S b - a)) as [[i E]|[i E]].
    + replace (Nat.even (S b - a)) with true by (symmetry; apply Nat.even_spec; exists i; exact E). replace (S b + 2 - a)%nat with ((S i) * 2)%nat by lia. rewrite Nat.div_mul by lia.
      replace (b + 2 - a)%nat with (1 + i * 2)%nat by lia. rewrite Nat.div_add by lia. cbn [Nat.div Nat.divmod fst Nat.add]. rewrite seq_S, map_app. cbn [map]. do 2 f_equal. lia.
    + replace (Nat.even (S b - a)) with false by (symmetry; rewrite <- Nat.negb_odd; apply Bool.negb_false_iff, Nat.odd_spec; exists i; exact E). replace (S b + 2 - a)%nat with (1 + (S i) * 2)%nat by lia. rewrite Nat.div_add by lia.
      replace (b + 2 - a)%nat with ((S i) * 2)%nat by lia. rewrite Nat.div_mul by lia. rewrite app_nil_r. reflexivity.
  - rewrite app_nil_r. rewrite !Nat.div_small by lia. reflexivity.
Qed.
Lemma lsum_by2 g a p : lsum g (by2 a p) = csum (fun n => if ((a <=? n) && Nat.even (n - a))%nat%bool then g n else 0) (S p).
Proof.
  induction p as [|p IH].
  - cbn [csum]. destruct a as [|[|a]]; [cbn; unfold lsum; cbn [fold_right]; ring| |]; cbn [Nat.leb andb]; unfold by2; rewrite Nat.div_small by lia; cbn; ring.
  - rewrite by2_split, lsum_app, IH. change (csum ?h (S (S p))) with (csum h (S p) + h (S p)). cbn beta. f_equal. destruct ((a <=? S p) && Nat.even (S p - a))%nat%bool; unfold lsum; cbn [fold_right]; ring.
Qed.
Lemma by2_in a b n : In n (by2 a b) <-> (a <= n <= b)%nat /\ Nat.even (n - a) = true.
Proof.
  unfold by2. rewrite in_map_iff. split.
  - intros (i & <- & H). apply in_seq in H. assert (2 * i + 2 <= b + 2 - a)%nat by (pose proof (Nat.div_mod (b + 2 - a) 2 ltac:(lia)); lia). split; [lia|]. apply Nat.even_spec. exists i. lia.
  - intros [H E]. apply Nat.even_spec in E. destruct E as [i E]. exists i. split; [lia|]. apply in_seq. assert (S i <= (b + 2 - a) / 2)%nat; [|lia]. apply Nat.div_le_lower_bound; lia.
Qed.
Lemma parity m n : (m <= n)%nat -> Nat.even (n - m) = Bool.eqb (Nat.even n) (Nat.even m).
Proof. intros H. rewrite Nat.even_sub by exact H. destruct (Nat.even n), (Nat.even m); reflexivity. Qed.

(** ** storing a family of values *)
Lemma pair_loop A (F : list A * list A -> nat -> res (list A * list A)) (a b : nat -> A) N ms :
  (forall z1 z2 m, In m ms -> length z1 = N -> length z2 = N -> F (z1, z2) m = Ok (upd z1 m (a m), upd z2 m (b m))) ->
  (forall m, In m ms -> (m < N)%nat) -> forall z1 z2, length z1 = N -> length z2 = N ->
  exists z1' z2', foldM F ms (z1, z2) = Ok (z1', z2') /\ length z1' = N /\ length z2' = N /\
    forall i, (In i ms -> nth_error z1' i = Some (a i) /\ nth_error z2' i = Some (b i)) /\ (~ In i ms -> nth_error z1' i = nth_error z1 i /\ nth_error z2' i = nth_error z2 i).
Proof.
  induction ms as [|m ms IH]; intros HF Hm z1 z2 L1 L2.
  - exists z1, z2. split; [reflexivity|]. split; [exact L1|]. split; [exact L2|]. intros i. split; [intros []|auto].
  - cbn [foldM]. rewrite HF by (try (left; reflexivity); assumption). cbn [bind]. pose proof (Hm m (or_introl eq_refl)).
    destruct (IH (fun z1 z2 i Hi => HF z1 z2 i (or_intror Hi)) (fun i Hi => Hm i (or_intror Hi)) (upd z1 m (a m)) (upd z2 m (b m)) ltac:(rewrite upd_length; exact L1) ltac:(rewrite upd_length; exact L2)) as (z1' & z2' & E & L1' & L2' & V).
    exists z1', z2'. split; [exact E|]. split; [exact L1'|]. split; [exact L2'|]. intros i. destruct (V i) as [V1 V2]. split.
    + intros Hi. destruct (in_dec Nat.eq_dec i ms) as [J|J]; [apply V1, J|]. destruct Hi as [->|Hi]; [|contradiction]. destruct (V2 J) as [-> ->]. rewrite !upd_same by lia. auto.
    + intros Hi. destruct (V2 ltac:(intros J; apply Hi; right; exact J)) as [-> ->]. assert (m <> i) by (intros ->; apply Hi; left; reflexivity). rewrite !upd_other by assumption. auto.
Qed.

(** ** arrays of waves *)
Definition wave_list (q : quad) (v : nat -> nat -> C) : list cplx := flat_map (fun k => map (v k) (seq 1 (cnt q k / 2))) (seq 0 (q_s q)).
Lemma wave_list_len q v : length (wave_list q v) = place q (q_s q).
Proof. unfold wave_list. rewrite flat_len, place_sum. apply nsum_ext. intros. rewrite map_length, seq_length. reflexivity. Qed.
Lemma wave_list_nth q v k j : (k < q_s q)%nat -> (1 <= j <= cnt q k / 2)%nat -> nth_error (wave_list q v) (place q k + (j - 1)) = Some (v k j).
Proof.
  intros Hk Hj. rewrite place_sum. rewrite (nsum_ext _ (fun k => length (map (v k) (seq 1 (cnt q k / 2))))) by (intros; rewrite map_length, seq_length; reflexivity).
  unfold wave_list. rewrite flat_nth by (try (rewrite map_length, seq_length); lia). rewrite nth_error_map, ListFacts.nth_error_seq by lia. cbn [option_map]. do 2 f_equal. lia.
Qed.
Lemma wave_list_ext q v v' : (forall k j, (k < q_s q)%nat -> (1 <= j <= cnt q k / 2)%nat -> v k j = v' k j) -> wave_list q v = wave_list q v'.
Proof.
  intros H. unfold wave_list. assert (G : forall ks, (forall k, In k ks -> (k < q_s q)%nat) -> flat_map (fun k => map (v k) (seq 1 (cnt q k / 2))) ks = flat_map (fun k => map (v' k) (seq 1 (cnt q k / 2))) ks).
  { induction ks as [|k ks IH]; intros Hk; [reflexivity|]. cbn [flat_map]. rewrite IH by (intros; apply Hk; right; assumption). f_equal. apply map_ext_in. intros j Hj. apply in_seq in Hj. apply H; [apply Hk; left; reflexivity|lia]. }
  apply G. intros k Hk. apply in_seq in Hk. lia.
Qed.
Lemma place_onto q n i : (i < place q n)%nat -> exists k j, (k < n)%nat /\ (1 <= j <= cnt q k / 2)%nat /\ i = (place q k + (j - 1))%nat.
Proof.
  induction n as [|n IH]; cbn [place]; intros H; [lia|]. destruct (Nat.lt_ge_cases i (place q n)) as [L|L].
  - destruct (IH L) as (k & j & A & B & ->). exists k, j. repeat split; lia.
  - exists n, (S (i - place q n)). repeat split; lia.
Qed.
Lemma holds_list q E v : holds_waves q E v -> E = wave_list q v.
Proof.
  intros (L & P & H). apply list_ext; [rewrite wave_list_len; lia|]. intros i Hi. rewrite L, <- P in Hi. destruct (place_onto q _ i Hi) as (k & j & A & B & ->). rewrite H, wave_list_nth by assumption. reflexivity.
Qed.
Lemma list_holds q v : place q (q_s q) = q_nexp q -> holds_waves q (wave_list q v) v.
Proof. intros P. split; [rewrite wave_list_len; exact P|]. split; [exact P|]. intros. apply wave_list_nth; assumption. Qed.
Lemma any_holds q E : place q (q_s q) = q_nexp q -> length E = q_nexp q -> exists v, holds_waves q E v.
Proof.
  intros P L. exists (fun k j => nth (place q k + (j - 1)) E (0, 0)%R). split; [exact L|]. split; [exact P|]. intros k j Hk Hj. apply nth_error_nth'. rewrite L, <- P.
  assert (G : forall n, (k < n)%nat -> (place q k + (j - 1) < place q n)%nat).
  { induction n as [|n IH]; intros Hn; [lia|]. cbn [place]. destruct (Nat.eq_dec k n) as [->|N]; [lia|]. specialize (IH ltac:(lia)). lia. }
  apply G, Hk.
Qed.

(** ** one direction *)
(** the waves of length [kap] for coefficients [c] *)
Definition F (kap : R) (p : nat) (c : nat -> nat -> C) (f : nat) (a : R) : C :=
  csum (fun m => cp Ci m * RtoC (eps m * fst (cis (INR m * a) * csum (fun n => if (m <=? n)%nat then c n m * RtoC (kap ^ n / nf n (n + m)) else 0) (S p)))) (S f).

Section Up.
Variable (q : quad) (p : nat).
Hypothesis Q : qok q.
Notation wt := (the_waves q p).

Lemma nf_knm k n m : (m <= n)%nat -> knm q k n m = (len q k ^ n / nf n (n + m))%R.
Proof.
  intros H. unfold knm, nf. replace (2 * n - (n + m))%nat with (n - m)%nat by lia. rewrite sqrt_mult by (apply pos_INR). pose proof (LapArrays.sqrt_fact_pos (n - m)). pose proof (LapArrays.sqrt_fact_pos (n + m)). field. lra.
Qed.

Section Row.
Variable (c : nat -> nat -> C) (SH : list cplx) (k : nat).
Hypothesis HS : coefs p c SH.
Hypothesis Hk : (k < q_s q)%nat.
Definition gk (n m : nat) : C := c n m * RtoC (len q k ^ n / nf n (n + m)).
Lemma row_sum_ok a m : (m <= a)%nat -> row_sum p wt SH k a m = Ok (lsum (fun n => gk n m) (by2 a p)).
Proof.
  intros Hm. unfold row_sum. rewrite (lsum_loop _ (fun n => gk n m)); [f_equal; unfold lsum; ceq|]. intros v n Hn. apply by2_in in Hn. destruct Hn as [Hn _].
  rewrite (coefs_nth p c SH) by (try exact HS; lia). cbn [bind the_waves w_knm]. rewrite knm_get by lia. cbn [bind]. apply ok_eq. rewrite cscale_R, cadd_C, nf_knm by lia. reflexivity.
Qed.
Definition part (b : bool) (m : nat) : C := csum (fun n => if ((m <=? n)%nat && Bool.eqb (Nat.even n) b)%bool then gk n m else 0) (S p).
Lemma first_part m : lsum (fun n => gk n m) (by2 m p) = part (Nat.even m) m.
Proof. rewrite lsum_by2. apply csum_ext. intros n _. destruct (Nat.leb_spec m n) as [H|H]; cbn [andb]; [|reflexivity]. rewrite parity by exact H. reflexivity. Qed.
Lemma second_part m : lsum (fun n => gk n m) (by2 (m + 1) p) = part (negb (Nat.even m)) m.
Proof.
  rewrite lsum_by2. apply csum_ext. intros n _. destruct (Nat.leb_spec (m + 1) n) as [H|H]; cbn [andb].
  - replace (m <=? n)%nat with true by (symmetry; apply Nat.leb_le; lia). rewrite parity by exact H. replace (Nat.even (m + 1)) with (negb (Nat.even m)) by (rewrite Nat.add_1_r, Nat.even_succ, Nat.negb_even; reflexivity). reflexivity.
  - destruct (Nat.leb_spec m n) as [H'|H']; cbn [andb]; [|reflexivity]. replace n with m by lia. destruct (Nat.even m); reflexivity.
Qed.
Lemma row_sums_ok fk : exists z1 z2, row_sums p wt SH k fk = Ok (z1, z2) /\ forall m, (m <= fk)%nat -> nth_error z1 m = Some (part true m) /\ nth_error z2 m = Some (part false m).
Proof.
  unfold row_sums. rewrite !row_sum_ok by lia. cbn [bind]. rewrite !set_res_ok by (rewrite repeat_length; lia). cbn [bind].
  pose proof (second_part 0) as SP. cbn [Nat.add Nat.even negb] in SP. rewrite (first_part 0), SP. cbn [Nat.even].
  match goal with |- context [foldM _ (by2 1 fk) (?a, ?b)] => set (z1 := a); set (z2 := b) end.
  assert (L1 : length z1 = (fk + 1)%nat) by (unfold z1; rewrite upd_length, repeat_length; reflexivity). assert (L2 : length z2 = (fk + 1)%nat) by (unfold z2; rewrite upd_length, repeat_length; reflexivity).
  match goal with |- context [foldM ?F0 (by2 1 fk) (z1, z2)] => destruct (pair_loop cplx F0 (part true) (part false) (fk + 1) (by2 1 fk)) with (z1 := z1) (z2 := z2) as (y1 & y2 & E1 & M1 & M2 & V); try assumption end.
  { intros a b m Hm La Lb. apply by2_in in Hm. destruct Hm as [Hm Ev]. rewrite !row_sum_ok by lia. cbn [bind]. rewrite !set_res_ok by lia. cbn [bind]. rewrite first_part, second_part.
    replace (Nat.even m) with false; [reflexivity|]. rewrite parity in Ev by lia. destruct (Nat.even m); [discriminate|reflexivity]. }
  { intros m Hm. apply by2_in in Hm. lia. }
  match goal with |- context [bind ?X _] => replace X with (@Ok (list cplx * list cplx) (y1, y2)) by (symmetry; exact E1) end. cbn [bind].
  match goal with |- context [foldM ?F0 (by2 2 fk) (y1, y2)] => destruct (pair_loop cplx F0 (part true) (part false) (fk + 1) (by2 2 fk)) with (z1 := y1) (z2 := y2) as (x1 & x2 & E2 & N1 & N2 & V'); try assumption end.
  { intros a b m Hm La Lb. apply by2_in in Hm. destruct Hm as [Hm Ev]. rewrite !row_sum_ok by lia. cbn [bind]. rewrite !set_res_ok by lia. cbn [bind]. rewrite first_part, second_part.
    replace (Nat.even m) with true; [reflexivity|]. rewrite parity in Ev by lia. destruct (Nat.even m); [reflexivity|discriminate]. }
  { intros m Hm. apply by2_in in Hm. lia. }
  exists x1, x2. split; [exact E2|]. intros m Hm. destruct (V' m) as [A B]. destruct (V m) as [A' B'].
  destruct (in_dec Nat.eq_dec m (by2 2 fk)) as [I|I]; [apply A, I|]. destruct (B I) as [-> ->]. destruct (in_dec Nat.eq_dec m (by2 1 fk)) as [J|J]; [apply A', J|]. destruct (B' J) as [-> ->].
  assert (m = 0)%nat as ->.
  { destruct m as [|m]; [reflexivity|exfalso]. destruct (Nat.even (S m)) eqn:Ev.
    - apply I, by2_in. assert (m <> 0)%nat by (intros ->; discriminate). rewrite parity, Ev by lia. split; [lia|reflexivity].
    - apply J, by2_in. rewrite parity, Ev by lia. split; [lia|reflexivity]. }
  unfold z1, z2. rewrite !upd_same by (rewrite repeat_length; lia). auto.
Qed.
Lemma part_real b : reals p c -> snd (part b 0) = 0%R.
Proof. intros Hr. unfold part. apply csum_real. intros n Hn. destruct (_ && _)%bool; [|reflexivity]. unfold gk. specialize (Hr n ltac:(lia)). unfold Cmult, RtoC. cbn [fst snd]. rewrite Hr. ring. Qed.

Lemma one_wave_ok (op : cplx -> cplx -> cplx) (z1 z2 : list cplx) fk j : (forall a b : C, snd a = 0%R -> snd b = 0%R -> snd (op a b) = 0%R) -> reals p c -> fk = frq q k ->
  (forall m, (m <= fk)%nat -> nth_error z1 m = Some (part true m) /\ nth_error z2 m = Some (part false m)) -> (1 <= j <= cnt q k / 2)%nat ->
  one_wave op wt z1 z2 (fplace q k) fk j = Ok (csum (fun m => cp Ci m * RtoC (eps m * fst (cis (INR m * ang q k j) * op (part true m) (part false m)))) (S fk)).
Proof.
  intros Hop Hr Ef Hz Hj. unfold one_wave. destruct (Hz 0%nat ltac:(lia)) as [A0 B0]. rewrite (nth_ok cplx _ _ _ A0), (nth_ok cplx _ _ _ B0). cbn [bind].
  set (g := fun m => cp Ci m * RtoC (eps m * fst (cis (INR m * ang q k j) * op (part true m) (part false m)))).
  match goal with |- context [foldM ?F0 (seq 1 fk) ?s0] => destruct (loop_ind _ F0 (fun i st => fst st = csum g (S i) /\ snd st = cp Ci (S i)) 1 fk s0) as ([v pI] & E & Ev & _) end.
  - cbn [fst snd csum cp]. split; [|unfold Ci; ceq]. unfold g. cbn [cp INR eps]. rewrite Rmult_0_l, cis_0. pose proof (Hop _ _ (part_real true Hr) (part_real false Hr)) as Z.
    set (w := op (part true 0) (part false 0)) in *. apply injective_projections; unfold Cplus, Cmult, RtoC; cbn [fst snd]; [ring|]. rewrite Z. ring.
  - intros i [v pI] Hi [Ev Ep]. cbn [fst snd] in *. change (1 + i)%nat with (S i). unfold the_waves. cbn [w_ealphaj]. rewrite Ef, (ea_get q) by lia. cbn [bind].
    destruct (Hz (S i) ltac:(lia)) as [A B]. rewrite (nth_ok cplx _ _ _ A), (nth_ok cplx _ _ _ B). cbn [bind]. eexists. split; [reflexivity|]. cbn [fst snd]. split.
    + rewrite Ev, Ep. change (csum g (S (S i))) with (csum g (S i) + g (S i)). rewrite cadd_C. f_equal. rewrite cscale_R. reflexivity.
    + rewrite Ep. reflexivity.
  - rewrite E. cbn [bind fst]. cbn [fst] in Ev. rewrite Ev. reflexivity.
Qed.
End Row.

Lemma part_sum c k m : part c k true m + part c k false m = csum (fun n => if (m <=? n)%nat then c n m * RtoC (len q k ^ n / nf n (n + m)) else 0) (S p).
Proof. unfold part. rewrite <- csum_plus. apply csum_ext. intros n _. unfold gk. destruct (m <=? n)%nat, (Nat.even n); cbn [andb Bool.eqb]; ring. Qed.
Lemma part_diff c k m : part c k true m - part c k false m = csum (fun n => if (m <=? n)%nat then c n m * RtoC ((- len q k) ^ n / nf n (n + m)) else 0) (S p).
Proof.
  assert (E : forall x y : C, x - y = x + -(1) * y) by (intros; ring). rewrite E. unfold part. rewrite <- csum_scal, <- csum_plus. apply csum_ext. intros n _. unfold gk. destruct (m <=? n)%nat; cbn [andb]; [|ring].
  replace (- len q k)%R with (-1 * len q k)%R by ring. rewrite Rpow_mult_distr. destruct (Nat.even n) eqn:Ev; cbn [Bool.eqb].
  - apply Nat.even_spec in Ev. destruct Ev as [i ->]. rewrite (pow_mult (-1)). replace ((-1) ^ 2)%R with 1%R by ring. rewrite pow1, Rmult_1_l. ring.
  - assert (O : Nat.odd n = true) by (rewrite <- Nat.negb_even, Ev; reflexivity). apply Nat.odd_spec in O. destruct O as [i ->]. rewrite (pow_add (-1)), (pow_mult (-1)). replace ((-1) ^ 2)%R with 1%R by ring. rewrite pow1.
    replace (1 * (-1) ^ 1 * len q k ^ (2 * i + 1) / nf (2 * i + 1) (2 * i + 1 + m))%R with (-1 * (len q k ^ (2 * i + 1) / nf (2 * i + 1) (2 * i + 1 + m)))%R by (unfold Rdiv; ring). rewrite RtoC_mult. replace (RtoC (-1)) with (-(1)) by ceq. ring.
Qed.

Definition put2 (st : (list cplx * nat) * (list cplx * nat)) (v : cplx * cplx) : res ((list cplx * nat) * (list cplx * nat)) :=
  bind (put (fst st) (fst v)) (fun a => bind (put (snd st) (snd v)) (fun b => Ok (a, b))).
Lemma put2_foldM l : forall a b a' b', foldM put (map fst l) a = Ok a' -> foldM put (map snd l) b = Ok b' -> foldM put2 l (a, b) = Ok (a', b').
Proof.
  induction l as [|v l IH]; intros a b a' b' E1 E2; cbn [map foldM] in *; [congruence|]. unfold put2 at 1. cbn [fst snd]. destruct (put a (fst v)) as [a1|]; [|discriminate E1]. cbn [bind] in *. destruct (put b (snd v)) as [b1|]; [|discriminate E2]. cbn [bind] in *. apply IH; assumption.
Qed.

Lemma axis_ok c SH : coefs p c SH -> reals p c -> axis_waves p wt SH =
  Ok (wave_list q (fun k j => RtoC (wgt q k / INR (cnt q k)) * F (len q k) p c (frq q k) (ang q k j)),
      wave_list q (fun k j => RtoC (wgt q k / INR (cnt q k)) * F (- len q k) p c (frq q k) (ang q k j))).
Proof.
  intros HS Hr. unfold axis_waves. cbn [w_q the_waves].
  set (gp := fun k j => RtoC (wgt q k / INR (cnt q k)) * F (len q k) p c (frq q k) (ang q k j)). set (gm := fun k j => RtoC (wgt q k / INR (cnt q k)) * F (- len q k) p c (frq q k) (ang q k j)).
  rewrite (foldM_flat _ _ _ _ put2 (fun k => map (fun j => (gp k j, gm k j)) (seq 1 (cnt q k / 2)))).
  - rewrite (put2_foldM _ _ _ (wave_list q gp, q_nexp q) (wave_list q gm, q_nexp q)); [reflexivity| |].
    + replace (map fst _) with (wave_list q gp); [apply put_all; rewrite wave_list_len; apply (k_nexp q Q)|]. unfold wave_list. rewrite !flat_map_concat_map, concat_map, !map_map. apply (f_equal (@concat cplx)). apply map_ext. intros k. rewrite map_map. reflexivity.
    + replace (map snd _) with (wave_list q gm); [apply put_all; rewrite wave_list_len; apply (k_nexp q Q)|]. unfold wave_list. rewrite !flat_map_concat_map, concat_map, !map_map. apply (f_equal (@concat cplx)). apply map_ext. intros k. rewrite map_map. reflexivity.
  - intros k st Hk. apply in_seq in Hk. rewrite (get_wgt q Q), (get_m q Q), (get_f q Q), (get_smf q Q) by lia. cbn [bind]. rewrite (div_m q Q) by lia. cbn [bind].
    destruct (row_sums_ok c SH k HS ltac:(lia) (frq q k)) as (z1 & z2 & E & Hz). rewrite E. cbn [bind]. rewrite <- (foldM_map _ _ _ put2 (fun j => (gp k j, gm k j))).
    match goal with |- foldM ?F0 _ st = _ => assert (X : forall js st, (forall j, In j js -> (1 <= j <= cnt q k / 2)%nat) -> foldM F0 js st = foldM (fun st j => put2 st (gp k j, gm k j)) js st) end.
    { induction js as [|j js IH]; intros [a b] Hj; [reflexivity|]. cbn [foldM]. pose proof (Hj j (or_introl eq_refl)). 
      rewrite (one_wave_ok c k ltac:(lia) cadd); [|intros a0 b0 Ha Hb; cbn; rewrite Ha, Hb; ring|exact Hr|reflexivity|exact Hz|assumption].
      cbn [bind]. rewrite (one_wave_ok c k ltac:(lia) csub); [|intros a0 b0 Ha Hb; cbn; rewrite Ha, Hb; ring|exact Hr|reflexivity|exact Hz|assumption].
      cbn [bind]. unfold put2 at 1. cbn [fst snd]. rewrite !cscale_R.
      match goal with |- context [put a (?u * RtoC ?w)] => replace (u * RtoC w) with (gp k j) end.
      2:{ unfold gp. rewrite Cmult_comm. f_equal. unfold F. apply csum_ext. intros m _. rewrite <- part_sum. reflexivity. }
      match goal with |- context [put b (?u * RtoC ?w)] => replace (u * RtoC w) with (gm k j) end.
      2:{ unfold gm. rewrite Cmult_comm. f_equal. unfold F. apply csum_ext. intros m _. rewrite <- part_diff. reflexivity. }
      destruct (put a (gp k j)); cbn [bind]; [|reflexivity]. destruct (put b (gm k j)); cbn [bind]; [|reflexivity]. apply IH. intros; apply Hj; right; assumption. }
    apply X. intros j Hj. apply in_seq in Hj. lia.
Qed.
End Up.
