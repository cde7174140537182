(** lap_e_to_e: shifting exponential expansions. *)
From Coq Require Import Reals List Lia Lra ZArith Psatz Arith.
From Coquelicot Require Import Coquelicot.
From Verif Require Import Base ListFacts LapModel LapArrays SolidProofs TranModel TranOps WaveModel WaveSpec WaveAlg WaveTab WaveUp.
Import ListNotations.
Open Scope C_scope.

Definition spots (q : quad) : list (nat * nat) := flat_map (fun k => map (pair k) (seq 1 (cnt q k / 2))) (seq 0 (q_s q)).
Lemma wave_spots q v : wave_list q v = map (fun x => v (fst x) (snd x)) (spots q).
Proof. unfold wave_list, spots. rewrite !flat_map_concat_map, concat_map, map_map. apply (f_equal (@concat cplx)). apply map_ext. intros k. rewrite map_map. reflexivity. Qed.
Lemma spots_in q x : In x (spots q) -> (fst x < q_s q)%nat /\ (1 <= snd x <= cnt q (fst x) / 2)%nat.
Proof. unfold spots. rewrite in_flat_map. intros (k & Hk & I). apply in_map_iff in I. destruct I as (j & <- & I). apply in_seq in Hk. apply in_seq in I. cbn [fst snd]. lia. Qed.

(** ** one pass over two arrays *)
Definition shift1 (W : list cplx) (st : list cplx * nat) (f : C) : res (list cplx * nat) :=
  bind (nth_res (fst st) (snd st)) (fun m => bind (nth_res W (snd st)) (fun w => bind (set_res (fst st) (snd st) (m + w * f)) (fun M => Ok (M, S (snd st))))).
Lemma nth_mid A (l r : list A) x : nth_res (l ++ x :: r) (length l) = Ok x.
Proof. apply nth_res_some. rewrite nth_error_app2 by lia. rewrite Nat.sub_diag. reflexivity. Qed.
Lemma set_mid A (l r : list A) x y : set_res (l ++ x :: r) (length l) y = Ok (l ++ y :: r).
Proof. induction l as [|a l IH]; [reflexivity|]. cbn [app length set_res]. rewrite IH. reflexivity. Qed.
Lemma shift_all X (u w f : X -> C) l : forall pre wpre, length pre = length wpre ->
  foldM (shift1 (wpre ++ map w l)) (map f l) (pre ++ map u l, length pre) = Ok (pre ++ map (fun x => u x + w x * f x) l, (length pre + length l)%nat).
Proof.
  induction l as [|x l IH]; intros pre wpre HL; cbn [map foldM]; [rewrite Nat.add_0_r; reflexivity|]. unfold shift1 at 1. cbn [fst snd].
  rewrite nth_mid. cbn [bind]. rewrite HL, nth_mid. cbn [bind]. rewrite <- HL, set_mid. cbn [bind].
  replace (pre ++ (u x + w x * f x) :: map u l) with ((pre ++ [u x + w x * f x]) ++ map u l) by (rewrite <- app_assoc; reflexivity).
  replace (wpre ++ w x :: map w l) with ((wpre ++ [w x]) ++ map w l) by (rewrite <- app_assoc; reflexivity).
  replace (S (length pre)) with (length (pre ++ [u x + w x * f x])) by (rewrite app_length; cbn; lia). rewrite IH by (rewrite !app_length; cbn [length]; lia).
  rewrite <- app_assoc, app_length. cbn [app length]. f_equal. f_equal. lia.
Qed.

Lemma cexp_add a b : cexp (a + b) = cexp a * cexp b.
Proof. unfold cexp, Cplus. cbn [fst snd]. rewrite exp_plus, cis_add, RtoC_mult. ring. Qed.
Lemma cexp_0 : cexp 0 = 1.
Proof. unfold cexp, RtoC. cbn [fst snd]. rewrite exp_0, cis_0. ceq. Qed.

Section Shift.
Variable (q : quad) (p : nat).
Hypothesis Q : qok q.
Notation wt := (the_waves q p).
Definition grid (x y z : Z) : pt := mkPt (IZR x) (IZR y) (IZR z).
Definition sfac (x y z : Z) (k j : nat) : C := cexp (exponent (len q k) (grid x y z) (ang q k j)).
Lemma sfac_eq x y z k j : (RtoC (exp (- len q k * IZR z)) * cis (len q k * IZR y * sin (ang q k j)) * cis (len q k * IZR x * cos (ang q k j))) = sfac x y z k j.
Proof. unfold sfac, cexp, exponent, grid. cbn [px py pz fst snd]. rewrite <- Cmult_assoc, <- cis_add. f_equal. f_equal. ring. Qed.

Lemma e_to_e_ok u w x y z : (-3 <= x <= 3)%Z -> (-3 <= y <= 3)%Z -> (0 <= z <= 3)%Z ->
  lap_e_to_e wt (wave_list q u) (wave_list q w) x y z = Ok (wave_list q (fun k j => u k j + w k j * sfac x y z k j)).
Proof.
  intros Hx Hy Hz. unfold lap_e_to_e. cbn [w_q the_waves w_xs w_ys w_zs].
  rewrite (foldM_flat _ _ _ _ (shift1 (wave_list q w)) (fun k => map (sfac x y z k) (seq 1 (cnt q k / 2)))).
  - rewrite !wave_spots. replace (flat_map _ _) with (map (fun x0 => sfac x y z (fst x0) (snd x0)) (spots q)).
    2:{ unfold spots. rewrite !flat_map_concat_map, concat_map, map_map. apply (f_equal (@concat C)). apply map_ext. intros k. rewrite map_map. reflexivity. }
    pose proof (shift_all _ (fun x => u (fst x) (snd x)) (fun x => w (fst x) (snd x)) (fun x0 => sfac x y z (fst x0) (snd x0)) (spots q) [] [] eq_refl) as S. cbn [app length] in S. match type of S with _ = ?r => match goal with |- bind ?X _ = _ => replace X with r by (symmetry; exact S) end end. reflexivity.
  - intros k st Hk. apply in_seq in Hk. rewrite (z_get q), (get_m q Q), (get_sm q Q) by lia. cbn [bind]. rewrite <- seq_shift, map_map, <- foldM_map.
    match goal with |- foldM ?F0 _ st = _ => assert (X : forall js st, (forall j, In j js -> (j < cnt q k / 2)%nat) -> foldM F0 js st = foldM (fun st j => shift1 (wave_list q w) st (sfac x y z k (S j))) js st) end.
    { induction js as [|j js IH]; intros [M off] Hj; [reflexivity|]. cbn [foldM]. pose proof (Hj j (or_introl eq_refl)). rewrite !xy_get by lia. cbn [bind]. unfold shift1 at 1. cbn [fst snd].
      destruct (nth_res M off) as [m|]; [cbn [bind]|reflexivity]. destruct (nth_res (wave_list q w) off) as [v|]; [cbn [bind]|reflexivity].
      replace (cadd m (cmul (cmul (cscale v (exp (- len q k * IZR z))) (cis (len q k * IZR y * sin (ang q k (S j))))) (cis (len q k * IZR x * cos (ang q k (S j)))))) with ((m : C) + v * sfac x y z k (S j)).
      2:{ rewrite <- sfac_eq, cscale_R. change cmul with Cmult. change cadd with Cplus. ring. }
      destruct (set_res M off _) as [M'|]; [cbn [bind]|reflexivity]. apply IH. intros; apply Hj; right; assumption. }
    apply X. intros j Hj. apply in_seq in Hj. lia.
Qed.
Lemma sfac_add x y z x' y' z' k j : sfac x y z k j * sfac x' y' z' k j = sfac (x + x') (y + y') (z + z') k j.
Proof. unfold sfac. rewrite <- cexp_add. f_equal. unfold exponent, grid, Cplus. cbn [px py pz fst snd]. rewrite !plus_IZR. f_equal; ring. Qed.
Lemma zeros v : (forall k j, v k j = (0, 0)%R) -> wave_list q v = repeat (0, 0)%R (q_nexp q).
Proof.
  intros H. rewrite <- (k_nexp q Q), <- (wave_list_len q v), wave_spots. rewrite map_length. induction (spots q) as [|x l IH]; [reflexivity|]. cbn [map length repeat]. rewrite IH, H. reflexivity.
Qed.
End Shift.
