(** What the steps do to the moments of charges and to the value of an expansion. *)
From Coq Require Import Reals ZArith List Lia Lra Psatz.
From Coquelicot Require Import Coquelicot.
From Verif Require Import Base ListFacts LegSpec LegProofs LegAdd LapModel LapArrays LapProofs SolidProofs SolidAdd SolidPair SolidTrans SolidMtl TranModel TranArrays TranWigner TranDmat TranTable TranOps.
Import ListNotations.
Open Scope C_scope.

(** ** moments *)
Definition mom (l : list (R * vec)) (n m : nat) : C := fold_right (fun s v => RtoC (fst s) * har (snd s) n (n + m) + v) 0 l.
Definition mapv (f : vec -> vec) (l : list (R * vec)) : list (R * vec) := map (fun s => (fst s, f (snd s))) l.
Lemma mom_app l l' n m : mom (l ++ l') n m = mom l n m + mom l' n m.
Proof. induction l as [|s l IH]; cbn [app mom fold_right]; [unfold mom; cbn [fold_right]; ceq|]. fold (mom (l ++ l') n m). fold (mom l n m). rewrite IH. ring. Qed.
Lemma mom_real l n : snd (mom l n 0) = 0%R.
Proof.
  induction l as [|s l IH]; [reflexivity|]. cbn [mom fold_right]. fold (mom l n 0). pose proof (har_real (snd s) n) as Hr. unfold Cplus, Cmult, RtoC. cbn [fst snd]. unfold C in *. cbn [fst snd] in *. rewrite Hr, IH. ring.
Qed.
Lemma mom_lin (F : (nat -> nat -> C) -> nat -> nat -> C) (f : vec -> vec) n m :
  F (fun _ _ => 0) n m = 0 -> (forall (q : R) c c', F (fun n m => RtoC q * c n m + c' n m) n m = RtoC q * F c n m + F c' n m) ->
  (forall y, F (fun n m => har y n (n + m)) n m = har (f y) n (n + m)) ->
  forall l, F (mom l) n m = mom (mapv f l) n m.
Proof.
  intros F0 FL FH l. induction l as [|s l IH]; [exact F0|]. cbn [mapv map mom fold_right fst snd]. fold (mapv f l). fold (mom (mapv f l) n m). rewrite <- IH, <- FH, <- FL. reflexivity.
Qed.

Lemma ext_lin (q : R) f g n k : ext (fun m => RtoC q * f m + g m) n k = RtoC q * ext f n k + ext g n k.
Proof. unfold ext. destruct (Nat.leb n k); [reflexivity|]. ceq. Qed.
Lemma ry_lin (q : R) a n f g m : ry a n (fun m => RtoC q * f m + g m) m = RtoC q * ry a n f m + ry a n g m.
Proof. unfold ry. rewrite <- csum_scal, <- csum_plus. apply csum_ext. intros k _. rewrite ext_lin. ring. Qed.
Lemma ry_zero a n m : ry a n (fun _ => 0) m = 0.
Proof. unfold ry. apply csum_zero. intros k _. unfold ext. destruct (Nat.leb n k); ceq. Qed.

Lemma mom_rz ea l n m : (fst ea * fst ea + snd ea * snd ea = 1)%R -> mom l n m * cp ea m = mom (mapv (rot_z ea) l) n m.
Proof. intros U. apply (mom_lin (fun c n m => c n m * cp ea m) (rot_z ea)); [ring|intros; ring|]. intros y. symmetry. apply har_rot_z, U. Qed.
Lemma mom_ry c s a n l m : (c * c + s * s = 1)%R -> wigner c s a n -> (m <= n)%nat -> ry a n (mom l n) m = mom (mapv (rot_y c s) l) n m.
Proof. intros U W Hm. apply (mom_lin (fun c n m => ry a n (c n) m) (rot_y c s)); [apply ry_zero|intros; apply ry_lin|]. intros y. apply ry_har; assumption. Qed.
Lemma mom_up rho l n m : (m <= n)%nat -> up rho (mom l) n m = mom (mapv (fun y => vadd y (zvec rho)) l) n m.
Proof.
  intros Hm. apply (mom_lin (up rho)).
  - unfold up. apply csum_zero. intros. ring.
  - intros q c c'. unfold up. rewrite <- csum_scal, <- csum_plus. apply csum_ext. intros. ring.
  - intros y. symmetry. apply har_shift, Hm.
Qed.
Lemma mom_half h l n m : mom l n m * RtoC (h ^ n) = mom (mapv (vscale h) l) n m.
Proof. apply (mom_lin (fun c n m => c n m * RtoC (h ^ n)) (vscale h)); [ring|intros; ring|]. intros y. rewrite har_scale. ring. Qed.
Lemma mapv_mapv f g l : mapv f (mapv g l) = mapv (fun y => f (g y)) l.
Proof. unfold mapv. rewrite map_map. reflexivity. Qed.
Lemma mapv_ext f g l : (forall y, f y = g y) -> mapv f l = mapv g l.
Proof. intros H. apply map_ext. intros s. rewrite H. reflexivity. Qed.

(** ** the value of a local expansion *)
Definition val (p : nat) (c : nat -> nat -> C) (t : vec) : R := rsum (fun n => prr (c n) t n) (S p).
Definition reals (p : nat) (c : nat -> nat -> C) : Prop := forall n, (n <= p)%nat -> snd (c n 0%nat) = 0%R.
Lemma val_ext p c c' t : (forall n m, (m <= n <= p)%nat -> c n m = c' n m) -> val p c t = val p c' t.
Proof. intros H. apply rsum_ext. intros n Hn. apply prr_ext. intros. apply H. lia. Qed.
Lemma val_rz ea p c t : (fst ea * fst ea + snd ea * snd ea = 1)%R -> val p (fun n m => c n m * cp ea m) (rot_z ea t) = val p c t.
Proof. intros U. apply rsum_ext. intros n _. apply rz_pair, U. Qed.
Lemma val_ry cc ss a p c t : (cc * cc + ss * ss = 1)%R -> (forall n, (n <= p)%nat -> wigner cc ss (a n) n) -> reals p c -> val p (fun n => ry (a n) n (c n)) (rot_y cc ss t) = val p c t.
Proof. intros U W Hr. apply rsum_ext. intros n Hn. apply ry_pair; [exact U|apply W; lia|apply Hr; lia]. Qed.
Lemma prr_scal (q : R) f x n : prr (fun m => RtoC q * f m) x n = (q * prr f x n)%R.
Proof. unfold prr. rewrite <- rsum_scal. apply rsum_ext. intros m _. unfold Cmult, Cconj, RtoC. cbn [fst snd]. ring. Qed.
Lemma prr_plus f g x n : prr (fun m => f m + g m) x n = (prr f x n + prr g x n)%R.
Proof. unfold prr. rewrite <- rsum_plus. apply rsum_ext. intros m _. unfold Cplus, Cmult, Cconj. cbn [fst snd]. ring. Qed.
Lemma prr_zero x n : prr (fun _ => 0) x n = 0%R.
Proof. unfold prr. transitivity (rsum (fun _ => 0%R) (S n)); [|apply rsum_zero]. apply rsum_ext. intros m _. unfold Cmult, Cconj, RtoC. cbn [fst snd]. ring. Qed.
Lemma prr_csum (f : nat -> nat -> C) x n N : prr (fun m => csum (fun i => f i m) N) x n = rsum (fun i => prr (f i) x n) N.
Proof. induction N as [|N IH]; cbn [csum rsum]; [apply prr_zero|]. rewrite <- IH. apply prr_plus. Qed.
Lemma prr_scale h f x n : prr f (vscale h x) n = (h ^ n * prr f x n)%R.
Proof. unfold prr. rewrite <- rsum_scal. apply rsum_ext. intros m _. rewrite har_scale. unfold Cmult, Cconj, RtoC. cbn [fst snd]. ring. Qed.
Lemma val_half h p c t : val p (fun n m => c n m * RtoC (h ^ n)) t = val p c (vscale h t).
Proof. apply rsum_ext. intros n _. rewrite prr_scale, <- prr_scal. apply prr_ext. intros. ring. Qed.
Lemma val_plus p c c' t : val p (fun n m => c n m + c' n m) t = (val p c t + val p c' t)%R.
Proof. unfold val. rewrite <- rsum_plus. apply rsum_ext. intros n _. apply prr_plus. Qed.
Lemma val_zero p t : val p (fun _ _ => 0) t = 0%R.
Proof. unfold val. transitivity (rsum (fun _ => 0%R) (S p)); [|apply rsum_zero]. apply rsum_ext. intros. apply prr_zero. Qed.

(** the shift of a local expansion *)
Lemma rsum_swap f a b : rsum (fun i => rsum (f i) b) a = rsum (fun j => rsum (fun i => f i j) a) b.
Proof. induction a as [|a IH]; cbn [rsum]; [symmetry; apply rsum_zero|]. rewrite IH, <- rsum_plus. reflexivity. Qed.
Lemma rsum_csum_fst (f : nat -> C) n : rsum (fun k => fst (f k)) n = fst (csum f n).
Proof. symmetry. apply csum_fst. Qed.
Lemma tri_swap (g : nat -> nat -> R) p : rsum (fun n => rsum (fun i => g n i) (S n)) (S p) = rsum (fun N => rsum (fun i => g (N + i)%nat i) (S (p - N))) (S p).
Proof.
  induction p as [|p IH].
  - cbn [rsum Nat.sub Nat.add]. ring.
  - change (rsum (fun n => rsum (fun i => g n i) (S n)) (S (S p))) with (rsum (fun n => rsum (fun i => g n i) (S n)) (S p) + rsum (fun i => g (S p) i) (S (S p)))%R. rewrite IH.
    change (rsum (fun N => rsum (fun i => g (N + i)%nat i) (S (S p - N))) (S (S p))) with (rsum (fun N => rsum (fun i => g (N + i)%nat i) (S (S p - N))) (S p) + rsum (fun i => g (S p + i)%nat i) (S (S p - S p)))%R.
    rewrite Nat.sub_diag. transitivity (rsum (fun N => rsum (fun i => g (N + i)%nat i) (S (p - N)) + g (S p) (S p - N)%nat)%R (S p) + rsum (fun i => g (S p + i)%nat i) 1)%R.
    + rewrite rsum_plus, Rplus_assoc. f_equal. cbn [rsum]. rewrite Nat.add_0_r, Rplus_0_l.
      assert (R : forall K, rsum (fun i => g (S p) i) (S K) = (rsum (fun N => g (S p) (K - N)%nat) K + g (S p) 0%nat)%R).
      { intros K. induction K as [|K IHK]; [reflexivity|]. change (rsum (fun i => g (S p) i) (S (S K))) with (rsum (fun i => g (S p) i) (S K) + g (S p) (S K))%R. rewrite IHK, (rsum_shift (fun N => g (S p) (S K - N)%nat)). rewrite Nat.sub_0_r. change (fun k => g (S p) (S K - S k)%nat) with (fun N => g (S p) (K - N)%nat). ring. }
      pose proof (R (S p)) as Rp. cbn [rsum] in Rp. exact Rp.
    + f_equal. apply rsum_ext. intros N HN. replace (S p - N)%nat with (S (p - N)) by lia. cbn [rsum]. replace (N + S (p - N))%nat with (S p) by lia. reflexivity.
Qed.
Lemma rsum_cut f a K : (a <= K)%nat -> rsum f (K - a) = rsum (fun m => if Nat.ltb (a + m) K then f m else 0%R) K.
Proof.
  intros H. assert (P : forall j, rsum (fun m => if Nat.ltb (a + m) K then f m else 0%R) (K - a + j) = rsum f (K - a)).
  { induction j as [|j IH].
    - rewrite Nat.add_0_r. apply rsum_ext. intros m Hm. destruct (Nat.ltb_spec (a + m) K); [reflexivity|lia].
    - replace (K - a + S j)%nat with (S (K - a + j)) by lia. cbn [rsum]. rewrite IH. destruct (Nat.ltb_spec (a + (K - a + j)) K); [lia|ring]. }
  rewrite <- (P a). f_equal. lia.
Qed.
Lemma simplex_swap (h : nat -> nat -> R) n : rsum (fun i => rsum (h i) (S (n - i))) (S n) = rsum (fun m => rsum (fun i => h i m) (S (n - m))) (S n).
Proof.
  transitivity (rsum (fun i => rsum (fun m => if Nat.ltb (i + m) (S n) then h i m else 0%R) (S n)) (S n)).
  - apply rsum_ext. intros i Hi. replace (S (n - i)) with (S n - i)%nat by lia. apply rsum_cut. lia.
  - rewrite rsum_swap. apply rsum_ext. intros m Hm. replace (S (n - m)) with (S n - m)%nat by lia. rewrite rsum_cut by lia. apply rsum_ext. intros i _. rewrite Nat.add_comm. reflexivity.
Qed.
Lemma val_down p rho c t : val p (down p rho c) t = val p c (vadd t (zvec rho)).
Proof.
  set (F := fun n m i => (eps m * fst (c n m * Cconj (har t (n - i) (n - i + m)))%C * (rho ^ i * sb (n - m) i * sb (n + m) i))%R).
  transitivity (rsum (fun N => rsum (fun i => rsum (fun m => F (N + i)%nat m i) (S (N + i - i))) (S (p - N))) (S p)).
  - apply rsum_ext. intros N HN. unfold down. rewrite prr_csum. apply rsum_ext. intros i Hi. unfold prr. replace (N + i - i)%nat with N by lia. apply rsum_ext. intros m Hm. unfold F. replace (N + i - i)%nat with N by lia.
    unfold Cmult, Cconj, RtoC. cbn [fst snd]. ring.
  - rewrite <- (tri_swap (fun n i => rsum (fun m => F n m i) (S (n - i))) p). apply rsum_ext. intros n Hn. rewrite (simplex_swap (fun i m => F n m i)). unfold prr. apply rsum_ext. intros m Hm.
    rewrite har_shift by lia. rewrite csum_conj. rewrite <- csum_scal, csum_fst, <- rsum_scal. apply rsum_ext. intros i Hi. unfold F. unfold Cmult, Cconj, RtoC. cbn [fst snd]. ring.
Qed.

(** the order 0 coefficients stay real *)
Lemma reals_rz ea p c : reals p c -> reals p (fun n m => c n m * cp ea m).
Proof. intros H n Hn. cbn [cp]. specialize (H n Hn). unfold Cmult, RtoC. cbn [fst snd]. rewrite H. ring. Qed.
Lemma reals_ry cc ss a p c : (cc * cc + ss * ss = 1)%R -> (forall n, (n <= p)%nat -> wigner cc ss (a n) n) -> reals p c -> reals p (fun n => ry (a n) n (c n)).
Proof.
  intros U W Hr n Hn. destruct (rows cc ss n) as [D G]. apply (ry_full cc ss (a n) n D (c n)); [apply W, Hn| |apply Hr, Hn]. exact G.
Qed.
Lemma reals_scal (q : nat -> R) p c : reals p c -> reals p (fun n m => c n m * RtoC (q n)).
Proof. intros H n Hn. specialize (H n Hn). unfold Cmult, RtoC. cbn [fst snd]. rewrite H. ring. Qed.
Lemma csum_real (f : nat -> C) N : (forall i, (i < N)%nat -> snd (f i) = 0%R) -> snd (csum f N) = 0%R.
Proof. intros H. rewrite csum_snd, <- (rsum_zero N). apply rsum_ext. exact H. Qed.
Lemma reals_down p rho c : reals p c -> reals p (down p rho c).
Proof. intros H n Hn. unfold down. apply csum_real. intros i Hi. specialize (H (n + i)%nat ltac:(lia)). unfold Cmult, RtoC. cbn [fst snd]. rewrite H. ring. Qed.
Lemma snd_scal (q : R) (z : C) : snd (RtoC q * z) = (q * snd z)%R.
Proof. unfold Cmult, RtoC. cbn [fst snd]. ring. Qed.
Lemma reals_across p sg scale rho c : reals p c -> reals p (across p sg scale rho c).
Proof.
  intros H n Hn. unfold across. assert (Z : snd (csum (fun n0 => if Nat.leb 0 n0 then c n0 0%nat * RtoC (sg n0 n 0%nat / rho ^ S (n + n0) * sb (n0 + n) (n0 - 0) * sb (n0 + n) (n0 + 0)) else 0) (S p)) = 0%R).
  { apply csum_real. intros i Hi. cbn [Nat.leb]. specialize (H i ltac:(lia)). unfold Cmult, RtoC. cbn [fst snd]. rewrite H. ring. }
  rewrite snd_scal. exact (eq_trans (f_equal (Rmult scale) Z) (Rmult_0_r scale)).
Qed.
Lemma reals_plus p c c' : reals p c -> reals p c' -> reals p (fun n m => c n m + c' n m).
Proof. intros H H' n Hn. unfold Cplus. cbn [snd]. rewrite H, H' by exact Hn. ring. Qed.
Lemma reals_mom p l : reals p (mom l).
Proof. intros n _. apply mom_real. Qed.

(** ** from one box to another *)
Definition field (p : nat) (scale rho : R) (l : list (R * vec)) (S : nat -> nat -> vec -> R) : R :=
  fold_right (fun s v => (scale * (fst s * rsum (fun n => rsum (fun j => S n j (snd s) / rho ^ (n + j + 1)) (Datatypes.S p)) (Datatypes.S p)) + v)%R) 0%R l.
Lemma val_across p sg scale rho l t (S : nat -> nat -> vec -> R) :
  (forall n j k, sg n j k = sg n j 0%nat * (-1) ^ k)%R -> (forall n j y, sg n j 0%nat * core n j y t = S n j y)%R ->
  val p (across p sg scale rho (mom l)) t = field p scale rho l S.
Proof.
  intros Hk HS. induction l as [|s l IH].
  - cbn [field fold_right]. rewrite <- (val_zero p t). apply val_ext. intros n m _. unfold across. rewrite csum_zero; [ring|]. intros k _. destruct (Nat.leb m k); [unfold mom; cbn [fold_right]; ring|reflexivity].
  - cbn [field fold_right]. fold (field p scale rho l S). rewrite <- IH.
    set (A := fun j k => RtoC scale * (RtoC (fst s) * csum (fun n => RtoC (sg n j 0%nat / rho ^ Datatypes.S (j + n)) * blk n j (snd s) k) (Datatypes.S p))).
    transitivity (val p (fun j k => A j k + across p sg scale rho (mom l) j k) t).
    + apply val_ext. intros j k B. unfold A, across. rewrite <- Cmult_plus_distr_l. f_equal. rewrite <- csum_scal, <- csum_plus. apply csum_ext. intros n Hn. unfold blk. destruct (Nat.leb k n); [|ring].
      cbn [mom fold_right]. fold (mom l n k). rewrite (Hk n j k). unfold Rdiv. rewrite !RtoC_mult. ring.
    + rewrite val_plus. f_equal. unfold val, A.
      transitivity (rsum (fun j => scale * (fst s * rsum (fun n => S n j (snd s) / rho ^ (n + j + 1)) (Datatypes.S p)))%R (Datatypes.S p)).
      * apply rsum_ext. intros j Hj. rewrite prr_scal, prr_scal. f_equal. f_equal. rewrite prr_csum. apply rsum_ext. intros n Hn. rewrite prr_scal. fold (core n j (snd s) t). rewrite <- HS. replace (Datatypes.S (j + n)) with (n + j + 1)%nat by lia. unfold Rdiv. ring.
      * rewrite rsum_scal, rsum_scal. f_equal. f_equal. apply rsum_swap.
Qed.
