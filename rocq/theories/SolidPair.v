(** Solid harmonics: vectors given by their orders above or equal to zero, the value of such a
    vector at a point, and how it changes under rotations. *)
From Coq Require Import Reals List Lia Lra Psatz.
From Coquelicot Require Import Coquelicot.
From Verif Require Import LegSpec LegProofs LegAdd SolidProofs SolidAdd.
Open Scope C_scope.

Definition ext (c : nat -> C) (n k : nat) : C := if Nat.leb n k then c (k - n)%nat else RtoC ((-1) ^ (n - k)) * Cconj (c (n - k)%nat).
Lemma ext_pos c n m : ext c n (n + m) = c m.
Proof. unfold ext. destruct (Nat.leb_spec n (n + m)); [f_equal; lia|lia]. Qed.
Lemma conj_real (z : C) : snd z = 0%R -> Cconj z = z.
Proof. destruct z as [a b]. cbn [snd]. intros ->. unfold Cconj. cbn [fst snd]. rewrite Ropp_0. reflexivity. Qed.
Lemma real_conj (z : C) : Cconj z = z -> snd z = 0%R.
Proof. destruct z as [a b]. unfold Cconj. cbn [fst snd]. intros E. injection E. lra. Qed.
Lemma ext_neg c n m : snd (c 0%nat) = 0%R -> (m <= n)%nat -> ext c n (n - m) = RtoC ((-1) ^ m) * Cconj (c m).
Proof.
  intros Hr Hm. unfold ext. destruct (Nat.leb_spec n (n - m)).
  - assert (m = 0)%nat by lia. subst m. rewrite Nat.sub_0_r, Nat.sub_diag. cbn [pow]. rewrite conj_real by exact Hr. rewrite Cmult_1_l. reflexivity.
  - replace (n - (n - m))%nat with m by lia. reflexivity.
Qed.
Lemma ext_ext c c' n k : (k <= 2 * n)%nat -> (forall m, (m <= n)%nat -> c m = c' m) -> ext c n k = ext c' n k.
Proof. intros Hk E. unfold ext. destruct (Nat.leb_spec n k); rewrite E by lia; reflexivity. Qed.
Lemma conj_RtoC r : Cconj (RtoC r) = RtoC r.
Proof. ceq. Qed.
Lemma conj_mul a b : Cconj (a * b) = Cconj a * Cconj b.
Proof. ceq. Qed.
Lemma conj_conj a : Cconj (Cconj a) = a.
Proof. ceq. Qed.
Lemma har_real x n : snd (har x n (n + 0)) = 0%R.
Proof. apply real_conj. rewrite (Nat.add_0_r n). pose proof (har_sym x n 0 (Nat.le_0_l n)) as E. rewrite Nat.sub_0_r, Nat.add_0_r in E. cbn [pow] in E. rewrite Cmult_1_l in E. congruence. Qed.
Lemma ext_har x n k : (k <= 2 * n)%nat -> ext (fun m => har x n (n + m)) n k = har x n k.
Proof.
  intros Hk. unfold ext. destruct (Nat.leb_spec n k); [f_equal; lia|]. rewrite <- har_sym by lia. f_equal. lia.
Qed.

Lemma csum_rev (f : nat -> C) k : csum f (S k) = csum (fun i => f (k - i)%nat) (S k).
Proof. induction k as [|k IH]; [reflexivity|]. change (csum f (S (S k))) with (csum f (S k) + f (S k)). rewrite IH, (csum_shift (fun i => f (S k - i)%nat)). cbn [Nat.sub]. ring. Qed.
Lemma csum_fold (f : nat -> C) n : csum f (S (2 * n)) = f n + csum (fun i => f (n + S i)%nat + f (n - S i)%nat) n.
Proof.
  replace (S (2 * n)) with (n + S n)%nat by lia. rewrite csum_split, (csum_shift (fun k => f (n + k)%nat)), csum_plus, Nat.add_0_r.
  assert (E : csum f n = csum (fun i => f (n - S i)%nat) n) by (destruct n as [|n]; [reflexivity|]; rewrite csum_rev; apply csum_ext; intros; f_equal; lia). rewrite E. ring.
Qed.

(** the value at a point *)
Definition prr (c : nat -> C) (x : vec) (n : nat) : R := rsum (fun m => (eps m * fst (c m * Cconj (har x n (n + m)))%C)%R) (S n).
Lemma prr_ext c c' x n : (forall m, (m <= n)%nat -> c m = c' m) -> prr c x n = prr c' x n.
Proof. intros E. apply rsum_ext. intros m Hm. rewrite E by lia. reflexivity. Qed.
Lemma RtoC_rsum f n : RtoC (rsum f n) = csum (fun k => RtoC (f k)) n.
Proof. induction n as [|n IH]; cbn [rsum csum]; [reflexivity|]. rewrite RtoC_plus, IH. reflexivity. Qed.
Lemma re_double (z : C) : z + Cconj z = RtoC (2 * fst z).
Proof. destruct z. ceq. Qed.
Lemma re_real (z : C) : snd z = 0%R -> z = RtoC (fst z).
Proof. destruct z as [a b]. cbn. intros ->. reflexivity. Qed.

Lemma prr_full c x n : snd (c 0%nat) = 0%R -> csum (fun k => ext c n k * Cconj (har x n k)) (S (2 * n)) = RtoC (prr c x n).
Proof.
  intros Hr. rewrite csum_fold. unfold prr. rewrite RtoC_rsum, csum_shift. f_equal.
  - replace (ext c n n) with (c 0%nat) by (rewrite <- (ext_pos c n 0); f_equal; lia). cbn [eps]. rewrite Rmult_1_l, Nat.add_0_r. apply re_real.
    pose proof (har_real x n) as Hh. rewrite Nat.add_0_r in Hh. destruct (c 0%nat) as [a b], (har x n n) as [a' b']. cbn [snd fst] in *. subst. unfold Cmult, Cconj. cbn [fst snd]. ring.
  - apply csum_ext. intros i Hi. cbn [eps]. rewrite ext_pos, ext_neg by (try exact Hr; lia). rewrite har_sym by lia. rewrite !conj_mul, conj_RtoC, conj_conj, <- re_double, conj_mul, conj_conj. f_equal.
    transitivity (RtoC ((-1) ^ S i * (-1) ^ S i) * (Cconj (c (S i)) * har x n (n + S i))); [rewrite RtoC_mult; ring|]. rewrite sgn_sq. ring.
Qed.

Section Rot.
Variables c s : R.
Hypothesis cs1 : (c * c + s * s = 1)%R.
Notation good n D := (forall j, (j <= 2 * n)%nat -> forall u v, csum (fun k => D j k * RtoC (mono n k u v)) (S (2 * n)) = RtoC (mono n j (c * u - s * v) (s * u + c * v))).

Lemma rows_unique n (D : nat -> nat -> C) j d : good n D -> (j <= 2 * n)%nat -> (forall u v, csum (fun k => d k * RtoC (mono n k u v)) (S (2 * n)) = RtoC (mono n j (c * u - s * v) (s * u + c * v))) ->
  forall k, (k <= 2 * n)%nat -> d k = D j k.
Proof. intros G Hj E. apply mono_eq. intros u v. rewrite E, G by exact Hj. reflexivity. Qed.

Lemma rows_real n (D : nat -> nat -> C) : good n D -> forall j k, (j <= 2 * n)%nat -> (k <= 2 * n)%nat -> Cconj (D j k) = D j k.
Proof.
  intros G j k Hj Hk. apply (rows_unique n D j (fun k => Cconj (D j k))); [exact G|exact Hj| |exact Hk]. intros u v. rewrite <- (conj_RtoC (mono n j _ _)), <- G, csum_conj by exact Hj. apply csum_ext. intros i _. rewrite conj_mul, conj_RtoC. reflexivity.
Qed.

Lemma rows_orth n (D : nat -> nat -> C) : good n D -> forall k k', (k <= 2 * n)%nat -> (k' <= 2 * n)%nat -> csum (fun j => D j k * D j k') (S (2 * n)) = if Nat.eqb k k' then 1 else 0.
Proof.
  intros G k k' Hk Hk'. symmetry. apply (mono_eq n (fun k' => if Nat.eqb k k' then RtoC 1 else RtoC 0) (fun k' => csum (fun j => D j k * D j k') (S (2 * n)))); [|exact Hk']. intros u v.
  rewrite (csum_one _ (S (2 * n)) k); [|lia|intros i _ N; destruct (Nat.eqb_spec k i); [congruence|ring]]. rewrite Nat.eqb_refl, Cmult_1_l, (inverse c s cs1 n D G k Hk).
  transitivity (csum (fun j => csum (fun i => D j k * D j i * RtoC (mono n i u v)) (S (2 * n))) (S (2 * n))).
  - apply csum_ext. intros j Hj. rewrite <- G, <- csum_scal by lia. apply csum_ext. intros; ring.
  - rewrite csum_swap. apply csum_ext. intros i _. rewrite Cmult_comm, <- csum_scal. apply csum_ext. intros; ring.
Qed.

Lemma mono_swap n k u v : (k <= 2 * n)%nat -> mono n k v (- u) = ((-1) ^ k * mono n (2 * n - k) u v)%R.
Proof.
  intros Hk. unfold mono. replace (2 * n - (2 * n - k))%nat with k by lia. assert (N : nf n (2 * n - k) = nf n k) by (unfold nf; replace (2 * n - (2 * n - k))%nat with k by lia; rewrite Rmult_comm; reflexivity). rewrite N.
  replace (- u)%R with (-1 * u)%R by ring. rewrite Rpow_mult_distr. assert (S1 : ((-1) ^ (2 * n - k) = (-1) ^ k)%R).
  { transitivity ((-1) ^ (2 * n - k) * ((-1) ^ k * (-1) ^ k))%R; [rewrite sgn_sq; ring|]. rewrite <- Rmult_assoc, <- pow_add. replace (2 * n - k + k)%nat with (2 * n)%nat by lia. rewrite pow_mult. replace ((-1) ^ 2)%R with 1%R by ring. rewrite pow1. ring. }
  rewrite S1. unfold Rdiv. ring.
Qed.

Lemma rows_sym n (D : nat -> nat -> C) : good n D -> forall j k, (j <= 2 * n)%nat -> (k <= 2 * n)%nat -> D (2 * n - j)%nat (2 * n - k)%nat = RtoC ((-1) ^ (j + k)) * D j k.
Proof.
  intros G j k Hj Hk. symmetry. replace k with (2 * n - (2 * n - k))%nat at 1 2 by lia.
  apply (rows_unique n D (2 * n - j) (fun k => RtoC ((-1) ^ (j + (2 * n - k))) * D j (2 * n - k)%nat)); [exact G|lia| |lia]. intros u v.
  rewrite csum_rev. transitivity (RtoC ((-1) ^ j) * csum (fun i => D j i * RtoC (mono n i v (- u))) (S (2 * n))).
  - rewrite <- csum_scal. apply csum_ext. intros i Hi. rewrite mono_swap by lia. replace (2 * n - (2 * n - i))%nat with i by lia. rewrite pow_add, !RtoC_mult. ring.
  - rewrite G by exact Hj. replace (s * v + c * - u)%R with (- (c * u - s * v))%R by ring. replace (c * v - s * - u)%R with (s * u + c * v)%R by ring. rewrite mono_swap by exact Hj. rewrite RtoC_mult, Cmult_assoc, <- RtoC_mult, sgn_sq. ring.
Qed.

Definition ry (a : nat -> nat -> R) (n : nat) (f : nat -> C) (m : nat) : C := csum (fun k => RtoC (a m k) * ext f n k) (S (2 * n)).
Definition wigner (a : nat -> nat -> R) (n : nat) : Prop := forall m, (m <= n)%nat -> forall u v, rsum (fun k => a m k * mono n k u v)%R (S (2 * n)) = mono n (n + m) (c * u - s * v) (s * u + c * v).

Lemma ry_rows a n D : wigner a n -> good n D -> forall m k, (m <= n)%nat -> (k <= 2 * n)%nat -> RtoC (a m k) = D (n + m)%nat k.
Proof.
  intros W G m k Hm Hk. apply (rows_unique n D (n + m) (fun k => RtoC (a m k))); [exact G|lia| |exact Hk]. intros u v. rewrite <- W, RtoC_rsum by exact Hm. apply csum_ext. intros. rewrite RtoC_mult. reflexivity.
Qed.

Lemma ext_flip f n k : snd (f 0%nat) = 0%R -> (k <= 2 * n)%nat -> ext f n (2 * n - k) = RtoC ((-1) ^ (n + k)) * Cconj (ext f n k).
Proof.
  intros Hr Hk. destruct (Nat.le_ge_cases n k).
  - replace k with (n + (k - n))%nat at 3 by lia. rewrite ext_pos. replace (2 * n - k)%nat with (n - (k - n))%nat by lia. rewrite ext_neg by (try exact Hr; lia). f_equal. f_equal.
    replace (n + k)%nat with (2 * n + (k - n))%nat by lia. rewrite pow_add, pow_mult. replace ((-1) ^ 2)%R with 1%R by ring. rewrite pow1. ring.
  - replace k with (n - (n - k))%nat at 3 by lia. rewrite ext_neg by (try exact Hr; lia). replace (2 * n - k)%nat with (n + (n - k))%nat by lia. rewrite ext_pos, conj_mul, conj_RtoC, conj_conj, Cmult_assoc, <- RtoC_mult, <- pow_add.
    replace (n + k + (n - k))%nat with (2 * n)%nat by lia. rewrite pow_mult. replace ((-1) ^ 2)%R with 1%R by ring. rewrite pow1, Cmult_1_l. reflexivity.
Qed.

Lemma ry_full a n D f : wigner a n -> good n D -> snd (f 0%nat) = 0%R -> snd (ry a n f 0%nat) = 0%R /\
  forall j, (j <= 2 * n)%nat -> ext (ry a n f) n j = csum (fun k => D j k * ext f n k) (S (2 * n)).
Proof.
  intros W G Hr.
  assert (P : forall m, (m <= n)%nat -> ry a n f m = csum (fun k => D (n + m)%nat k * ext f n k) (S (2 * n))) by (intros m Hm; apply csum_ext; intros k Hk; rewrite (ry_rows a n D W G) by lia; reflexivity).
  assert (Nq : forall m, (m <= n)%nat -> RtoC ((-1) ^ m) * Cconj (ry a n f m) = csum (fun k => D (n - m)%nat k * ext f n k) (S (2 * n))).
  { intros m Hm. rewrite P, csum_conj, <- csum_scal, csum_rev by exact Hm. apply csum_ext. intros k Hk. rewrite conj_mul, (rows_real n D G) by lia.
    replace (n - m)%nat with (2 * n - (n + m))%nat by lia. replace k with (2 * n - (2 * n - k))%nat at 3 by lia. rewrite (rows_sym n D G (n + m) (2 * n - k)) by lia.
    replace (ext f n k) with (ext f n (2 * n - (2 * n - k))) by (f_equal; lia). rewrite (ext_flip f n (2 * n - k)) by (try exact Hr; lia).
    replace ((-1) ^ m)%R with ((-1) ^ (n + m + (2 * n - k)) * (-1) ^ (n + (2 * n - k)))%R; [rewrite RtoC_mult; ring|]. rewrite <- pow_add. replace (n + m + (2 * n - k) + (n + (2 * n - k)))%nat with (2 * (n + (2 * n - k)) + m)%nat by lia.
    rewrite pow_add, pow_mult. replace ((-1) ^ 2)%R with 1%R by ring. rewrite pow1. ring. }
  assert (R0 : snd (ry a n f 0%nat) = 0%R).
  { apply real_conj. pose proof (Nq 0%nat (Nat.le_0_l n)) as E. rewrite Nat.sub_0_r in E. pose proof (P 0%nat (Nat.le_0_l n)) as E'. rewrite Nat.add_0_r in E'. cbn [pow] in E. rewrite Cmult_1_l in E. congruence. }
  split; [exact R0|]. intros j Hj. destruct (Nat.le_ge_cases n j).
  - replace j with (n + (j - n))%nat by lia. rewrite ext_pos. apply P. lia.
  - replace j with (n - (n - j))%nat by lia. rewrite ext_neg by (try exact R0; lia). apply Nq. lia.
Qed.

Lemma ry_har a n x m : wigner a n -> (m <= n)%nat -> ry a n (fun m => har x n (n + m)) m = har (rot_y c s x) n (n + m).
Proof. intros W Hm. rewrite (har_rot c s cs1 n (n + m) x (a m)) by (try lia; apply W, Hm). apply csum_ext. intros k Hk. rewrite ext_har by lia. reflexivity. Qed.

Lemma ry_pair a n f x : wigner a n -> snd (f 0%nat) = 0%R -> prr (ry a n f) (rot_y c s x) n = prr f x n.
Proof.
  intros W Hr. destruct (rows c s n) as [D G]. destruct (ry_full a n D f W G Hr) as [R0 E]. apply RtoC_inj. rewrite <- !prr_full by assumption.
  assert (Eh : forall j, (j <= 2 * n)%nat -> har (rot_y c s x) n j = csum (fun k => D j k * har x n k) (S (2 * n))).
  { intros j Hj. destruct (ry_full a n D (fun m => har x n (n + m)) W G (har_real x n)) as [_ Eh]. specialize (Eh j Hj). rewrite <- (ext_har _ _ _ Hj).
    rewrite (ext_ext _ (ry a n (fun m => har x n (n + m))) n j Hj) by (intros; symmetry; apply ry_har; assumption). rewrite Eh. apply csum_ext. intros k Hk. rewrite ext_har by lia. reflexivity. }
  transitivity (csum (fun j => csum (fun k => csum (fun k' => ext f n k * Cconj (har x n k') * (D j k * D j k')) (S (2 * n))) (S (2 * n))) (S (2 * n))).
  - apply csum_ext. intros j Hj. rewrite E, Eh, csum_conj by lia. rewrite Cmult_comm, <- csum_scal. apply csum_ext. intros k Hk. rewrite Cmult_comm, <- csum_scal. apply csum_ext. intros k' Hk'. rewrite conj_mul, (rows_real n D G) by lia. ring.
  - rewrite csum_swap. apply csum_ext. intros k Hk. rewrite csum_swap. rewrite (csum_one _ (S (2 * n)) k); [|exact Hk|].
    + rewrite csum_scal, (rows_orth n D G) by lia. rewrite Nat.eqb_refl. ring.
    + intros k' Hk' N. rewrite csum_scal, (rows_orth n D G) by lia. destruct (Nat.eqb_spec k k'); [congruence|ring].
Qed.
End Rot.

(** rotation about the z axis and translation along it *)
Lemma rz_pair ea n f x : (fst ea * fst ea + snd ea * snd ea = 1)%R -> prr (fun m => f m * cp ea m) (rot_z ea x) n = prr f x n.
Proof.
  intros U. apply rsum_ext. intros m _. rewrite har_rot_z by exact U. do 2 f_equal. rewrite conj_mul, cp_conj.
  assert (Ue : Cconj ea * ea = 1) by (apply injective_projections; unfold Cconj, Cmult, RtoC; cbn [fst snd]; [rewrite <- U|]; ring).
  transitivity (f m * Cconj (har x n (n + m)) * (cp (Cconj ea) m * cp ea m)); [ring|]. rewrite (cp_unit ea m Ue). ring.
Qed.
