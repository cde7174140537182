(** Distances between points and boxes; which boxes touch. *)
From Coq Require Import Reals ZArith List Bool Arith Lia Lra Psatz.
From Verif Require Import Base ListFacts RefineModel IndexModel IndexSpec TreeModel TreeFacts DagModel DagSpec DagProofs MethodModel GeomModel FmmProofs MethodTasks ListsSpec ListsProofs ListsCount LapModel LapSpec LapProofs TranModel TranSpec TranProofs PotModel PotSpec.
Import ListNotations.
Open Scope R_scope.

Lemma dist_axes a b : Rabs (px a - px b) <= dist a b /\ Rabs (py a - py b) <= dist a b /\ Rabs (pz a - pz b) <= dist a b.
Proof.
  unfold dist. pose proof (pow2_ge_0 (px a - px b)). pose proof (pow2_ge_0 (py a - py b)). pose proof (pow2_ge_0 (pz a - pz b)).
  assert (G : forall x s, x ^ 2 <= s -> Rabs x <= sqrt s) by (intros x s Hs; rewrite <- sqrt_Rsqr_abs; apply sqrt_le_1_alt; unfold Rsqr; lra).
  repeat split; apply G; lra.
Qed.
Lemma inside_radius corner size i x : 0 < size -> inside corner size i x -> dist (middle corner size i) x <= radius size (ilevel i).
Proof.
  intros Hs (H1 & H2 & H3). pose proof (side_pos size (ilevel i) Hs) as P. set (h := side size (ilevel i)) in *. unfold radius. fold h. unfold dist.
  assert (G : forall u, Rabs u <= h / 2 -> u ^ 2 <= h * h / 4) by (intros u Hu; pose proof (Rabs_pos u); assert (E : u ^ 2 = Rabs u * Rabs u) by (rewrite <- Rabs_mult, Rabs_right; [ring|apply Rle_ge; nra]); rewrite E; nra).
  apply G in H1. apply G in H2. apply G in H3. pose proof (sqrt_sqrt 3 ltac:(lra)) as S3. pose proof (sqrt_pos 3) as P3.
  apply Rle_trans with (sqrt ((sqrt 3 / 2 * h) ^ 2)); [|rewrite sqrt_pow2 by nra; lra]. apply sqrt_le_1_alt. nra.
Qed.
Lemma side_down size l d : (0 <= d)%Z -> side size l = IZR (2 ^ d) * side size (l + d).
Proof.
  intros Hd. unfold side. rewrite powerRZ_add by lra. rewrite <- (Z2Nat.id d) at 1 2 by exact Hd. set (n := Z.to_nat d).
  rewrite <- (pow_IZR 2). rewrite <- pow_powerRZ. pose proof (pow2_pos l). assert (0 < 2 ^ n) by (apply pow_lt; lra). field. lra.
Qed.
Definition pcoord (a : axis) (x : pt) : R := match a with AX => px x | AY => py x | AZ => pz x end.
Lemma middle_coord corner size i a : pcoord a (middle corner size i) = pcoord a corner + side size (ilevel i) * IZR (icoord a i) + side size (ilevel i) / 2.
Proof. destruct a; reflexivity. Qed.
Lemma inside_coord corner size i x a : inside corner size i x ->
  pcoord a corner + side size (ilevel i) * IZR (icoord a i) <= pcoord a x <= pcoord a corner + side size (ilevel i) * IZR (icoord a i + 1).
Proof.
  intros H. assert (G : Rabs (pcoord a x - pcoord a (middle corner size i)) <= side size (ilevel i) / 2) by (destruct H as (H1 & H2 & H3); destruct a; assumption).
  rewrite middle_coord in G. rewrite plus_IZR, Rmult_plus_distr_l. revert G. generalize (pcoord a x) (pcoord a corner) (side size (ilevel i) * IZR (icoord a i)). intros u v w. unfold Rabs. destruct (Rcase_abs _); simpl (IZR 1); lra.
Qed.
(** A box of level at most that of [c] that does not touch [c]. *)
Lemma clear_far corner size c q x : 0 < size -> (length q <= length c)%nat -> ~ near c q -> inside corner size (idx_of q) x ->
  3 / 2 * side size (ilevel (idx_of c)) <= dist (middle corner size (idx_of c)) x.
Proof.
  intros Hs L N I. assert (W : clear_of (idx_of c) (idx_of q)).
  { apply asym_clear; [rewrite !idx_level; lia|]. rewrite <- near_well_sep_asym in N by exact L. destruct (well_sep_asym _ _); [reflexivity|]. destruct N; reflexivity. }
  destruct W as (Le & a & H). cbv zeta in H. pose proof (inside_coord _ _ _ _ a I) as J. set (i := idx_of c) in *. set (j := idx_of q) in *. set (d := (ilevel i - ilevel j)%Z) in *.
  rewrite (side_down size (ilevel j) d) in J by lia. replace (ilevel j + d)%Z with (ilevel i) in J by lia. pose proof (side_pos size (ilevel i) Hs) as P. pose proof (middle_coord corner size i a) as Md. set (h := side size (ilevel i)) in *.
  assert (Da : Rabs (pcoord a (middle corner size i) - pcoord a x) <= dist (middle corner size i) x) by (destruct (dist_axes (middle corner size i) x) as (D1 & D2 & D3); destruct a; assumption).
  eapply Rle_trans; [|exact Da]. rewrite Md. destruct H as [H|H].
  - apply IZR_le in H. rewrite plus_IZR, mult_IZR in H. rewrite Rabs_minus_sym. eapply Rle_trans; [|apply Rle_abs]. nra.
  - apply IZR_le in H. rewrite plus_IZR, mult_IZR in H. eapply Rle_trans; [|apply Rle_abs]. nra.
Qed.
Lemma separated_V c p : Forall (fun w => (w < 8)%nat) c -> Forall (fun w => (w < 8)%nat) p -> length c = length p -> ~ near c p -> near (parent_of c) (parent_of p) -> TranSpec.separated (idx_of c) (idx_of p).
Proof.
  intros Fc Fp L N P. assert (Ne : p <> []) by (intros ->; apply N; destruct c; [exact P|discriminate]). assert (Nc : c <> []) by (intros ->; destruct p; [apply Ne; reflexivity|discriminate]).
  split; [rewrite !idx_level, L; reflexivity|]. split.
  - assert (G : forall a, (Z.abs (icoord a (idx_of c) - icoord a (idx_of p)) <= 3)%Z).
    { intros a. pose proof (parent_coord c a Fc Nc). pose proof (parent_coord p a Fp Ne). destruct (P a) as [P1 P2]. pose proof (parent_length c p L) as Lp. rewrite !idx_level, Lp in P1, P2.
      set (k := (2 ^ Z.of_nat (length (parent_of p)))%Z) in *. assert (K : (0 < k)%Z) by (apply Z.pow_pos_nonneg; lia). apply Z.mul_le_mono_pos_r in P1; [|exact K]. apply Z.mul_le_mono_pos_r in P2; [|exact K]. lia. }
    split; [exact (G AX)|]. split; [exact (G AY)|exact (G AZ)].
  - rewrite <- near_well_sep in N by exact L. apply not_false_is_true in N. apply DagSound.well_sep_apart in N. destruct N as [[] N]; cbn [icoord] in N; auto.
Qed.
(** Boxes of the levels 0 and 1 touch each other. *)
Lemma coarse_near c p : Forall (fun w => (w < 8)%nat) c -> Forall (fun w => (w < 8)%nat) p -> (length c <= 1)%nat -> (length p <= 1)%nat -> near c p.
Proof.
  intros Fc Fp L L2. destruct (follow_facts c root_index root_grid Fc) as ((_ & C1 & C2 & C3) & Lc & _). destruct (follow_facts p root_index root_grid Fp) as ((Lp0 & P1 & P2 & P3) & Lp & _). fold (idx_of c) in *. fold (idx_of p) in *.
  assert (K : forall c : path, (length c <= 1)%nat -> (2 ^ ilevel (idx_of c) = 1 \/ 2 ^ ilevel (idx_of c) = 2)%Z) by (clear; intros c L; rewrite idx_level; destruct c as [|w [|v c]]; [left; reflexivity|right; reflexivity|cbn [length] in L; lia]).
  assert (G : forall a, (0 <= icoord a (idx_of c) < 2 ^ ilevel (idx_of c))%Z /\ (0 <= icoord a (idx_of p) < 2 ^ ilevel (idx_of p))%Z) by (intros []; cbn [icoord]; auto).
  intros a. destruct (G a) as [G1 G2]. destruct (K c L) as [K1|K1], (K p L2) as [K2|K2]; rewrite K1, K2 in *; lia.
Qed.

(** ** prefixes *)
Lemma prefix_firstn (c s : path) : prefix c s <-> (length c <= length s)%nat /\ firstn (length c) s = c.
Proof.
  split.
  - intros [r ->]. split; [rewrite app_length; lia|]. rewrite firstn_app, Nat.sub_diag, firstn_all. cbn [firstn]. apply app_nil_r.
  - intros [L E]. exists (skipn (length c) s). rewrite <- E at 1. symmetry. apply firstn_skipn.
Qed.
Lemma firstn_prefix n (s : path) : prefix (firstn n s) s.
Proof. exists (skipn n s). symmetry. apply firstn_skipn. Qed.
Lemma firstn_parent n (s : path) : (n < length s)%nat -> parent_of (firstn (S n) s) = firstn n s.
Proof.
  intros L. destruct (nth_error s n) as [x|] eqn:E; [|apply nth_error_None in E; lia].
  assert (F : firstn (S n) s = firstn n s ++ [x]) by (clear L; revert n E; induction s as [|y l IHl]; intros [|n] E; cbn in *; try discriminate; [congruence|]; rewrite IHl by exact E; reflexivity).
  rewrite F. apply parent_snoc.
Qed.
Lemma firstn_snoc_parent n (s : path) : firstn n s = firstn n (firstn (S n) s).
Proof. rewrite firstn_firstn. f_equal. lia. Qed.
Lemma firstn_lt8 n (s : path) : Forall (fun w => (w < 8)%nat) s -> Forall (fun w => (w < 8)%nat) (firstn n s).
Proof. intros F. rewrite <- (firstn_skipn n s) in F. apply Forall_app in F. apply F. Qed.
Lemma near_dec (c p : path) : near c p \/ ~ near c p.
Proof.
  destruct (le_gt_dec (length p) (length c)) as [L|L].
  - pose proof (near_well_sep_asym c p L) as W. destruct (well_sep_asym (idx_of c) (idx_of p)); [right; intros H; apply W in H; discriminate|left; apply W; reflexivity].
  - pose proof (near_well_sep_asym p c ltac:(lia)) as W. destruct (well_sep_asym (idx_of p) (idx_of c)); [right; intros H; apply near_sym, W in H; discriminate|left; apply near_sym, W; reflexivity].
Qed.
