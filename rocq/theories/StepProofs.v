(** Proofs about the simulation in time steps. *)
From Coq Require Import Reals ZArith List Permutation Lra Lia Psatz.
From Verif Require Import LapModel LapSpec PotSpec FieldRunModel FieldRunSpec StepModel StepSpec.
Import ListNotations.
Open Scope R_scope.

Lemma tally_perm {A} (f : A -> R) l l' : Permutation l l' -> tally f l = tally f l'.
Proof. intros H. induction H; cbn [tally fold_right] in *; fold (tally f) in *; unfold tally in *; lra. Qed.
Lemma tally_ext {A} (f g : A -> R) l : (forall x, In x l -> f x = g x) -> tally f l = tally g l.
Proof. intros H. induction l as [|x l IH]; [reflexivity|]. cbn. rewrite (H x (or_introl eq_refl)). unfold tally in IH. rewrite IH; [reflexivity|intros y I; apply H; right; exact I]. Qed.
Lemma tally_map {A B} (h : A -> B) (f : B -> R) l : tally f (map h l) = tally (fun x => f (h x)) l.
Proof. induction l as [|x l IH]; [reflexivity|]. cbn. unfold tally in IH. rewrite IH. reflexivity. Qed.
Lemma tally_plus {A} (f g : A -> R) l : tally (fun x => f x + g x) l = tally f l + tally g l.
Proof. induction l as [|x l IH]; cbn; [ring|]. unfold tally in IH. rewrite IH. ring. Qed.
Lemma tally_scal {A} k (f : A -> R) l : tally (fun x => k * f x) l = k * tally f l.
Proof. induction l as [|x l IH]; cbn; [ring|]. unfold tally in IH. rewrite IH. ring. Qed.
Lemma tally_cons {A} (f : A -> R) x l : tally f (x :: l) = f x + tally f l.
Proof. reflexivity. Qed.

(** The field of charges, as sums over all of them *)
Definition part (c : pt -> R) (t : pt) (s : charge) : R := if pt_dec (cpos s) t then 0 else cq s * ((c t - c (cpos s)) / dist t (cpos s) ^ 3).
Lemma pull_tally c l t : pull_along c (others t l) t = tally (part c t) l.
Proof.
  induction l as [|s l IH]; [reflexivity|]. rewrite tally_cons. unfold others, part in *. cbn [filter]. destruct (pt_dec (cpos s) t) as [E|N]; [rewrite IH; ring|]. cbn [pull_along fold_right]. fold (pull_along c (filter (fun s => if pt_dec (cpos s) t then false else true) l) t). rewrite IH. reflexivity.
Qed.
Definition way (c : along) : pt -> R := match c with X => px | Y => py | Z' => pz end.
Lemma field_tally c l t : comp c (field l t) = tally (part (way c) t) l.
Proof. unfold field. destruct c; cbn [comp way]; apply pull_tally. Qed.
Lemma vec_ext (u v : vec) : (forall c, comp c u = comp c v) -> u = v.
Proof. destruct u as [[a b] d], v as [[e f] g]. intros H. pose proof (H X). pose proof (H Y). pose proof (H Z'). cbn in *. congruence. Qed.
Lemma field_perm l l' t : Permutation l l' -> field l t = field l' t.
Proof. intros H. apply vec_ext. intros c. rewrite !field_tally. apply tally_perm, H. Qed.

(** Newton's third law *)
Lemma antisymmetric {A} (G : A -> A -> R) l : (forall a b, G a b = - G b a) -> tally (fun a => tally (G a) l) l = 0.
Proof.
  intros H. induction l as [|x l IH]; [reflexivity|]. rewrite tally_cons. rewrite (tally_ext (fun a => tally (G a) (x :: l)) (fun a => G a x + tally (G a) l)) by (intros; apply tally_cons). rewrite tally_plus, IH, tally_cons.
  rewrite (tally_ext (fun a => G a x) (fun a => - 1 * G x a)) by (intros a _; rewrite (H a x); ring). rewrite tally_scal. pose proof (H x x). lra.
Qed.
Lemma dist_sym a b : dist a b = dist b a.
Proof. unfold dist. f_equal. ring. Qed.
Lemma third_law c l : tally (fun p => mass p * comp c (field (charges l) (position p))) l = 0.
Proof.
  rewrite (tally_ext _ (fun p => tally (fun s => mass p * part (way c) (position p) (mkCharge (mass s) (position s))) l)); [|intros p _; rewrite field_tally; unfold charges; rewrite tally_map, tally_scal; reflexivity].
  apply antisymmetric. intros a b. unfold part. cbn [cpos cq]. destruct (pt_dec (position b) (position a)) as [E|N], (pt_dec (position a) (position b)) as [E'|N']; try congruence; [ring|]. rewrite (dist_sym (position b)). unfold Rdiv. ring.
Qed.

Lemma comp_dist3 c u v e : dist3 u v <= e -> Rabs (comp c u - comp c v) <= e.
Proof.
  intros H. eapply Rle_trans; [|exact H]. destruct u as [[a b] d], v as [[e' f] g]. unfold dist3, comp. rewrite <- sqrt_Rsqr_abs. apply sqrt_le_1_alt. unfold Rsqr. pose proof (pow2_ge_0 (a - e')). pose proof (pow2_ge_0 (b - f)). pose proof (pow2_ge_0 (d - g)). destruct c; cbn [pow] in *; lra.
Qed.
Lemma dist3_zero u v : dist3 u v <= 0 -> u = v.
Proof. intros H. apply vec_ext. intros c. pose proof (comp_dist3 c u v 0 H) as K. pose proof (Rabs_pos (comp c u - comp c v)). assert (K0 : Rabs (comp c u - comp c v) = 0) by lra. apply Rabs_eq_0 in K0 || (destruct (Req_dec (comp c u - comp c v) 0) as [E|N]; [lra|apply Rabs_no_R0 in N; contradiction]). Qed.

(** Momentum *)
Definition forces c (l : list particle) : R := tally (fun p => mass p * comp c (acceleration p)) l.
Lemma mass_perm l l' : Permutation l l' -> total_mass l = total_mass l'.
Proof. apply tally_perm. Qed.
Lemma sum_gain eps c F l r : Forall2 (fun p p' => exists f, gains f p p' /\ dist3 f (F p) <= eps) l r -> (forall p, In p l -> 0 <= mass p) ->
  Rabs (forces c r - forces c l - tally (fun p => mass p * comp c (F p)) l) <= total_mass l * eps /\ momentum c r = momentum c l /\ total_mass r = total_mass l /\ (forall p, In p r -> 0 <= mass p).
Proof.
  intros H. induction H as [|p p' l r (f & (E1 & E2 & E3 & E4 & E5) & D) H IH]; intros Pos.
  - cbn. replace (0 - 0 - 0) with 0 by ring. rewrite Rabs_R0. repeat split; [lra|intros ? []].
  - destruct IH as (I1 & I2 & I3 & I4); [intros q I; apply Pos; right; exact I|]. unfold forces, momentum, total_mass in *. rewrite !tally_cons. pose proof (Pos p (or_introl eq_refl)) as Mp. rewrite E2, E3, E5. split; [|split; [|split]]; [|lra|lra|intros q [<-|I]; [rewrite E2; exact Mp|exact (I4 q I)]].
    pose proof (comp_dist3 c _ _ _ D) as D'. match goal with |- Rabs ?x <= _ => replace x with (mass p * (comp c f - comp c (F p)) + (tally (fun p => mass p * comp c (acceleration p)) r - tally (fun p => mass p * comp c (acceleration p)) l - tally (fun p => mass p * comp c (F p)) l)) by ring end.
    eapply Rle_trans; [apply Rabs_triang|]. rewrite Rabs_mult, (Rabs_pos_eq (mass p)) by exact Mp. nra.
Qed.
Lemma updated dt c l : momentum c (update_particles dt l) = momentum c l - dt * forces c l /\ forces c (update_particles dt l) = forces c l /\ total_mass (update_particles dt l) = total_mass l.
Proof.
  unfold momentum, forces, total_mass, update_particles. rewrite !tally_map. split; [|split].
  - rewrite (tally_ext _ (fun p => mass p * comp c (velocity p) + - dt * (mass p * comp c (acceleration p)))).
    + rewrite tally_plus, tally_scal. lra.
    + intros p _. unfold update_particle. destruct (velocity p) as [[a b] d], (acceleration p) as [[e f] g]. cbn [mass velocity]. unfold speed_up. destruct c; cbn [comp]; ring.
  - apply tally_ext. intros p _. unfold update_particle. destruct (velocity p) as [[a b] d], (acceleration p) as [[e f] g] eqn:E. cbn [mass acceleration]. reflexivity.
  - apply tally_ext. intros p _. unfold update_particle. destruct (velocity p) as [[a b] d], (acceleration p) as [[e f] g] eqn:E. reflexivity.
Qed.
Lemma momentum_ok eps dt n l l' : 0 <= eps -> 0 <= dt -> stepping (evaluated eps) dt n l l' -> (forall p, In p l -> 0 <= mass p) -> forall c, forces c l = 0 ->
  (Rabs (forces c l') <= INR n * (total_mass l * eps) /\ Rabs (momentum c l' - momentum c l) <= dt * (INR n * (INR n + 1) / 2 * (total_mass l * eps))) /\ total_mass l' = total_mass l /\ (forall p, In p l' -> 0 <= mass p).
Proof.
  intros He Hd H Pos c F0. induction H as [l|n l l1 l2 H IH Ev].
  - cbn [INR]. rewrite F0, Rabs_R0. replace (momentum c l - momentum c l) with 0 by ring. rewrite Rabs_R0. repeat split; try nra. exact Pos.
  - destruct (IH Pos F0) as ((I1 & I2) & I3 & I4). destruct Ev as (r & Pm & Ev). destruct (sum_gain eps c _ l1 r Ev I4) as (S1 & S2 & S3 & S4). rewrite third_law in S1. rewrite I3 in S1.
    assert (Q : momentum c l2 = momentum c l1) by (rewrite <- S2; symmetry; apply tally_perm, Pm). assert (Q' : forces c l2 = forces c r) by (symmetry; apply tally_perm, Pm). assert (Q'' : total_mass l2 = total_mass l) by (rewrite <- I3, <- S3; symmetry; apply tally_perm, Pm).
    destruct (updated dt c l2) as (U1 & U2 & U3). rewrite U1, U2, U3, Q, Q', Q''. rewrite S_INR. set (K := total_mass l * eps) in *.
    assert (B : Rabs (forces c r) <= (INR n + 1) * K) by (replace (forces c r) with ((forces c r - forces c l1 - 0) + forces c l1) by ring; eapply Rle_trans; [apply Rabs_triang|]; lra).
    split; [split; [exact B|]|split; [reflexivity|]].
    + replace (momentum c l1 - dt * forces c r - momentum c l) with ((momentum c l1 - momentum c l) + - (dt * forces c r)) by ring. eapply Rle_trans; [apply Rabs_triang|]. rewrite Rabs_Ropp, Rabs_mult, (Rabs_pos_eq dt) by exact Hd. nra.
    + intros p I. unfold update_particles in I. apply in_map_iff in I. destruct I as (p0 & <- & I). unfold update_particle. destruct (velocity p0) as [[? ?] ?], (acceleration p0) as [[? ?] ?]. cbn [mass]. apply S4. eapply Permutation_in; [apply Permutation_sym, Pm|exact I].
Qed.

(** Paths *)
Lemma sum_to_ext g h n : (forall j, (j < n)%nat -> g j = h j) -> sum_to g n = sum_to h n.
Proof. induction n as [|n IH]; intros H; [reflexivity|]. cbn. rewrite IH, (H n) by (intros; auto with arith). reflexivity. Qed.
Lemma sum_to_plus g h n : sum_to (fun j => g j + h j) n = sum_to g n + sum_to h n.
Proof. induction n as [|n IH]; cbn; [ring|rewrite IH; ring]. Qed.
Lemma driven_step dt f n p p1 p2 : driven dt f n p p1 -> gains (f n) p1 p2 -> driven dt f (S n) p (update_particle dt p2).
Proof.
  intros (M & N & D) (E1 & E2 & E3 & E4 & E5). unfold driven. assert (Em : mass (update_particle dt p2) = mass p2 /\ number (update_particle dt p2) = number p2 /\ (forall c, comp c (acceleration (update_particle dt p2)) = comp c (acceleration p2) /\ comp c (velocity (update_particle dt p2)) = comp c (velocity p2) - comp c (acceleration p2) * dt /\
    coor c (position (update_particle dt p2)) = coor c (position p2) + (comp c (velocity p2) * dt - 1 / 2 * comp c (acceleration p2) * dt * dt))).
  { unfold update_particle. destruct (velocity p2) as [[a b] d], (acceleration p2) as [[e g] h]. cbn [mass number acceleration velocity position]. split; [reflexivity|]. split; [reflexivity|]. intros c. destruct c; cbn; unfold speed_up, move; auto. }
  destruct Em as (M' & N' & Q). split; [congruence|]. split; [congruence|]. intros c. destruct (Q c) as (Q1 & Q2 & Q3). destruct (D c) as (D1 & D2 & D3). rewrite Q1, Q2, Q3, E1, E3, E5, D1, D2, D3. cbn [sum_to]. rewrite S_INR.
  rewrite (sum_to_ext (fun j => (INR n + 1 - INR j) * comp c (f j)) (fun j => (INR n - INR j) * comp c (f j) + comp c (f j)) n) by (intros; ring).
  rewrite (sum_to_ext (fun j => (INR n + 1 - INR j) ^ 2 / 2 * comp c (f j)) (fun j => (INR n - INR j) ^ 2 / 2 * comp c (f j) + ((INR n - INR j) * comp c (f j) + 1 / 2 * comp c (f j))) n) by (intros; field).
  rewrite !sum_to_plus. assert (Hh : sum_to (fun j => 1 / 2 * comp c (f j)) n = 1 / 2 * sum_to (fun j => comp c (f j)) n) by (clear; induction n as [|n IH]; cbn; [ring|rewrite IH; ring]). rewrite Hh. repeat split; field.
Qed.
Lemma driven_ext dt f g n p p' : (forall j, (j < n)%nat -> f j = g j) -> driven dt f n p p' -> driven dt g n p p'.
Proof.
  intros H (M & N & D). split; [exact M|]. split; [exact N|]. intros c. destruct (D c) as (D1 & D2 & D3). rewrite D1, D2, D3.
  rewrite (sum_to_ext (fun j => comp c (f j)) (fun j => comp c (g j))) by (intros j L; rewrite (H j L); reflexivity).
  rewrite (sum_to_ext (fun j => (INR n - INR j) * comp c (f j)) (fun j => (INR n - INR j) * comp c (g j))) by (intros j L; rewrite (H j L); reflexivity).
  rewrite (sum_to_ext (fun j => (INR n - INR j) ^ 2 / 2 * comp c (f j)) (fun j => (INR n - INR j) ^ 2 / 2 * comp c (g j))) by (intros j L; rewrite (H j L); reflexivity). auto.
Qed.
Lemma some_forces (Q : particle -> vec -> Prop) l r : Forall2 (fun p p' => exists f, gains f p p' /\ Q p f) l r ->
  exists fs, forall i p, nth_error l i = Some p -> exists p', nth_error r i = Some p' /\ gains (nth i fs (0, 0, 0)) p p' /\ Q p (nth i fs (0, 0, 0)).
Proof.
  intros H. induction H as [|p p' l r (f & G & D) H (fs & IH)]; [exists []; intros [|i] p E; discriminate|]. exists (f :: fs). intros [|i] q E; [injection E as <-; exists p'; auto|]. destruct (IH i q E) as (q' & E' & G' & D'). exists q'. auto.
Qed.
Lemma same_length {A B} (Q : A -> B -> Prop) l r : Forall2 Q l r -> length l = length r.
Proof. intros H. induction H; cbn; congruence. Qed.
Lemma path_ok eps dt n l l' : stepping (evaluated eps) dt n l l' -> exists (at_ : nat -> list particle) (f : nat -> nat -> vec), at_ O = l /\ Permutation (at_ n) l' /\
  (forall k, (k <= n)%nat -> length (at_ k) = length l /\ exists lk, stepping (evaluated eps) dt k l lk /\ Permutation (at_ k) lk) /\
  forall i p k, nth_error l i = Some p -> (k <= n)%nat -> exists pk, nth_error (at_ k) i = Some pk /\ driven dt (f i) k p pk /\ ((k < n)%nat -> dist3 (f i k) (field (charges (at_ k)) (position pk)) <= eps).
Proof.
  intros H. induction H as [l|n l l1 l2 H (at_ & f & A0 & Pm & Len & IH) (r & Pr & Ev)].
  - exists (fun _ => l), (fun _ _ => (0, 0, 0)). split; [reflexivity|]. split; [apply Permutation_refl|]. split; [intros k L; split; [reflexivity|]; replace k with O by lia; exists l; split; [constructor|apply Permutation_refl]|]. intros i p k E L. exists p. split; [exact E|]. split; [|lia]. replace k with O by lia. split; [reflexivity|]. split; [reflexivity|]. intros c. cbn [sum_to INR]. repeat split; field.
  - destruct (Permutation_Forall2 (Permutation_sym Pm) Ev) as (r' & Pr' & Ev'). destruct (some_forces (fun p f => dist3 f (field (charges l1) (position p)) <= eps) _ _ Ev') as (fs & Hf).
    exists (fun k => if (k <=? n)%nat then at_ k else update_particles dt r'), (fun i k => if (k =? n)%nat then nth i fs (0, 0, 0) else f i k). split; [exact A0|]. split; [|split].
    + replace (S n <=? n)%nat with false by (symmetry; apply Nat.leb_gt; lia). unfold update_particles. apply Permutation_map. eapply Permutation_trans; [apply Permutation_sym, Pr'|exact Pr].
    + intros k L. destruct (Nat.leb_spec k n) as [L'|L']; [exact (Len k L')|]. split; [unfold update_particles; rewrite map_length; rewrite <- (same_length _ _ _ Ev'); exact (proj1 (Len n (le_n n)))|].
      assert (k = S n) by lia. subst k. exists (update_particles dt l2). split; [eapply one_more; [exact H|exists r; auto]|]. unfold update_particles. apply Permutation_map. eapply Permutation_trans; [apply Permutation_sym, Pr'|exact Pr].
    + intros i p k E L. destruct (Nat.leb_spec k n) as [L'|L'].
      * destruct (IH i p k E L') as (pk & Ek & Dk & Fk). exists pk. split; [exact Ek|]. split; [eapply driven_ext; [|exact Dk]; intros j Lj; cbv beta; destruct (Nat.eqb_spec j n); [lia|reflexivity]|].
        intros _. destruct (Nat.eqb_spec k n) as [->|Nk]; [|apply Fk; lia]. destruct (Hf i pk Ek) as (p' & _ & _ & D). rewrite (field_perm _ (charges l1)); [exact D|]. unfold charges. apply Permutation_map, Pm.
      * assert (k = S n) by lia. subst k. destruct (IH i p n E (le_n n)) as (pn & En & Dn & _). destruct (Hf i pn En) as (p' & E' & G & D). exists (update_particle dt p'). split; [unfold update_particles; apply map_nth_error, E'|]. split; [|lia].
        eapply driven_step; [eapply driven_ext; [|exact Dn]; intros j Lj; cbv beta; destruct (Nat.eqb_spec j n); [lia|reflexivity]|]. cbv beta. rewrite Nat.eqb_refl. exact G.
Qed.

(** From what the leaves hold *)
Lemma leaf_gain Q l : forall vs, Forall2 Q (map position l) vs ->
  Forall2 (fun p p' => exists f, gains f p p' /\ Q (position p) f) l (with_accelerations l (vadd add3 (map acceleration l) vs)).
Proof.
  induction l as [|p l IH]; intros vs H; [constructor|]. cbn [map] in H. inversion H as [|t v ts vs' D H' E1 E2]; subst. cbn [map vadd with_accelerations]. constructor; [|apply IH, H'].
  exists v. split; [|exact D]. split; [reflexivity|]. split; [reflexivity|]. split; [reflexivity|]. split; [reflexivity|]. intros c. cbn [acceleration]. destruct (acceleration p) as [[a b] d], v as [[e f] g]. destruct c; reflexivity.
Qed.
Lemma leaves_gain {B} (R' : particle -> particle -> Prop) (rec new : B -> list particle) qs : (forall q, In q qs -> Forall2 R' (rec q) (new q)) -> Forall2 R' (flat_map rec qs) (flat_map new qs).
Proof. intros H. induction qs as [|q qs IH]; [constructor|]. cbn [flat_map]. apply Forall2_app; [apply H; left; reflexivity|apply IH; intros q' I; apply H; right; exact I]. Qed.

(** The start *)
Lemma start_ok rand_max rand : (0 < rand_max)%Z -> (forall i, (0 <= rand i <= rand_max)%Z) -> forall count i, let '(l, tot) := set_sources rand_max rand i count in
  length l = count /\ tot = total_mass l /\ forall k p, nth_error l k = Some p ->
    sqrt (px (position p) ^ 2 + py (position p) ^ 2 + pz (position p) ^ 2) = IZR (rand (4 * (i + k))%nat) / IZR rand_max /\ 1 <= mass p <= 2 /\ velocity p = (0, 0, 0) /\ acceleration p = (0, 0, 0) /\ number p = Z.of_nat (i + k).
Proof.
  intros Hm Hr count. induction count as [|n IH]; intros i; cbn [set_sources]; [split; [reflexivity|split; [reflexivity|intros [|k] p E; discriminate]]|].
  specialize (IH (i + 1)%nat). destruct (set_sources rand_max rand (i + 1) n) as [l tot]. destruct IH as (L & T & IH). split; [cbn; rewrite L; reflexivity|]. split; [unfold total_mass in *; rewrite tally_cons, T; reflexivity|].
  intros [|k] p E; [|specialize (IH k p E); replace (i + S k)%nat with (i + 1 + k)%nat by lia; exact IH]. cbn [nth_error] in E. apply (f_equal (fun o => match o with Some x => x | None => p end)) in E. cbv beta iota in E. rewrite <- E. cbn [position mass velocity acceleration number]. replace (i + 0)%nat with i by (rewrite Nat.add_0_r; reflexivity).
  assert (U : forall j, 0 <= unit_of rand_max (rand j) <= 1). { intros j. specialize (Hr j). apply IZR_lt in Hm. destruct Hr as [H1 H2]. apply IZR_le in H1, H2. unfold unit_of. split; [apply Rmult_le_pos; [exact H1|left; apply Rinv_0_lt_compat, Hm]|]. apply (Rmult_le_reg_r (IZR rand_max)); [exact Hm|]. unfold Rdiv. rewrite Rmult_assoc, Rinv_l by lra. lra. }
  split; [|split; [pose proof (U (4 * i + 3)%nat) as U3; unfold pick_mass; split; lra|split; [reflexivity|split; reflexivity]]].
  unfold pick_sphere_position. cbn [px py pz]. fold (unit_of rand_max (rand (4 * i)%nat)). set (r := unit_of rand_max (rand (4 * i)%nat)). pose proof (U (4 * i)%nat) as Ur. pose proof (U (4 * i + 1)%nat) as Uc. set (u := unit_of rand_max (rand (4 * i + 1)%nat)) in *. set (phi := 2 * (31415926535 / 10000000000) * unit_of rand_max (rand (4 * i + 2)%nat)).
  set (ct := 2 * u - 1). assert (Q : 0 <= 1 - ct * ct) by (unfold ct; nra). set (st := sqrt (1 - ct * ct)). assert (St : st * st = 1 - ct * ct) by (apply sqrt_sqrt, Q). pose proof (sin2_cos2 phi) as SC. unfold Rsqr in SC.
  replace ((r * st * cos phi) ^ 2 + (r * st * sin phi) ^ 2 + (r * ct) ^ 2) with (r * r * ((st * st) * (sin phi * sin phi + cos phi * cos phi) + ct * ct)) by ring. rewrite SC, St. replace (r * r * ((1 - ct * ct) * 1 + ct * ct)) with (r * r) by ring. apply sqrt_square. exact (proj1 Ur).
Qed.
