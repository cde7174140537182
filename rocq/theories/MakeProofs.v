(** Proofs about the program that makes the reference data. *)
From Coq Require Import Ascii String.
From Coq Require Import ZArith Reals List Bool Lia Lra.
From Verif Require Import Base BasicModel BasicSpec BasicProofs ToolsModel ToolsSpec ToolsProofs MakeModel MakeSpec.
Import ListNotations.
Open Scope Z_scope.

(** ** Options *)
Lemma options_read : forall l a, ~ In OHelp l -> ~ In OBad l ->
  MakeModel.read_options a l = Some (mkIn (last_data (i_type a) l) (last_kernel (i_kernel a) l) (last_single (i_single a) l)).
Proof.
  induction l as [|o l IH]; intros a H B; [destruct a; reflexivity|].
  assert (H' : ~ In OHelp l) by (intros X; apply H; right; exact X). assert (B' : ~ In OBad l) by (intros X; apply B; right; exact X).
  destruct o; cbn [MakeModel.read_options last_data last_kernel last_single].
  - rewrite IH by assumption. reflexivity.
  - rewrite IH by assumption. reflexivity.
  - rewrite IH by assumption. cbn [i_type i_kernel i_single]. destruct (string_dec s "yes") as [E|E]; [subst; reflexivity|].
    apply String.eqb_neq in E. rewrite E. reflexivity.
  - exfalso. apply H. left. reflexivity.
  - exfalso. apply B. left. reflexivity.
Qed.
Lemma options_bad : forall l a, In OHelp l \/ In OBad l -> MakeModel.read_options a l = None.
Proof.
  induction l as [|o l IH]; intros a [H|H]; try (destruct H; fail); destruct H as [->|H]; try reflexivity; destruct o; cbn; auto.
Qed.

(** ** Points *)
Section Points.
Variable rand : nat -> Z.
Hypothesis range : sequence rand.
Definition pick (s : shape) : nat -> point * nat := match s with Cube => cube_position rand | Sphere => sphere_position rand end.
Lemma draw_unit : forall i, unit_draw (draw rand i).
Proof.
  intros i. destruct (range i) as [A B]. apply IZR_le in A, B. unfold unit_draw, draw, rand_max. split.
  - apply Rmult_le_pos; [exact A|]. apply Rlt_le, Rinv_0_lt_compat. lra.
  - apply (Rmult_le_reg_r 2147483647); [lra|]. unfold Rdiv. rewrite Rmult_assoc, Rinv_l; lra.
Qed.
Lemma pick_snd : forall s i, snd (pick s i) = (i + numbers s)%nat.
Proof. intros [] i; cbn; lia. Qed.
Lemma pick_from : forall s i, position_from rand s i (fst (pick s i)).
Proof.
  intros s i. pose proof (draw_unit i) as U. destruct s; cbn [pick fst cube_position sphere_position].
  - unfold pick_cube_position, position_from. change (draw rand) with (unit_of rand). replace (i + 1)%nat with (S i) by lia. replace (i + 2)%nat with (S (S i)) by lia. repeat split; lra.
  - pose proof (around_dist 1 (draw rand i) (draw rand (S i)) U) as D. unfold pick_sphere_position. unfold around in *. unfold dist2 in D. unfold position_from.
    change (unit_of rand) with (draw rand). replace (i + 1)%nat with (S i) by lia. split; [ring|]. split; [lra|].
    exists (sqrt (1 - (2 * draw rand i - 1) * (2 * draw rand i - 1))). split; [apply sqrt_pos|]. split; ring.
Qed.
Lemma from_inside : forall s i p, position_from rand s i p -> inside s p.
Proof.
  intros s i [[x y] z] H. pose proof (draw_unit i) as U0. pose proof (draw_unit (i + 1)) as U1. pose proof (draw_unit (i + 2)) as U2. change (draw rand) with (unit_of rand) in U0, U1, U2. unfold unit_draw in *.
  destruct s; cbn [position_from inside] in *.
  - repeat split; lra.
  - destruct H as (_ & H & _). lra.
Qed.
Lemma charge_good : forall single i, charge_ok single (fst (charge_of rand single i)).
Proof.
  intros single i. destruct (draw_unit i) as [A B]. unfold charge_of, charge_ok. destruct single; cbn [fst]; [left; lra|].
  destruct (Z.odd (rand (S i))); [right; split; [reflexivity|]; lra|left; lra].
Qed.
Lemma charge_snd : forall single i, snd (charge_of rand single i) = (i + signs single)%nat.
Proof. intros [] i; cbn; lia. Qed.
Lemma fill_sources_at : forall s single n k i,
  length (fst (fill_sources rand (pick s) single n k i)) = n /\
  snd (fill_sources rand (pick s) single n k i) = (i + n * (numbers s + signs single))%nat /\
  forall j, (j < n)%nat -> let b := (i + j * (numbers s + signs single))%nat in
    nth_error (fst (fill_sources rand (pick s) single n k i)) j = Some (mkP (fst (pick s b)) (Some (fst (charge_of rand single (b + numbers s)%nat))) (Some (k + Z.of_nat j))).
Proof.
  intros s single n. induction n as [|n IH]; intros k i; cbn [fill_sources].
  - cbn. split; [reflexivity|]. split; [lia|]. intros j Hj. lia.
  - pose proof (pick_snd s i) as P. destruct (pick s i) as [p i1] eqn:Ep. cbn [snd] in P. subst i1.
    pose proof (charge_snd single (i + numbers s)) as Q. destruct (charge_of rand single (i + numbers s)) as [q i2] eqn:Eq. cbn [snd] in Q. subst i2.
    specialize (IH (k + 1) (i + numbers s + signs single)%nat). destruct (fill_sources _ _ _ _ _ _) as [l e]. cbn [fst snd length] in *. destruct IH as (L & E & N).
    split; [lia|]. split; [rewrite E; lia|]. intros [|j] Hj.
    + cbn [nth_error Nat.mul]. rewrite Nat.add_0_r, Ep, Eq. cbn [fst]. rewrite Z.add_0_r. reflexivity.
    + cbn [nth_error]. rewrite N by lia. cbn zeta.
      replace (i + numbers s + signs single + j * (numbers s + signs single))%nat with (i + S j * (numbers s + signs single))%nat by lia.
      replace (k + 1 + Z.of_nat j) with (k + Z.of_nat (S j)) by lia. reflexivity.
Qed.
Lemma fill_targets_at : forall s n k i,
  length (fst (fill_targets (pick s) n k i)) = n /\
  forall j, (j < n)%nat -> nth_error (fst (fill_targets (pick s) n k i)) j = Some (mkQ (fst (pick s (i + j * numbers s)%nat)) zero (Some (k + Z.of_nat j))).
Proof.
  intros s n. induction n as [|n IH]; intros k i; cbn [fill_targets].
  - split; [reflexivity|]. intros j Hj. lia.
  - pose proof (pick_snd s i) as P. destruct (pick s i) as [p i1] eqn:Ep. cbn [snd] in P. subst i1.
    specialize (IH (k + 1) (i + numbers s)%nat). destruct (fill_targets _ _ _ _) as [l e]. cbn [fst length] in *. destruct IH as (L & N).
    split; [lia|]. intros [|j] Hj.
    + cbn [nth_error Nat.mul]. rewrite Nat.add_0_r, Ep. cbn [fst]. rewrite Z.add_0_r. reflexivity.
    + cbn [nth_error]. rewrite N by lia. replace (i + numbers s + j * numbers s)%nat with (i + S j * numbers s)%nat by lia.
      replace (k + 1 + Z.of_nat j) with (k + Z.of_nat (S j)) by lia. reflexivity.
Qed.
Lemma sources_shape : forall n s single i, MakeModel.set_sources rand n (shape_name s) single i = fill_sources rand (pick s) single n 0 i.
Proof. intros n [] single i; reflexivity. Qed.
Lemma targets_shape : forall n s i, MakeModel.set_targets rand n (shape_name s) i = fill_targets (pick s) n 0 i.
Proof. intros n [] i; reflexivity. Qed.
Lemma points_shape : forall ns nt s kernel single,
  points rand ns nt (mkIn (shape_name s) kernel single) =
  (fst (fill_sources rand (pick s) single ns 0 0), fst (fill_targets (pick s) nt 0 (ns * (numbers s + signs single)))).
Proof.
  intros. unfold points. cbn [i_type i_single]. rewrite sources_shape. destruct (fill_sources_at s single ns 0 0) as (_ & E & _).
  destruct (fill_sources _ _ _ _ _ _) as [l e]. cbn [fst snd] in *. rewrite targets_shape. subst e. rewrite Nat.add_0_l. destruct (fill_targets _ _ _ _) as [l' e']. reflexivity.
Qed.
Lemma settled_fill : forall s single n k i, exists l, settled (fst (fill_sources rand (pick s) single n k i)) = Some l /\ length l = n /\
  forall j p, nth_error (fst (fill_sources rand (pick s) single n k i)) j = Some p -> exists q, nth_error l j = Some (p_pos p, q) /\ p_charge p = Some q.
Proof.
  intros s single n. induction n as [|n IH]; intros k i; cbn [fill_sources].
  - exists []. split; [reflexivity|]. split; [reflexivity|]. intros [|j] p H; discriminate.
  - destruct (pick s i) as [p i1]. destruct (charge_of rand single i1) as [q i2]. destruct (IH (k + 1) i2) as (l & E & L & N). destruct (fill_sources _ _ _ _ _ _) as [r e]. cbn [fst] in *.
    exists ((p, q) :: l). cbn [settled]. rewrite E. split; [reflexivity|]. split; [cbn; lia|]. intros [|j] x H; cbn [nth_error] in *.
    + injection H as <-. exists q. split; reflexivity.
    + apply N. exact H.
Qed.
Lemma placed_fill : forall s n k i, exists l, placed (fst (fill_targets (pick s) n k i)) = Some (map (fun p => (p, zero)) l) /\ length l = n /\
  forall j p, nth_error (fst (fill_targets (pick s) n k i)) j = Some p -> nth_error l j = Some (q_pos p).
Proof.
  intros s n. induction n as [|n IH]; intros k i; cbn [fill_targets].
  - exists []. split; [reflexivity|]. split; [reflexivity|]. intros [|j] p H; discriminate.
  - destruct (pick s i) as [p i1]. destruct (IH (k + 1) i1) as (l & E & L & N). destruct (fill_targets _ _ _ _) as [r e]. cbn [fst] in *.
    exists (p :: l). cbn [placed map]. rewrite E. split; [reflexivity|]. split; [cbn; lia|]. intros [|j] x H; cbn [nth_error] in *.
    + injection H as <-. reflexivity.
    + apply N. exact H.
Qed.
End Points.

(** ** Domain *)
Open Scope R_scope.
Lemma inside_within : forall s p q, inside s p -> inside s q -> within (side s) p q.
Proof.
  intros s [[x y] z] [[u v] w] P Q. destruct s; cbn [inside within side] in *.
  - repeat split; apply Rabs_le; lra.
  - assert (B : forall a b c, a ^ 2 + b ^ 2 + c ^ 2 = 1 -> -1 <= a <= 1) by (intros a b c H; split; nra).
    pose proof (B x y z P). pose proof (B u v w Q). pose proof (B y x z ltac:(lra)). pose proof (B v u w ltac:(lra)). pose proof (B z x y ltac:(lra)). pose proof (B w u v ltac:(lra)).
    repeat split; apply Rabs_le; lra.
Qed.
Close Scope R_scope.

(** ** Names *)
Fixpoint prefixed (a b : list ascii) : bool :=
  match a, b with [], _ => true | _, [] => true | x :: a, y :: b => Ascii.eqb x y && prefixed a b end.
Lemma prefixed_app : forall a b c d, (a ++ c = b ++ d)%list -> prefixed a b = true.
Proof.
  induction a as [|x a IH]; intros [|y b] c d E; try reflexivity. cbn in E. injection E as -> E. cbn. rewrite Ascii.eqb_refl. exact (IH _ _ _ E).
Qed.
Lemma list_append : forall a b, list_ascii_of_string (a ++ b) = (list_ascii_of_string a ++ list_ascii_of_string b)%list.
Proof. induction a as [|x a IH]; intros b; cbn; [reflexivity|]. rewrite IH. reflexivity. Qed.
Lemma list_inj : forall a b, list_ascii_of_string a = list_ascii_of_string b -> a = b.
Proof. intros a b H. rewrite <- (string_of_list_ascii_of_string a), <- (string_of_list_ascii_of_string b), H. reflexivity. Qed.
Lemma suffixes : forall a b s t, (a ++ s = b ++ t)%string -> prefixed (rev (list_ascii_of_string s)) (rev (list_ascii_of_string t)) = true.
Proof.
  intros a b s t E. apply (f_equal list_ascii_of_string) in E. rewrite !list_append in E. apply (f_equal (@rev ascii)) in E. rewrite !rev_app_distr in E.
  exact (prefixed_app _ _ _ _ E).
Qed.
Lemma cancel : forall a b s, (a ++ s = b ++ s)%string -> a = b.
Proof. intros a b s E. apply (f_equal list_ascii_of_string) in E. rewrite !list_append in E. apply app_inv_tail in E. apply list_inj. exact E. Qed.
Lemma append_assoc : forall a b c, ((a ++ b) ++ c = a ++ (b ++ c))%string.
Proof. induction a as [|x a IH]; intros b c; cbn; [reflexivity|]. rewrite IH. reflexivity. Qed.
Lemma length_app : forall a b, String.length (a ++ b) = (String.length a + String.length b)%nat.
Proof. induction a as [|x a IH]; intros b; cbn; [reflexivity|]. rewrite IH. reflexivity. Qed.
Lemma fname_split : forall k t s, fname k t s = ("prepared." ++ (k ++ ("." ++ t ++ (if s then ".single.dat" else ".dat"))))%string.
Proof. reflexivity. Qed.
Lemma fname_inj : forall k1 t1 s1 k2 t2 s2, In t1 ["cube"; "sphere"; "plummer"]%string -> In t2 ["cube"; "sphere"; "plummer"]%string ->
  fname k1 t1 s1 = fname k2 t2 s2 -> k1 = k2 /\ t1 = t2 /\ s1 = s2.
Proof.
  intros k1 t1 s1 k2 t2 s2 T1 T2 E. rewrite !fname_split in E. cbn [String.append] in E. repeat (injection E as E). 
  assert (E' : (k1 ++ ("." ++ t1 ++ (if s1 then ".single.dat" else ".dat")) = k2 ++ ("." ++ t2 ++ (if s2 then ".single.dat" else ".dat")))%string) by exact E. clear E.
  pose proof (suffixes _ _ _ _ E') as P.
  cbn [In] in T1, T2. destruct T1 as [<-|[<-|[<-|[]]]], T2 as [<-|[<-|[<-|[]]]], s1, s2; try (vm_compute in P; discriminate P);
    (split; [exact (cancel _ _ _ E')|split; reflexivity]).
Qed.
Lemma fname_length : forall k t s, String.length (fname k t s) = (String.length k + String.length t + (if s then 21 else 14))%nat.
Proof. intros k t s. rewrite fname_split, !length_app. destruct s; cbn [String.length]; lia. Qed.

(** ** Files *)
Lemma save_unknown : forall kernel i p v l, kernel <> "laplace"%string -> kernel <> "yukawa"%string -> kernel <> "helmholtz"%string -> save_all kernel i ((p, v) :: l) = Throw BadCall.
Proof.
  intros kernel i p v l A B C. cbn [save_all]. unfold saved. apply String.eqb_neq in A, B, C. rewrite A, B, C. reflexivity.
Qed.
Lemma name_eval : forall pot k ss p, evaluate pot (name k) ss (p, zero) = (p, pot (name k) ss p).
Proof.
  intros pot k ss p. unfold evaluate, zero. assert (E : ((name k =? "laplace")%string || (name k =? "yukawa")%string || (name k =? "helmholtz")%string) = true) by (destruct k; reflexivity).
  rewrite E. cbn [fst snd]. rewrite !Rplus_0_l. destruct (pot (name k) ss p); reflexivity.
Qed.
Lemma combine_map : forall (f : point -> cpx) l, map (fun p => (p, f p)) l = List.combine l (map f l).
Proof. intros f l. induction l as [|p l IH]; cbn; [reflexivity|]. rewrite IH. reflexivity. Qed.
Lemma save_sources_at : forall l i j p q, nth_error l j = Some (p, q) -> nth_error (save_sources i l) j = Some (mkSrc p q (i + Z.of_nat j)).
Proof.
  induction l as [|[a b] l IH]; intros i [|j] p q H; try discriminate; cbn [save_sources nth_error] in *.
  - injection H as -> ->. rewrite Z.add_0_r. reflexivity.
  - rewrite (IH (i + 1) j p q H). do 2 f_equal. lia.
Qed.
Lemma unset_plummer : forall n, settled (repeat (mkP origin None None) (S n)) = None.
Proof. reflexivity. Qed.
