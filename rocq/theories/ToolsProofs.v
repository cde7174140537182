From Coq Require Import String.
From Coq Require Import ZArith Reals Lra Lia List Bool.
From Verif Require Import Base ListFacts ToolsModel ToolsSpec.
Import ListNotations.
Open Scope Z_scope.

Definition copier (k : ker) : tgt -> tgt -> tgt := match k with KLaplace => copy_laplace | KYukawa => copy_yukawa | KHelmholtz => copy_helmholtz end.
Definition with_flag (k : ker) (h : header) : header :=
  match k with KLaplace => flags h true (has_yukawa h) (has_helmholtz h) | KYukawa => flags h (has_laplace h) true (has_helmholtz h) | KHelmholtz => flags h (has_laplace h) (has_yukawa h) true end.
(** the kernel that the code looks at: the first of the other file *)
Definition first_of (h : header) : option ker := if has_laplace h then Some KLaplace else if has_yukawa h then Some KYukawa else if has_helmholtz h then Some KHelmholtz else None.

Lemma choose_eq h o : choose h o = match first_of o with None => Done (h, None) | Some k => if has k h then Throw Runtime else Done (with_flag k h, Some (copier k)) end.
Proof. unfold choose, first_of. destruct (has_laplace o); [reflexivity|]. destruct (has_yukawa o); [reflexivity|]. destruct (has_helmholtz o); reflexivity. Qed.
Lemma first_only k h : only k h -> first_of h = Some k.
Proof.
  intros [H N]. unfold first_of. destruct k; cbn [has] in H.
  - rewrite H. reflexivity.
  - rewrite (N KLaplace ltac:(discriminate) : has_laplace h = false), H. reflexivity.
  - rewrite (N KLaplace ltac:(discriminate) : has_laplace h = false), (N KYukawa ltac:(discriminate) : has_yukawa h = false), H. reflexivity.
Qed.
Lemma copier_takes k a b : takes k a b (copier k a b).
Proof. destruct k; repeat split; intros [] N; try reflexivity; contradiction. Qed.
Lemma with_flag_has k h k' : has k' (with_flag k h) = match k, k' with KLaplace, KLaplace | KYukawa, KYukawa | KHelmholtz, KHelmholtz => true | _, _ => has k' h end.
Proof. destruct k, k'; reflexivity. Qed.
Lemma with_flag_same k h : same_but_flags (with_flag k h) h.
Proof. destruct k; repeat split. Qed.

Definition paired (a b : list tgt) : Prop := Forall2 (fun x y => t_index x = t_index y) a b.
Lemma copy_some g a b : paired a b -> exists l, copy_all (Some g) a b = Done l /\ length l = length a /\
  forall i x y, nth_error a i = Some x -> nth_error b i = Some y -> nth_error l i = Some (g x y).
Proof.
  induction 1 as [|x y a b E _ (l & Hl & L & N)]; [exists []; repeat split; intros [] ? ?; discriminate|]. cbn [copy_all]. rewrite E, Z.eqb_refl, Hl. cbn [andthen].
  eexists. split; [reflexivity|]. split; [cbn; congruence|]. intros [|i] u v; cbn [nth_error]; [intros [= <-] [= <-]; reflexivity|apply N].
Qed.
Lemma copy_done f a b l : length a = length b -> copy_all f a b = Done l -> paired a b /\ (f = None -> a = []).
Proof.
  revert b l. induction a as [|x a IH]; intros [|y b] l L H; try discriminate; [split; [constructor|reflexivity]|]. cbn [copy_all] in H. destruct (Z.eqb_spec (t_index x) (t_index y)) as [E|]; [|discriminate].
  destruct f as [g|]; [|discriminate]. destruct (copy_all (Some g) a b) as [r|] eqn:R; [|discriminate]. destruct (IH b r ltac:(cbn in L; lia) R) as [P _]. split; [constructor; assumption|discriminate].
Qed.
Lemma copy_ext f a b b' : Forall2 (fun y y' => t_index y = t_index y' /\ forall k, value k y = value k y') b b' -> (f = None \/ exists k, f = Some (copier k)) -> copy_all f a b = copy_all f a b'.
Proof.
  intros H F. revert a. induction H as [|y y' b b' [E V] _ IH]; intros [|x a]; try reflexivity. cbn [copy_all]. rewrite E. destruct (t_index x =? t_index y'); [|reflexivity].
  destruct F as [->|(k & ->)]; [reflexivity|]. rewrite IH. replace (copier k x y) with (copier k x y'); [reflexivity|].
  destruct k; cbn [copier]; [unfold copy_laplace; rewrite <- (V KLaplace : t_laplace y = t_laplace y')|unfold copy_yukawa; rewrite <- (V KYukawa : t_yukawa y = t_yukawa y')|unfold copy_helmholtz; rewrite <- (V KHelmholtz : t_helmholtz y = t_helmholtz y')]; reflexivity.
Qed.

Lemma combine_eq c o : n_sources (head c) = n_sources (head o) -> n_targets (head c) = n_targets (head o) ->
  combine c o = andthen (choose (head c) (head o)) (fun '(h, f) => andthen (copy_all f (targets c) (targets o)) (fun l => Done (mkComb h (sources c) l))).
Proof. intros A B. unfold combine. rewrite A, B, !Z.eqb_refl. reflexivity. Qed.
Lemma combine_counts c o r : combine c o = Done r -> n_sources (head c) = n_sources (head o) /\ n_targets (head c) = n_targets (head o).
Proof. unfold combine. destruct (Z.eqb_spec (n_sources (head c)) (n_sources (head o))); [|discriminate]. destruct (Z.eqb_spec (n_targets (head c)) (n_targets (head o))); [|discriminate]. auto. Qed.

Lemma combine_k c o k : n_sources (head c) = n_sources (head o) -> n_targets (head c) = n_targets (head o) -> paired (targets c) (targets o) -> first_of (head o) = Some k -> has k (head c) = false ->
  exists l, combine c o = Done (mkComb (with_flag k (head c)) (sources c) l) /\ length l = length (targets c) /\
  forall i x y, nth_error (targets c) i = Some x -> nth_error (targets o) i = Some y -> nth_error l i = Some (copier k x y).
Proof.
  intros A B P F H. rewrite combine_eq, choose_eq, F, H by assumption. cbn [andthen]. destruct (copy_some (copier k) _ _ P) as (l & -> & L & N). cbn [andthen]. eauto.
Qed.

Lemma read_ok {A} (l : list A) : read_records (Z.of_nat (length l)) l = Done l.
Proof.
  unfold read_records. destruct (Z.eqb_spec (Z.of_nat (length l)) 0) as [E|E]; [destruct l; [reflexivity|cbn in E; lia]|]. destruct (Z.ltb_spec (Z.of_nat (length l)) 0); [lia|].
  rewrite Z.leb_refl, Nat2Z.id, firstn_all. reflexivity.
Qed.
Lemma read_inv {A} n (l r : list A) : read_records n l = Done r -> n = Z.of_nat (length r).
Proof.
  unfold read_records. destruct (Z.eqb_spec n 0) as [->|E]; [intros [= <-]; reflexivity|]. destruct (Z.ltb_spec n 0); [discriminate|]. destruct (Z.leb_spec n (Z.of_nat (length l))); [|discriminate].
  intros [= <-]. rewrite firstn_length. lia.
Qed.
Lemma open_proper fs f c : open_file fs f = Done c -> proper c.
Proof.
  unfold open_file. destruct (fs f) as [x|]; [|discriminate]. destruct (f_head x) as [h|]; [|discriminate]. destruct (read_records (n_sources h) _) as [s|] eqn:S0; [|discriminate]. cbn [andthen].
  destruct (read_records (n_targets h) _) as [t|] eqn:T0; [|discriminate]. cbn [andthen]. intros [= <-]. split; cbn; eapply read_inv; eassumption.
Qed.

(** the files of makepoints *)
Lemma save_all_ok k i l : exists r, save_all (name k) i l = Done r /\ length r = length l /\
  forall j p v, nth_error l j = Some (p, v) -> exists t, nth_error r j = Some t /\ t_pos t = p /\ t_index t = i + Z.of_nat j /\ t_phi t = (0%R, 0%R) /\ value k t = v /\ forall k', k' <> k -> value k' t = (0%R, 0%R).
Proof.
  revert i. induction l as [|[p v] l IH]; intros i; [exists []; repeat split; intros [] ? ?; discriminate|]. destruct (IH (i + 1)) as (r & E & L & N). clear IH.
  assert (S0 : exists t, saved (name k) p v i = Done t /\ t_pos t = p /\ t_index t = i /\ t_phi t = (0%R, 0%R) /\ value k t = v /\ forall k', k' <> k -> value k' t = (0%R, 0%R)).
  { destruct k; eexists; (split; [reflexivity|]); repeat split; intros [] D; try reflexivity; contradiction. }
  destruct S0 as (t & St & T). cbn [save_all]. rewrite St, E. cbn [andthen]. eexists. split; [reflexivity|]. split; [cbn; congruence|]. intros [|j] p0 v0; cbn [nth_error].
  - intros [= <- <-]. exists t. rewrite Z.add_0_r. split; [reflexivity|exact T].
  - intros H. destruct (N j p0 v0 H) as (t0 & H0 & H1 & H2 & H3). exists t0. split; [exact H0|]. split; [exact H1|]. split; [lia|exact H3].
Qed.
Lemma save_sources_length i l : length (save_sources i l) = length l.
Proof. revert i. induction l as [|[p q] l IH]; intros i; cbn; [reflexivity|]. rewrite IH. reflexivity. Qed.

(** errors *)
Open Scope R_scope.
Lemma norm_nonneg z : 0 <= norm z.
Proof. unfold norm. nra. Qed.
Lemma norm_0 z : norm z = 0 -> z = (0, 0).
Proof. unfold norm. destruct z as [a b]. cbn. intros H. f_equal; nra. Qed.
Lemma norm_sq a b : norm (minus a b) = sq a b.
Proof. unfold norm, minus, sq. cbn. ring. Qed.
Lemma div_inv a b v : div a b = Ok v -> b <> 0 /\ v * b = a.
Proof. unfold div. destruct (Req_EM_T b 0); [discriminate|]. intros [= <-]. split; [assumption|]. field. assumption. Qed.

Lemma loop_inv k ts a b m a' b' m' : foldM (fun '(a, b, m) t => do r <- relative k t; Ok (a + norm (minus (t_phi t) (exact k t)), b + norm (exact k t), if Rlt_dec m r then r else m)) ts (a, b, m) = Ok (a', b', m') ->
  a' = a + total (fun t => sq (t_phi t) (exact k t)) ts /\ b' = b + total (fun t => norm (exact k t)) ts /\ m <= m' /\
  (forall t, In t ts -> exists r, relative k t = Ok r /\ r <= m') /\ (m' = m \/ exists t, In t ts /\ relative k t = Ok m').
Proof.
  revert a b m. induction ts as [|t ts IH]; intros a b m H; cbn [foldM] in H.
  - injection H as <- <- <-. cbn [total]. split; [lra|]. split; [lra|]. split; [lra|]. split; [intros t []|left; reflexivity].
  - destruct (relative k t) as [r|] eqn:Er; [|discriminate]. cbn [bind] in H. apply IH in H. destruct H as (Ha & Hb & Hm & Hall & Hx). cbn [total]. rewrite norm_sq in Ha.
    assert (r <= m' /\ m <= m') as [Q1 Q2] by (destruct (Rlt_dec m r); lra). split; [rewrite Ha; ring|]. split; [rewrite Hb; ring|]. split; [exact Q2|]. split.
    + intros u [<-|I]; [exists r; split; [exact Er|exact Q1]|apply Hall, I].
    + destruct Hx as [Hx|(u & I & Hu)]; [|right; exists u; split; [right; exact I|exact Hu]]. destruct (Rlt_dec m r); [right; exists t; split; [left; reflexivity|congruence]|left; exact Hx].
Qed.

Lemma total_nonneg f l : (forall t, 0 <= f t) -> 0 <= total f l.
Proof. intros H. induction l as [|t l IH]; cbn; [lra|]. specialize (H t). lra. Qed.
Lemma total_0 f l : (forall t, 0 <= f t) -> total f l = 0 -> forall t, In t l -> f t = 0.
Proof. intros H. induction l as [|t l IH]; cbn; [intros _ t []|]. intros E u. pose proof (H t). pose proof (total_nonneg f l H). intros [<-|I]; [lra|apply IH; [lra|exact I]]. Qed.
Lemma total_le f g l c : (forall t, In t l -> f t <= c * g t) -> total f l <= c * total g l.
Proof. intros H. induction l as [|t l IH]; cbn; [lra|]. pose proof (H t (or_introl eq_refl)). specialize (IH ltac:(intros u I; apply H; right; exact I)). lra. Qed.
Lemma sq_nonneg a b : 0 <= sq a b. Proof. unfold sq. apply Rplus_le_le_0_compat; apply pow2_ge_0. Qed.
Lemma sq_0 a b : sq a b = 0 <-> a = b.
Proof.
  unfold sq. destruct a as [x y], b as [u v]. cbn. split; [|intros [= -> ->]; ring]. intros H. pose proof (pow2_ge_0 (x - u)). pose proof (pow2_ge_0 (y - v)). assert (A : (x - u) * (x - u) = 0) by (cbn in *; lra). assert (B : (y - v) * (y - v) = 0) by (cbn in *; lra).
  apply Rmult_integral in A, B. f_equal; lra.
Qed.

Lemma compare_inv k ts e m : compare_results k ts = Ok (e, m) ->
  let D := total (fun t => norm (exact k t)) ts in let N := total (fun t => sq (t_phi t) (exact k t)) ts in
  0 < D /\ 0 <= e /\ e * e * D = N /\ 0 <= m /\ (forall t, In t ts -> exists r, relative k t = Ok r /\ r <= m) /\ (m = 0 \/ exists t, In t ts /\ relative k t = Ok m).
Proof.
  cbv zeta. unfold compare_results. destruct (foldM _ ts (0, 0, 0)) as [[[a b] m0]|] eqn:L; [|discriminate]. cbn [bind]. apply loop_inv in L. destruct L as (-> & -> & Hm & Hall & Hx).
  rewrite !Rplus_0_l. set (D := total (fun t => norm (exact k t)) ts). set (N := total _ ts). destruct (div N D) as [v|] eqn:V; [|discriminate]. cbn [bind]. intros [= <- <-]. apply div_inv in V. destruct V as [Nz V].
  assert (0 <= D) by (apply total_nonneg; intros; apply norm_nonneg). assert (0 <= N) by (apply total_nonneg; intros; apply sq_nonneg).
  assert (0 <= v) by (destruct (Rlt_dec v 0); [exfalso; nra|lra]). split; [lra|]. split; [apply sqrt_pos|]. split; [rewrite sqrt_sqrt by assumption; exact V|]. auto.
Qed.
