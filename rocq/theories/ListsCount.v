(** How long the interaction lists can be. *)
From Coq Require Import ZArith List Bool Arith Lia.
From Verif Require Import Base ListFacts IndexModel TreeModel TreeFacts RefineModel LookupModel GeomModel DagModel MethodModel DagSpec DagProofs DagPaths DagExec DagSound MethodProofs MethodTasks MethodSound DirectBHProofs FmmProofs Fmm97Proofs StopsProofs ListsSpec ListsProofs.
Import ListNotations.
Open Scope nat_scope.

Definition zrange (lo : Z) (n : nat) : list Z := map (fun k => (lo + Z.of_nat k)%Z) (seq 0 n).
Lemma zrange_in : forall lo n x, In x (zrange lo n) <-> (lo <= x < lo + Z.of_nat n)%Z.
Proof.
  intros lo n x. unfold zrange. rewrite in_map_iff. split.
  - intros (k & <- & I). apply in_seq in I. lia.
  - intros H. exists (Z.to_nat (x - lo)). split; [lia|]. apply in_seq. lia.
Qed.
Definition cube (x y z : Z) (n : nat) : list (Z * Z * Z) := list_prod (list_prod (zrange x n) (zrange y n)) (zrange z n).
Lemma cube_in : forall x y z n a b c, In (a, b, c) (cube x y z n) <-> (x <= a < x + Z.of_nat n /\ y <= b < y + Z.of_nat n /\ z <= c < z + Z.of_nat n)%Z.
Proof. intros. unfold cube. rewrite !in_prod_iff, !zrange_in. tauto. Qed.

(** Boxes of one level are told apart by their coordinates relative to some point. *)
Definition offs (x y z : Z) (c : path) : Z * Z * Z := (ix (idx_of c) - x, iy (idx_of c) - y, iz (idx_of c) - z)%Z.
Lemma nodup_map : forall X Y (f : X -> Y) l, NoDup l -> (forall a b, In a l -> In b l -> f a = f b -> a = b) -> NoDup (map f l).
Proof.
  intros X Y f l N. induction N as [|x l Nx N IH]; intros H; [constructor|]. cbn. constructor.
  - rewrite in_map_iff. intros (y & E & I). apply Nx. rewrite (H x y); [exact I|left; reflexivity|right; exact I|congruence].
  - apply IH. intros a b Ia Ib. apply H; right; assumption.
Qed.
Lemma count_le : forall x y z k (l : list path) L, NoDup l -> (forall c, In c l -> Forall (fun w => w < 8) c /\ length c = k) -> (forall c, In c l -> In (offs x y z c) L) -> length l <= length L.
Proof.
  intros x y z k l L N H I. rewrite <- (map_length (offs x y z) l). apply NoDup_incl_length.
  - apply nodup_map; [exact N|]. intros a b Ia Ib E. destruct (H a Ia) as [Fa La]. destruct (H b Ib) as [Fb Lb]. unfold offs in E. injection E as E1 E2 E3. apply idx_inj; auto; try lia.
  - intros o Io. apply in_map_iff in Io. destruct Io as (c & <- & Ic). apply I. exact Ic.
Qed.

Definition far3 (o : Z * Z * Z) : bool := let '(a, b, c) := o in ((1 <? Z.abs a) || (1 <? Z.abs b) || (1 <? Z.abs c))%Z.
(** 6^3 - 3^3 *)
Lemma far_189 : forall bx b_y bz, (0 <= bx <= 1)%Z -> (0 <= b_y <= 1)%Z -> (0 <= bz <= 1)%Z -> length (filter far3 (cube (-2 - bx) (-2 - b_y) (-2 - bz) 6)) = 189.
Proof.
  intros bx b_y bz Hx Hy Hz. assert (bx = 0 \/ bx = 1)%Z as [->| ->] by lia; assert (b_y = 0 \/ b_y = 1)%Z as [->| ->] by lia; assert (bz = 0 \/ bz = 1)%Z as [->| ->] by lia; vm_compute; reflexivity.
Qed.
Lemma same_coord : forall c p a, length c = length p -> near c p -> (Z.abs (icoord a (idx_of c) - icoord a (idx_of p)) <= 1)%Z.
Proof.
  intros c p a L N. apply near_well_sep in N; [|exact L]. destruct (Z.le_gt_cases (Z.abs (icoord a (idx_of c) - icoord a (idx_of p))) 1) as [|G]; [assumption|].
  assert (X : well_sep (idx_of c) (idx_of p) = true) by (apply well_sep_apart; exists a; lia). congruence.
Qed.
Lemma parent_coord : forall c a, Forall (fun w => w < 8) c -> c <> [] -> (2 * icoord a (idx_of (parent_of c)) <= icoord a (idx_of c) <= 2 * icoord a (idx_of (parent_of c)) + 1)%Z.
Proof.
  intros c a F N. destruct (snoc_parent c N) as [w W]. rewrite W in F. apply Forall_app in F. destruct F as [_ F]. pose proof (Forall_inv F) as W8. cbn beta in W8.
  pose proof (child_coord a w (idx_of (parent_of c)) W8) as [H _]. rewrite <- idx_snoc, <- W in H. exact H.
Qed.
Lemma parent_length : forall c d : path, length c = length d -> length (parent_of c) = length (parent_of d).
Proof.
  intros c d L. assert (H : forall e : path, length (parent_of e) = pred (length e)).
  { intros e. destruct (list_eq_dec Nat.eq_dec e []) as [->|N]; [reflexivity|]. destruct (snoc_parent e N) as [w W]. rewrite W at 2. rewrite app_length. cbn. lia. }
  rewrite !H, L. reflexivity.
Qed.

Lemma count_V : forall (l : list path) p, NoDup l -> Forall (fun w => w < 8) p -> (forall c, In c l -> Forall (fun w => w < 8) c /\ length c = length p /\ ~ near c p /\ near (parent_of c) (parent_of p)) -> length l <= 189.
Proof.
  intros l p N Fp H. destruct (list_eq_dec Nat.eq_dec p []) as [->|Np].
  - destruct l as [|c l]; [cbn; lia|]. destruct (H c (or_introl eq_refl)) as (_ & L & X & _). destruct c; [|discriminate L]. contradiction X. apply (proj1 (near_well_sep [] [] eq_refl)). reflexivity.
  - pose proof (parent_coord p AX Fp Np) as PX. pose proof (parent_coord p AY Fp Np) as PY. pose proof (parent_coord p AZ Fp Np) as PZ. cbn [icoord] in *.
    set (q := idx_of (parent_of p)) in *. set (i := idx_of p) in *.
    rewrite <- (far_189 (ix i - 2 * ix q) (iy i - 2 * iy q) (iz i - 2 * iz q)) by lia.
    apply (count_le (ix i) (iy i) (iz i) (length p)); [exact N|intros c I; destruct (H c I) as (Fc & L & _); auto|].
    intros c I. destruct (H c I) as (Fc & L & Nc & Pc). assert (Nc0 : c <> []) by (intros ->; destruct p; [contradiction|discriminate L]).
    pose proof (parent_coord c AX Fc Nc0) as CX. pose proof (parent_coord c AY Fc Nc0) as CY. pose proof (parent_coord c AZ Fc Nc0) as CZ.
    pose proof (same_coord _ _ AX (parent_length _ _ L) Pc) as DX. pose proof (same_coord _ _ AY (parent_length _ _ L) Pc) as DY. pose proof (same_coord _ _ AZ (parent_length _ _ L) Pc) as DZ. fold q in DX, DY, DZ. cbn [icoord] in *.
    apply filter_In. split; [apply cube_in; lia|]. unfold far3, offs. fold i.
    assert (W : well_sep (idx_of c) (idx_of p) = true) by (apply not_false_iff_true; intros X; apply near_well_sep in X; [contradiction|exact L]). exact W.
Qed.
(** 27 * 8 - 8 *)
Definition off_own (o : Z * Z * Z) : bool := let '(a, b, c) := o in negb (((0 <=? a) && (a <=? 1)) && ((0 <=? b) && (b <=? 1)) && ((0 <=? c) && (c <=? 1)))%Z.
Lemma count_I : forall (l : list path) p, NoDup l -> Forall (fun w => w < 8) p -> (forall c, In c l -> Forall (fun w => w < 8) c /\ length c = Datatypes.S (length p) /\ near (parent_of c) p /\ parent_of c <> p) -> length l <= 208.
Proof.
  intros l p N Fp H. set (i := idx_of p). assert (E : length (filter off_own (cube (-2) (-2) (-2) 6)) = 208) by (vm_compute; reflexivity). rewrite <- E.
  apply (count_le (2 * ix i) (2 * iy i) (2 * iz i) (Datatypes.S (length p))); [exact N|intros c I; destruct (H c I) as (Fc & L & _); auto|].
  intros c I. destruct (H c I) as (Fc & L & Pc & Ne). assert (Nc0 : c <> []) by (intros ->; discriminate L).
  assert (Lp : length (parent_of c) = length p) by (destruct (snoc_parent c Nc0) as [w W]; rewrite W, app_length in L; cbn in L; lia).
  pose proof (parent_coord c AX Fc Nc0) as CX. pose proof (parent_coord c AY Fc Nc0) as CY. pose proof (parent_coord c AZ Fc Nc0) as CZ.
  pose proof (same_coord _ _ AX Lp Pc) as DX. pose proof (same_coord _ _ AY Lp Pc) as DY. pose proof (same_coord _ _ AZ Lp Pc) as DZ. cbn [icoord] in *. fold i in DX, DY, DZ.
  apply filter_In. split; [apply cube_in; lia|]. unfold off_own, offs. apply negb_true_iff. apply not_true_iff_false. intros Q. rewrite !andb_true_iff, !Z.leb_le in Q.
  apply Ne. assert (Fpc : Forall (fun w => w < 8) (parent_of c)) by (destruct (snoc_parent c Nc0) as [w W]; rewrite W in Fc; apply Forall_app in Fc; apply Fc). apply idx_inj; auto; fold i; lia.
Qed.
Lemma count_N : forall (l : list path) p, NoDup l -> Forall (fun w => w < 8) p -> (forall c, In c l -> Forall (fun w => w < 8) c /\ length c = length p /\ near c p /\ c <> p) -> length l <= 26.
Proof.
  intros l p N Fp H. set (i := idx_of p). assert (E : length (filter (fun o : Z * Z * Z => let '(a, b, c) := o in negb ((a =? 0) && (b =? 0) && (c =? 0))%Z) (cube (-1) (-1) (-1) 3)) = 26) by (vm_compute; reflexivity). rewrite <- E.
  apply (count_le (ix i) (iy i) (iz i) (length p)); [exact N|intros c I; destruct (H c I) as (Fc & L & _); auto|].
  intros c I. destruct (H c I) as (Fc & L & Pc & Ne). pose proof (same_coord _ _ AX L Pc) as DX. pose proof (same_coord _ _ AY L Pc) as DY. pose proof (same_coord _ _ AZ L Pc) as DZ. cbn [icoord] in *. fold i in DX, DY, DZ.
  apply filter_In. split; [apply cube_in; lia|]. unfold offs. apply negb_true_iff. apply not_true_iff_false. intros Q. rewrite !andb_true_iff, !Z.eqb_eq in Q. apply Ne. apply idx_inj; auto; fold i; lia.
Qed.
Lemma count_K : forall (l : list path) p, NoDup l -> (forall c, In c l -> exists w, w < 8 /\ c = p ++ [w]) -> length l <= 8.
Proof.
  intros l p N H. change 8 with (length (map (fun w => p ++ [w]) (seq 0 8))). apply NoDup_incl_length; [exact N|]. intros c I. destruct (H c I) as (w & W & ->). apply in_map_iff. exists w. split; [reflexivity|]. apply in_seq. lia.
Qed.

(** From the lists to the edges of one node. *)
Lemma bound_by : forall (E : list edge) (P : edge -> bool) (g : edge -> path) N, NoDup E -> (forall e e', In e E -> In e' E -> P e = true -> P e' = true -> g e = g e' -> e = e') ->
  (forall l, NoDup l -> (forall c, In c l -> exists e, In e E /\ P e = true /\ c = g e) -> length l <= N) -> length (filter P E) <= N.
Proof.
  intros E P g N Nd Inj H. rewrite <- (map_length g). apply H.
  - apply nodup_map; [apply NoDup_filter; exact Nd|]. intros a b Ia Ib Eq. apply filter_In in Ia, Ib. destruct Ia, Ib. apply Inj; auto.
  - intros c I. apply in_map_iff in I. destruct I as (e & <- & Ie). apply filter_In in Ie. destruct Ie. eauto.
Qed.
Definition from_path (e : edge) : path := snd (fst (efrom e)).
Definition to_path (e : edge) : path := snd (fst (eto e)).
Lemma pick_in : forall o x e, (if op_dec (eop e) o then if dnode_dec (eto e) x then true else false else false) = true -> eop e = o /\ eto e = x.
Proof. intros o x e. destruct (op_dec (eop e) o); [|discriminate]. destruct (dnode_dec (eto e) x); [auto|discriminate]. Qed.
Lemma pick_out : forall o x e, (if op_dec (eop e) o then if dnode_dec (efrom e) x then true else false else false) = true -> eop e = o /\ efrom e = x.
Proof. intros o x e. destruct (op_dec (eop e) o); [|discriminate]. destruct (dnode_dec (efrom e) x); [auto|discriminate]. Qed.

Section Bounds.
Context {A B : Type} (S : tree A) (T : tree B) (HS8 : eight S) (HT8 : eight T) (fuel unif : nat) (same : bool).
Context (HSl : lower fuel S) (HTl : lower fuel T) (HSd : deep unif S) (HTd : deep unif T).

Lemma kid_digit : forall c w, sub S (c ++ [w]) <> None -> w < 8.
Proof. intros c w H. pose proof (sub_lt8 _ S _ HS8 H) as F. apply Forall_app in F. destruct F as [_ F]. inversion F. assumption. Qed.


Lemma in_bound : forall ts o x (Q : path -> Prop) N, NoDup (all_edges ts) ->
  (forall e, In e (all_edges ts) -> eop e = o -> eto e = x -> Q (from_path e)) ->
  (forall e e', In e (all_edges ts) -> In e' (all_edges ts) -> eop e = o -> eop e' = o -> fst (fst (efrom e)) = fst (fst (efrom e')) /\ snd (efrom e) = snd (efrom e')) ->
  (forall l, NoDup l -> (forall c, In c l -> Q c) -> length l <= N) -> into ts o x <= N.
Proof.
  intros ts o x Q N Nd H1 H2 H3. unfold into. apply (bound_by _ _ from_path); [exact Nd| |].
  - intros e e' I I' P P' G. apply pick_in in P, P'. destruct P as [P R], P' as [P' R']. destruct (H2 e e' I I' P P') as [X Y]. destruct e as [o1 [[a b] k] t1], e' as [o2 [[a' b'] k'] t2]. unfold from_path in G. cbn in *. congruence.
  - intros l Nl H. apply H3; [exact Nl|]. intros c Ic. destruct (H c Ic) as (e & I & P & ->). apply pick_in in P. destruct P as [P R]. apply (H1 e I P R).
Qed.
Lemma out_bound : forall ts o x (Q : path -> Prop) N, NoDup (all_edges ts) ->
  (forall e, In e (all_edges ts) -> eop e = o -> efrom e = x -> Q (to_path e)) ->
  (forall e e', In e (all_edges ts) -> In e' (all_edges ts) -> eop e = o -> eop e' = o -> fst (fst (eto e)) = fst (fst (eto e')) /\ snd (eto e) = snd (eto e')) ->
  (forall l, NoDup l -> (forall c, In c l -> Q c) -> length l <= N) -> out_of ts o x <= N.
Proof.
  intros ts o x Q N Nd H1 H2 H3. unfold out_of. apply (bound_by _ _ to_path); [exact Nd| |].
  - intros e e' I I' P P' G. apply pick_out in P, P'. destruct P as [P R], P' as [P' R']. destruct (H2 e e' I I' P P') as [X Y]. destruct e as [o1 s1 [[a b] k]], e' as [o2 s2 [[a' b'] k']]. unfold to_path in G. cbn in *. congruence.
  - intros l Nl H. apply H3; [exact Nl|]. intros c Ic. destruct (H c Ic) as (e & I & P & ->). apply pick_out in P. destruct P as [P R]. apply (H1 e I P R).
Qed.
Lemma some_or : forall (l : list path) N (Q : path -> Prop) (R : Prop), (forall c, In c l -> Q c) -> (forall c, Q c -> R) -> (R -> length l <= N) -> length l <= N.
Proof. intros [|c l] N Q R H1 H2 H3; [cbn; lia|]. apply H3. apply (H2 c). apply H1. left. reflexivity. Qed.

Local Notation digits p := (Forall (fun w => w < 8) p).
Lemma parent_digits : forall c, digits c -> digits (parent_of c).
Proof. intros c F. destruct (prefix_parent c) as [r Er]. rewrite Er in F. apply Forall_app in F. apply F. Qed.

Theorem fmm_bounds : exists ss tt, create_dag (@fmm A B fuel) unif same fuel S T = Ok (ss, tt) /\
  forall x, into (ss ++ tt) MtoL x <= 189 /\ out_of (ss ++ tt) MtoL x <= 189 /\ into (ss ++ tt) MtoM x <= 8.
Proof.
  destruct (fmm_edges S T HS8 HT8 fuel unif same HSl HTl HSd HTd) as (ss & tt & Hc & Nd & Ed). exists ss, tt. split; [exact Hc|]. intros x. split; [|split].
  - apply (in_bound _ _ _ (fun c => digits (snd (fst x)) /\ digits c /\ length c = length (snd (fst x)) /\ ~ near c (snd (fst x)) /\ near (parent_of c) (parent_of (snd (fst x))))); [exact Nd| | |].
    + intros e I O X. apply Ed in I. destruct I; cbn [eop eto] in *; try discriminate. rewrite <- X. unfold from_path. cbn [efrom fst snd src tgt].
      destruct H as [R _], H0 as (Sc & L & F & P). split; [apply (sub_lt8 _ T); assumption|]. split; [apply (sub_lt8 _ S); assumption|auto].
    + intros e e' I I' O O'. apply Ed in I, I'. destruct I; try discriminate O. destruct I'; try discriminate O'. split; reflexivity.
    + intros l Nl H. apply (some_or _ _ _ (digits (snd (fst x))) H); [intros c0 X; apply X|]. intros D. apply (count_V _ (snd (fst x))); [exact Nl|exact D|]. intros c Ic. apply H. exact Ic.
  - apply (out_bound _ _ _ (fun c => digits (snd (fst x)) /\ digits c /\ length c = length (snd (fst x)) /\ ~ near c (snd (fst x)) /\ near (parent_of c) (parent_of (snd (fst x))))); [exact Nd| | |].
    + intros e I O X. apply Ed in I. destruct I; cbn [eop efrom] in *; try discriminate. rewrite <- X. unfold to_path. cbn [eto fst snd src tgt].
      destruct H as [R _], H0 as (Sc & L & F & P). split; [apply (sub_lt8 _ S); assumption|]. split; [apply (sub_lt8 _ T); assumption|]. split; [auto|]. split; [intros Y; apply F; apply near_sym; exact Y|apply near_sym; exact P].
    + intros e e' I I' O O'. apply Ed in I, I'. destruct I; try discriminate O. destruct I'; try discriminate O'. split; reflexivity.
    + intros l Nl H. apply (some_or _ _ _ (digits (snd (fst x))) H); [intros c0 X; apply X|]. intros D. apply (count_V _ (snd (fst x))); [exact Nl|exact D|]. intros c Ic. apply H. exact Ic.
  - apply (in_bound _ _ _ (fun c => exists w, w < 8 /\ c = snd (fst x) ++ [w])); [exact Nd| | |].
    + intros e I O X. apply Ed in I. destruct I; cbn [eop eto] in *; try discriminate. rewrite <- X. exists w. split; [eapply kid_digit; eassumption|reflexivity].
    + intros e e' I I' O O'. apply Ed in I, I'. destruct I; try discriminate O. destruct I'; try discriminate O'. split; reflexivity.
    + intros l Nl H. apply (count_K _ (snd (fst x))); assumption.
Qed.
Theorem fmm97_bounds : exists ss tt, create_dag (@fmm97 A B fuel) unif same fuel S T = Ok (ss, tt) /\
  forall x, into (ss ++ tt) ItoI x <= 208 /\ out_of (ss ++ tt) ItoI x <= 26 /\ into (ss ++ tt) MtoM x <= 8.
Proof.
  destruct (fmm97_edges S T HS8 HT8 fuel unif same HSl HTl HSd HTd) as (ss & tt & Hc & Nd & Ed). exists ss, tt. split; [exact Hc|]. intros x. split; [|split].
  - apply (in_bound _ _ _ (fun c => digits (snd (fst x)) /\ digits c /\ length c = Datatypes.S (length (snd (fst x))) /\ near (parent_of c) (snd (fst x)) /\ parent_of c <> snd (fst x))); [exact Nd| | |].
    + intros e I O X. apply Ed in I. destruct I; cbn [eop eto] in *; try discriminate. rewrite <- X. unfold from_path. cbn [efrom fst snd src tgt].
      destruct H as [[R _] _], H0 as (Sc & L & _ & F & P). split; [apply (sub_lt8 _ T); assumption|]. split; [apply (sub_lt8 _ S); assumption|auto].
    + intros e e' I I' O O'. apply Ed in I, I'. destruct I; try discriminate O. destruct I'; try discriminate O'. split; reflexivity.
    + intros l Nl H. apply (some_or _ _ _ (digits (snd (fst x))) H); [intros c0 X; apply X|]. intros D. apply (count_I _ (snd (fst x))); [exact Nl|exact D|]. intros c Ic. apply H. exact Ic.
  - apply (out_bound _ _ _ (fun c => digits (parent_of (snd (fst x))) /\ digits c /\ length c = length (parent_of (snd (fst x))) /\ near c (parent_of (snd (fst x))) /\ c <> parent_of (snd (fst x)))); [exact Nd| | |].
    + intros e I O X. apply Ed in I. destruct I; cbn [eop efrom] in *; try discriminate. rewrite <- X. unfold to_path. cbn [eto fst snd src tgt].
      destruct H as [[R _] _], H0 as (Sc & L & _ & F & P). split; [apply parent_digits, (sub_lt8 _ S); assumption|]. split; [apply (sub_lt8 _ T); assumption|]. split; [|split; [apply near_sym; exact F|congruence]].
      destruct (list_eq_dec Nat.eq_dec c []) as [->|Nc]; [discriminate L|]. destruct (snoc_parent c Nc) as [w W]. rewrite W, app_length in L. cbn in L. lia.
    + intros e e' I I' O O'. apply Ed in I, I'. destruct I; try discriminate O. destruct I'; try discriminate O'. split; reflexivity.
    + intros l Nl H. apply (some_or _ _ _ (digits (parent_of (snd (fst x)))) H); [intros c0 X; apply X|]. intros D. apply (count_N _ (parent_of (snd (fst x)))); [exact Nl|exact D|]. intros c Ic. apply H. exact Ic.
  - apply (in_bound _ _ _ (fun c => exists w, w < 8 /\ c = snd (fst x) ++ [w])); [exact Nd| | |].
    + intros e I O X. apply Ed in I. destruct I; cbn [eop eto] in *; try discriminate. rewrite <- X. exists w. split; [eapply kid_digit; eassumption|reflexivity].
    + intros e e' I I' O O'. apply Ed in I, I'. destruct I; try discriminate O. destruct I'; try discriminate O'. split; reflexivity.
    + intros l Nl H. apply (count_K _ (snd (fst x))); assumption.
Qed.
End Bounds.
