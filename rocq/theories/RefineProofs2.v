(** Refinement of sorted records, and exact geometry. *)
From Coq Require Import ZArith List Bool Arith Lia Permutation.
From Verif Require Import Base ListFacts IndexModel IndexSpec IndexProofs TreeModel TreeFacts RefineModel RefineSpec RefineProofs.
Import ListNotations.
Open Scope nat_scope.

Lemma point_split : forall R (pp : (R -> bool) -> list R -> nat) i c f a b, partition_point_contract pp ->
  (forall r, In r a -> f r = true) -> (forall r, In r b -> f r = false) -> part_of_point pp i c f (a ++ b) = (a, b).
Proof.
  intros R pp i c f a b H Ha Hb. unfold part_of_point. rewrite (H f a b Ha Hb). rewrite firstn_app, skipn_app, firstn_all, skipn_all, Nat.sub_diag. cbn. rewrite app_nil_r. reflexivity.
Qed.

Section Point.
Context {R : Type} (low : axis -> index -> R -> bool).
Context (part : index -> nat -> (R -> bool) -> list R -> list R * list R) (Hpart : partition_contract part) (thr : nat).
Context (pp : (R -> bool) -> list R -> nat) (Hpp : partition_point_contract pp).

Lemma octant_bits : forall i r w, octant low i r = w ->
  low AX i r = negb (Nat.testbit w 0) /\ low AY i r = negb (Nat.testbit w 1) /\ low AZ i r = negb (Nat.testbit w 2).
Proof. intros i r w <-. unfold octant. destruct (low AX i r), (low AY i r), (low AZ i r); repeat split; reflexivity. Qed.

Lemma split8_point : forall i os, length os = 8 -> (forall w o, nth_error os w = Some o -> forall r, In r o -> octant low i r = w) ->
  split8 low (part_of_point pp) i (concat os) = os.
Proof.
  intros i os L H. do 8 (destruct os as [|? os]; [discriminate|]). destruct os; [|discriminate].
  assert (B : forall w o, nth_error [l; l0; l1; l2; l3; l4; l5; l6] w = Some o -> forall r, In r o ->
     low AX i r = negb (Nat.testbit w 0) /\ low AY i r = negb (Nat.testbit w 1) /\ low AZ i r = negb (Nat.testbit w 2)).
  { intros w o E r Hr. apply octant_bits. eapply H; eassumption. }
  pose proof (B 0 _ eq_refl) as B0. pose proof (B 1 _ eq_refl) as B1. pose proof (B 2 _ eq_refl) as B2. pose proof (B 3 _ eq_refl) as B3.
  pose proof (B 4 _ eq_refl) as B4. pose proof (B 5 _ eq_refl) as B5. pose proof (B 6 _ eq_refl) as B6. pose proof (B 7 _ eq_refl) as B7. clear B H.
  cbn [concat]. rewrite app_nil_r. unfold split8.
  replace (l ++ l0 ++ l1 ++ l2 ++ l3 ++ l4 ++ l5 ++ l6) with (((l ++ l0) ++ (l1 ++ l2)) ++ ((l3 ++ l4) ++ (l5 ++ l6))) by (rewrite <- !app_assoc; reflexivity).
  rewrite (point_split _ pp i 4 _ _ _ Hpp); cycle 1.
  { intros r Hr. rewrite !in_app_iff in Hr. destruct Hr as [[X|X]|[X|X]]; [apply B0|apply B1|apply B2|apply B3]; assumption. }
  { intros r Hr. rewrite !in_app_iff in Hr. destruct Hr as [[X|X]|[X|X]]; [apply B4|apply B5|apply B6|apply B7]; assumption. }
  rewrite (point_split _ pp i 2 _ _ _ Hpp); cycle 1.
  { intros r Hr. rewrite !in_app_iff in Hr. destruct Hr as [X|X]; [apply B0|apply B1]; assumption. }
  { intros r Hr. rewrite !in_app_iff in Hr. destruct Hr as [X|X]; [apply B2|apply B3]; assumption. }
  rewrite (point_split _ pp i 6 _ _ _ Hpp); cycle 1.
  { intros r Hr. rewrite !in_app_iff in Hr. destruct Hr as [X|X]; [apply B4|apply B5]; assumption. }
  { intros r Hr. rewrite !in_app_iff in Hr. destruct Hr as [X|X]; [apply B6|apply B7]; assumption. }
  rewrite (point_split _ pp i 1 _ _ _ Hpp) by (intros r Hr; first [apply B0; assumption|apply B1; assumption]).
  rewrite (point_split _ pp i 3 _ _ _ Hpp) by (intros r Hr; first [apply B2; assumption|apply B3; assumption]).
  rewrite (point_split _ pp i 5 _ _ _ Hpp) by (intros r Hr; first [apply B4; assumption|apply B5; assumption]).
  rewrite (point_split _ pp i 7 _ _ _ Hpp) by (intros r Hr; first [apply B6; assumption|apply B7; assumption]).
  reflexivity.
Qed.

Lemma refine_point : forall fuel i off l t out, refine low part thr fuel i off l = Ok (t, out) ->
  refine low (part_of_point pp) thr fuel i off out = Ok (t, out).
Proof.
  induction fuel as [|fuel IH]; intros i off l t out H; pose proof (refine_good low part Hpart thr _ _ _ _ _ _ H) as (HP & _ & _);
    pose proof (Permutation_length HP) as HL; cbn [refine] in *; rewrite <- HL;
    destruct (1 <=? length l) eqn:E1; cbn [assert_ bind] in *; try discriminate;
    destruct (length l <=? thr) eqn:ET; try discriminate; try (inversion H; subst; reflexivity).
  destruct (build _ i 0 off (split8 low part i l)) as [[cs outs]|] eqn:EB; [|discriminate]. cbn [bind fst snd] in H. inversion H; subst; clear H.
  destruct (split8_spec low part Hpart i l) as (L8 & PS & CS).
  destruct (build_spec low _ _ _ _ _ _ _ EB) as (_ & os & Eo & Lo & K). rewrite L8 in Lo. subst out.
  rewrite split8_point; [|assumption|].
  - assert (EB' : build (refine low (part_of_point pp) thr fuel) i 0 off os = Ok (cs, concat os)); [|rewrite EB'; reflexivity].
    clear HP HL E1 ET PS CS. revert EB Lo K. rewrite <- L8. clear L8. generalize (split8 low part i l) as ps. intros ps. generalize 0 as w. revert off cs os. induction ps as [|p ps IHp]; intros off cs os w EB Lo K.
    + destruct os; [|discriminate]. cbn [build concat] in *. inversion EB; subst. reflexivity.
    + destruct os as [|o os]; [discriminate|]. cbn [build] in EB |- *.
      set (A := match p with [] => Ok (None, []) | _ => _ end) in EB. destruct A as [[c o0]|] eqn:EA; [|discriminate]. cbn [bind] in EB.
      destruct (build (refine low part thr fuel) i (S w) (off + length p) ps) as [[cs' outs']|] eqn:EB'; [|discriminate]. cbn [bind fst snd] in EB. inversion EB; subst; clear EB.
      destruct (K 0 p eq_refl) as (c' & o' & X1 & X2 & X3). cbn [nth_error] in X1, X2. inversion X1; inversion X2; subst c' o'. clear X1 X2.
      assert (Ks : forall k q, nth_error ps k = Some q -> exists c o, nth_error cs' k = Some c /\ nth_error os k = Some o /\
         match c with None => q = [] /\ o = [] | Some t => q <> [] /\ refine low part thr fuel (child (Z.of_nat (S w + k)) i) (off + length p + length (concat (firstn k ps))) q = Ok (t, o) end).
      { intros k q E. destruct (K (S k) q E) as (c1 & o1 & Y1 & Y2 & Y3). exists c1, o1. cbn [nth_error] in Y1, Y2. split; [assumption|]. split; [assumption|].
        destruct c1; [|assumption]. destruct Y3 as [Y3 Y4]. split; [assumption|]. cbn [firstn concat] in Y4. rewrite app_length, Nat.add_assoc in Y4. replace (S w + k) with (w + S k) by lia. assumption. }
      assert (Lo' : length os = length ps) by (cbn in Lo; lia).
      (* the head *)
      assert (Hh : o = o0 /\ length o0 = length p /\ match o0 with [] => Ok (None, []) | _ => do tr <- refine low (part_of_point pp) thr fuel (child (Z.of_nat w) i) off o0; Ok (Some (fst tr), snd tr) end = Ok (c, o0)).
      { subst A. destruct p as [|r p].
        - inversion EA; subst. destruct X3 as [_ ->]. auto.
        - destruct (refine low part thr fuel (child (Z.of_nat w) i) off (r :: p)) as [[t' o'']|] eqn:ER; [|discriminate]. cbn [bind fst snd] in EA. inversion EA; subst c o0.
          destruct X3 as [_ X3]. cbn [firstn concat length] in X3. rewrite !Nat.add_0_r in X3. rewrite ER in X3. inversion X3; subst o''.
          pose proof (refine_good low part Hpart thr _ _ _ _ _ _ ER) as (HP' & _ & _). pose proof (Permutation_length HP') as HL'. split; [reflexivity|]. split; [lia|].
          rewrite (IH _ _ _ _ _ ER). cbn [bind fst snd]. destruct o; [cbn in HL'; lia|reflexivity]. }
      destruct Hh as (<- & Hlen & Hh). rewrite Hh. cbn [bind fst snd]. rewrite Hlen.
      (* the tail *)
      assert (Et : outs' = concat os).
      { match goal with E : o ++ outs' = o ++ concat os |- _ => apply app_inv_head in E; exact E end. }
      subst outs'. rewrite (IHp _ _ _ _ EB' Lo' Ks). reflexivity.
  - intros w o E r Hr. destruct (nth_error (split8 low part i l) w) as [q|] eqn:Eq; [|apply nth_error_None in Eq; apply nth_error_bound in E; lia].
    destruct (K w q Eq) as (c & o' & _ & Eo & M). rewrite E in Eo. inversion Eo; subst o'. apply (CS w q Eq).
    destruct c as [c|]; [|destruct M; subst; assumption]. destruct M as [_ M]. apply (refine_good low part Hpart) in M. destruct M as (P & _). eapply Permutation_in; [apply Permutation_sym; exact P|assumption].
Qed.
End Point.

(** More fuel changes nothing. *)
Lemma build_mono : forall R (rec rec' : index -> nat -> list R -> res (tree rnode * list R)) i ps w off r,
  (forall j o l t, rec j o l = Ok t -> rec' j o l = Ok t) -> build rec i w off ps = Ok r -> build rec' i w off ps = Ok r.
Proof.
  intros R rec rec' i ps w off r Hr. revert w off r. induction ps as [|p ps IH]; intros w off r H; cbn [build] in *; [assumption|].
  set (A := match p with [] => Ok (None, []) | _ => _ end) in H. destruct A as [[c o]|] eqn:EA; [|discriminate]. cbn [bind] in H.
  destruct (build rec i (S w) (off + length p) ps) as [b|] eqn:EB; [|discriminate]. rewrite (IH _ _ _ EB). subst A.
  destruct p as [|x p]; [inversion EA; subst; assumption|]. destruct (rec _ _ _) as [tr|] eqn:ER in EA; [|discriminate]. rewrite (Hr _ _ _ _ ER). cbn [bind] in *. inversion EA; subst. assumption.
Qed.

Lemma refine_mono : forall R low (part : index -> nat -> (R -> bool) -> list R -> list R * list R) thr fuel fuel' i off l r, fuel <= fuel' ->
  refine low part thr fuel i off l = Ok r -> refine low part thr fuel' i off l = Ok r.
Proof.
  intros R low part thr. induction fuel as [|fuel IH]; intros fuel' i off l r F H.
  - destruct fuel'; [assumption|]. cbn [refine] in *. destruct (1 <=? length l); cbn [assert_ bind] in *; [|discriminate]. destruct (length l <=? thr); [assumption|discriminate].
  - destruct fuel' as [|fuel']; [lia|]. cbn [refine] in *. destruct (1 <=? length l); cbn [assert_ bind] in *; [|discriminate]. destruct (length l <=? thr); [assumption|].
    destruct (build _ i 0 off _) as [b|] eqn:EB in H; [|discriminate]. erewrite build_mono; [exact H| |exact EB]. intros. eapply IH; [lia|eassumption].
Qed.

(** Running out of fuel is the only way to fail on a non-empty range. *)
Lemma build_err : forall R (rec : index -> nat -> list R -> res (tree rnode * list R)) i ps w off e,
  (forall j o l e, l <> [] -> rec j o l = Fail e -> e = OutOfFuel) -> build rec i w off ps = Fail e -> e = OutOfFuel.
Proof.
  intros R rec i ps w off e Hr. revert w off. induction ps as [|p ps IH]; intros w off H; cbn [build] in *; [discriminate|].
  destruct p as [|x p].
  - cbn [bind] in H. destruct (build rec i (S w) _ ps) as [b|e'] eqn:EB; [discriminate|]. cbn [bind] in H. inversion H; subst. eapply IH; eassumption.
  - destruct (rec _ _ _) as [tr|e'] eqn:ER in H; cbn [bind] in H.
    + destruct (build rec i (S w) _ ps) as [b|e'] eqn:EB; [discriminate|]. cbn [bind] in H. inversion H; subst. eapply IH; eassumption.
    + inversion H; subst. eapply Hr; [|eassumption]. discriminate.
Qed.

Lemma refine_err : forall R low (part : index -> nat -> (R -> bool) -> list R -> list R * list R) thr fuel i off l e, l <> [] ->
  refine low part thr fuel i off l = Fail e -> e = OutOfFuel.
Proof.
  intros R low part thr. induction fuel as [|fuel IH]; intros i off l e N H; cbn [refine] in H;
    replace (1 <=? length l) with true in H by (symmetry; apply Nat.leb_le; destruct l; [contradiction|cbn; lia]); cbn [assert_ bind] in H;
    destruct (length l <=? thr); try discriminate; [inversion H; reflexivity|].
  destruct (build _ i 0 off _) as [b|e'] eqn:EB; [discriminate|]. cbn [bind] in H. inversion H; subst. eapply build_err; [|exact EB]. intros. eapply IH; eassumption.
Qed.

(** Records the tests cannot tell apart stay together for ever. *)
Lemma refine_diverges : forall R low (part : index -> nat -> (R -> bool) -> list R -> list R * list R) thr i off l (same : R -> bool) r0,
  partition_contract part -> (forall ax j r, same r = true -> low ax j r = low ax j r0) ->
  thr < length (filter same l) -> forall fuel, refine low part thr fuel i off l = Fail OutOfFuel.
Proof.
  intros R low part thr i off l same r0 Hp Hs Ht fuel.
  destruct (refine low part thr fuel i off l) as [r|e] eqn:E.
  - exfalso. apply (refine_bounded low part Hp) in E.
    assert (X : forall n j, exists p, length p = n /\ forall r, same r = true -> in_cell low j p r = true).
    { induction n as [|n IH]; intros j; [exists []; split; [reflexivity|reflexivity]|].
      destruct (IH (child (Z.of_nat (octant low j r0)) j)) as (p & Lp & Hin). exists (octant low j r0 :: p). split; [cbn; lia|].
      intros r1 Hr. cbn [in_cell]. rewrite (Hin r1 Hr), andb_true_r. apply Nat.eqb_eq. unfold octant. rewrite !(Hs _ _ _ Hr). reflexivity. }
    destruct (X fuel i) as (p & Lp & Hin). specialize (E p Lp).
    assert (length (filter same l) <= length (members low i p l)); [|lia]. clear -Hin. unfold members. induction l as [|x l IH]; [cbn; lia|].
    cbn [filter]. destruct (same x) eqn:Sx; [rewrite (Hin x Sx); cbn; lia|]. destruct (in_cell low i p x); cbn; lia.
  - f_equal. eapply refine_err; [|exact E]. intros ->. cbn in Ht. lia.
Qed.

(** Exact geometry. *)
Section Exact.
Context {R : Type} (pos : axis -> R -> Z) (lo : axis -> Z) (size : Z).
Let low := exact_low pos lo size.
Open Scope Z_scope.

Lemma octant_testbits : forall i r, let w := Z.of_nat (octant low i r) in
  (if Z.land w 1 =? 0 then true else false) = low AX i r /\ (if Z.land w 2 =? 0 then true else false) = low AY i r /\ (if Z.land w 4 =? 0 then true else false) = low AZ i r.
Proof. intros i r. cbn zeta. unfold octant. destruct (low AX i r), (low AY i r), (low AZ i r); repeat split; reflexivity. Qed.

Lemma half_box : forall k x lev (b : bool), 0 <= lev -> k * size <= x * 2 ^ lev < (k + 1) * size ->
  b = (x * 2 ^ (lev + 1) <? (2 * k + 1) * size) ->
  let k' := Z.shiftl k 1 + (if b then 0 else 1) in k' * size <= x * 2 ^ (lev + 1) < (k' + 1) * size.
Proof.
  intros k x lev b Hl H E. cbn zeta. rewrite Z.shiftl_mul_pow2 by lia. change (2 ^ 1) with 2. rewrite pow2_step in * by assumption.
  symmetry in E. destruct b; [apply Z.ltb_lt in E|apply Z.ltb_ge in E]; nia.
Qed.

Lemma box_octant : forall i r, 0 <= ilevel i -> in_box pos lo size i r -> in_box pos lo size (child (Z.of_nat (octant low i r)) i) r.
Proof.
  intros i r L (Hx & Hy & Hz). destruct (octant_testbits i r) as (Bx & By & Bz). unfold in_box, child. cbn [ix iy iz ilevel].
  split; [|split].
  - replace (if Z.land _ 1 =? 0 then 0 else 1) with (if low AX i r then 0 else 1) by (rewrite <- Bx; destruct (Z.land _ 1 =? 0); reflexivity). apply half_box; [assumption|exact Hx|reflexivity].
  - replace (if Z.land _ 2 =? 0 then 0 else 1) with (if low AY i r then 0 else 1) by (rewrite <- By; destruct (Z.land _ 2 =? 0); reflexivity). apply half_box; [assumption|exact Hy|reflexivity].
  - replace (if Z.land _ 4 =? 0 then 0 else 1) with (if low AZ i r then 0 else 1) by (rewrite <- Bz; destruct (Z.land _ 4 =? 0); reflexivity). apply half_box; [assumption|exact Hz|reflexivity].
Qed.

(** Belonging to a cell by the tests is lying in its box. *)
Lemma cell_box : forall p i r, 0 <= ilevel i -> in_box pos lo size i r -> in_cell low i p r = true -> in_box pos lo size (follow i p) r.
Proof.
  induction p as [|w p IH]; intros i r L B H; [assumption|]. cbn [in_cell] in H. apply andb_true_iff in H. destruct H as [Hw H]. apply Nat.eqb_eq in Hw.
  change (follow i (w :: p)) with (follow (child (Z.of_nat w) i) p). apply IH; [cbn; lia| |assumption]. rewrite <- Hw. apply box_octant; assumption.
Qed.

Lemma follow_level : forall p i, ilevel (follow i p) = ilevel i + Z.of_nat (length p).
Proof. induction p as [|w p IH]; intros i; [cbn; lia|]. change (follow i (w :: p)) with (follow (child (Z.of_nat w) i) p). rewrite IH. cbn [child ilevel length]. lia. Qed.

Lemma box_close : forall i r s ax, in_box pos lo size i r -> in_box pos lo size i s -> Z.abs (pos ax r - pos ax s) * 2 ^ ilevel i < size.
Proof.
  intros i r s ax Hr Hs. assert (forall k x y, k * size <= x * 2 ^ ilevel i < (k + 1) * size -> k * size <= y * 2 ^ ilevel i < (k + 1) * size -> Z.abs (x - y) * 2 ^ ilevel i < size).
  { intros k x y Hx Hy. destruct (Z.abs_spec (x - y)) as [[_ ->]|[_ ->]]; nia. }
  unfold in_box in *. replace (pos ax r - pos ax s) with ((pos ax r - lo ax) - (pos ax s - lo ax)) by lia.
  destruct ax; eapply H; [apply Hr|apply Hs|apply Hr|apply Hs|apply Hr|apply Hs].
Qed.

Definition same_pos (r s : R) : bool := (pos AX r =? pos AX s) && (pos AY r =? pos AY s) && (pos AZ r =? pos AZ s).

Lemma separated_bounded : forall i l thr delta d, 0 <= ilevel i -> (forall r, In r l -> in_box pos lo size i r) ->
  (forall r s, In r l -> In s l -> same_pos r s = true \/ exists ax, delta <= Z.abs (pos ax r - pos ax s)) ->
  (forall r, In r l -> (length (filter (same_pos r) l) <= thr)%nat) ->
  size <= delta * 2 ^ (ilevel i + Z.of_nat d) -> bounded low thr i l d.
Proof.
  intros i l thr delta d L HB HS HC HD p Lp. destruct (members low i p l) as [|r m] eqn:E; [cbn; lia|]. rewrite <- E.
  assert (Hr : In r l /\ in_cell low i p r = true) by (apply filter_In; change (filter (in_cell low i p) l) with (members low i p l); rewrite E; left; reflexivity).
  destruct Hr as [Hr Cr]. eapply Nat.le_trans; [|apply (HC r Hr)].
  assert (X : forall s, In s l -> in_cell low i p s = true -> same_pos r s = true).
  { intros s Hs Cs. destruct (HS r s Hr Hs) as [|[ax Hax]]; [assumption|]. exfalso.
    pose proof (box_close (follow i p) r s ax (cell_box p i r L (HB r Hr) Cr) (cell_box p i s L (HB s Hs) Cs)) as C. rewrite follow_level, Lp in C.
    assert (0 < 2 ^ (ilevel i + Z.of_nat d)) by (apply Z.pow_pos_nonneg; lia). nia. }
  unfold members. clear -X. induction l as [|x l IH]; [cbn; lia|]. cbn [filter]. specialize (IH (fun s H => X s (or_intror H))).
  destruct (in_cell low i p x) eqn:C; [rewrite (X x (or_introl eq_refl) C); cbn; lia|]. destruct (same_pos r x); cbn; lia.
Qed.
End Exact.
