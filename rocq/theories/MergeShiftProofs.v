(** Merge-and-shift: the finite check behind it. *)
From Coq Require Import ZArith List Bool Lia.
From Verif Require Import Base IndexModel RefineModel GeomModel LookupModel MergeShiftModel DagSpec MergeShiftSpec.
Import ListNotations.
Open Scope Z_scope.

Definition dirs := [PX; MX; PY; MY; PZ; MZ].
Definition dir_eqb (a b : dir) : bool :=
  match a, b with PX, PX | MX, MX | PY, PY | MY, MY | PZ, PZ | MZ, MZ => true | _, _ => false end.
Lemma dir_eqb_eq : forall a b, dir_eqb a b = true -> a = b. Proof. intros [] []; cbn; congruence. Qed.
Definition right_shareb (k : comp) (a b c : Z) (x : share) : bool :=
  existsb (fun d => let '(v, cj) := waves k d in let '(p, q, r) := seen_by d a b c in
    (c_view x =? v) && Bool.eqb (c_conj x) cj && dir_eqb (c_acc x) d && (c_x x =? p) && (c_y x =? q) && (c_z x =? r) && (2 <=? r) && (r <=? 3)) dirs.

Definition apartb (a b c : Z) : bool := (2 <=? Z.abs a) || (2 <=? Z.abs b) || (2 <=? Z.abs c).
Definition idx (x y z : Z) := mkIndex x y z 0.

Definition check1 (k : comp) (dx dy dz ux uy uz : Z) : bool :=
  match shares_of k (idx dx dy dz) (idx 0 0 0) (idx ux uy uz) with
  | Ok [] => negb (apartb (dx - ux) (dy - uy) (dz - uz))
  | Ok [x] => apartb (dx - ux) (dy - uy) (dz - uz) && right_shareb k (dx - ux) (dy - uy) (dz - uz) x
  | _ => false
  end.
Fixpoint nodupb (l : list Z) : bool := match l with [] => true | x :: l' => negb (existsb (Z.eqb x) l') && nodupb l' end.
Definition check2 (k : comp) (dx dy dz : Z) : bool :=
  match i_to_i k (idx dx dy dz) (idx 0 0 0) with
  | Ok ps => nodupb (map p_tag ps) && forallb (fun p => (0 <=? p_tag p) && (p_tag p <? 28)) ps && (Z.of_nat (length ps) <=? 3)
             && ((length ps =? 0)%nat || negb ((0 <=? dx) && (dx <=? 1) && (0 <=? dy) && (dy <=? 1) && (0 <=? dz) && (dz <=? 1)))
             && (negb (length ps =? 0)%nat || ((0 <=? dx) && (dx <=? 1) && (0 <=? dy) && (dy <=? 1) && (0 <=? dz) && (dz <=? 1)))
             && (match lap_weight ItoI (idx dx dy dz) (idx 0 0 0) with Ok w => w =? Z.of_nat (length ps) | _ => false end)
  | _ => false
  end.
Definition six := zseq (-2) 6.
Definition two := zseq 0 2.
Definition comps := [Lap; Yuk; HelEvan; HelProp].

Lemma all_checks : forallb (fun k => forallb (fun dx => forallb (fun dy => forallb (fun dz =>
    check2 k dx dy dz && forallb (fun ux => forallb (fun uy => forallb (fun uz => check1 k dx dy dz ux uy uz) two) two) two) six) six) six) comps = true.
Proof. vm_compute. reflexivity. Qed.

Lemma in_six : forall x, -2 <= x <= 3 -> In x six.
Proof. intros x H. assert (x = -2 \/ x = -1 \/ x = 0 \/ x = 1 \/ x = 2 \/ x = 3) as [E|[E|[E|[E|[E|E]]]]] by lia; subst x; cbn; auto 10. Qed.
Lemma in_two : forall x, 0 <= x <= 1 -> In x two.
Proof. intros x H. assert (x = 0 \/ x = 1) as [E|E] by lia; subst x; cbn; auto. Qed.
Lemma in_comps : forall k, In k comps. Proof. intros []; cbn; auto 10. Qed.

Lemma checks : forall k dx dy dz, -2 <= dx <= 3 -> -2 <= dy <= 3 -> -2 <= dz <= 3 ->
  check2 k dx dy dz = true /\ forall ux uy uz, 0 <= ux <= 1 -> 0 <= uy <= 1 -> 0 <= uz <= 1 -> check1 k dx dy dz ux uy uz = true.
Proof.
  intros k dx dy dz X Y Z. pose proof all_checks as H.
  rewrite forallb_forall in H. specialize (H k (in_comps k)).
  rewrite forallb_forall in H. specialize (H dx (in_six _ X)).
  rewrite forallb_forall in H. specialize (H dy (in_six _ Y)).
  rewrite forallb_forall in H. specialize (H dz (in_six _ Z)).
  apply andb_true_iff in H. destruct H as [H1 H]. split; [exact H1|]. intros ux uy uz U V W.
  rewrite forallb_forall in H. specialize (H ux (in_two _ U)).
  rewrite forallb_forall in H. specialize (H uy (in_two _ V)).
  rewrite forallb_forall in H. exact (H uz (in_two _ W)).
Qed.

Lemma right_shareb_ok : forall k s u x, right_shareb k (ix s - ix u) (iy s - iy u) (iz s - iz u) x = true -> right_share k s u x.
Proof.
  intros k s u x H. unfold right_shareb in H. apply existsb_exists in H. destruct H as (d & _ & H). exists d.
  destruct (waves k d) as [v cj]. destruct (seen_by d _ _ _) as [[p q] r]. repeat rewrite andb_true_iff in H. rewrite !Z.eqb_eq, !Z.leb_le in H.
  destruct H as (((((((A & B) & C) & D) & E) & F) & G) & I). apply eqb_prop in B. apply dir_eqb_eq in C. subst. repeat split; auto; congruence.
Qed.
Lemma apartb_iff : forall s u, apartb (ix s - ix u) (iy s - iy u) (iz s - iz u) = true <-> apart s u.
Proof.
  intros s u. unfold apartb, apart. rewrite !orb_true_iff, !Z.leb_le. split.
  - intros [[H|H]|H]; [exists AX|exists AY|exists AZ]; exact H.
  - intros [[] H]; cbn [icoord] in H; auto.
Qed.

Section lift.
Variables (k : comp) (s t u : index).
Hypothesis HS : near_child t s.
Let dx := ix s - ix t * 2.
Let dy := iy s - iy t * 2.
Let dz := iz s - iz t * 2.

Lemma near_range : -2 <= dx <= 3 /\ -2 <= dy <= 3 /\ -2 <= dz <= 3.
Proof.
  pose proof (HS AX) as X. pose proof (HS AY) as Y. pose proof (HS AZ) as Z. cbn [icoord] in *.
  pose proof (Z.div_mod (ix s) 2 ltac:(lia)). pose proof (Z.div_mod (iy s) 2 ltac:(lia)). pose proof (Z.div_mod (iz s) 2 ltac:(lia)).
  pose proof (Z.mod_pos_bound (ix s) 2 ltac:(lia)). pose proof (Z.mod_pos_bound (iy s) 2 ltac:(lia)). pose proof (Z.mod_pos_bound (iz s) 2 ltac:(lia)).
  unfold dx, dy, dz. lia.
Qed.
Lemma i_to_i_shift : i_to_i k s t = i_to_i k (idx dx dy dz) (idx 0 0 0).
Proof. unfold i_to_i. cbn [ix iy iz idx]. fold dx dy dz. replace (dx - 0 * 2) with dx by lia. replace (dy - 0 * 2) with dy by lia. replace (dz - 0 * 2) with dz by lia. reflexivity. Qed.
Lemma lap_weight_shift : lap_weight ItoI s t = lap_weight ItoI (idx dx dy dz) (idx 0 0 0).
Proof. unfold lap_weight. cbn [ix iy iz idx]. replace (dx - 2 * 0) with dx by lia. replace (dy - 2 * 0) with dy by lia. replace (dz - 2 * 0) with dz by lia. replace (ix s - 2 * ix t) with dx by (unfold dx; lia). replace (iy s - 2 * iy t) with dy by (unfold dy; lia). replace (iz s - 2 * iz t) with dz by (unfold dz; lia). reflexivity. Qed.

Lemma i_to_i_views : exists ps, i_to_i k s t = Ok ps /\ NoDup (map p_tag ps) /\ (forall p, In p ps -> 0 <= p_tag p < 28) /\ (length ps <= 3)%nat /\
  (ps = [] <-> (forall a, icoord a s / 2 = icoord a t)) /\ lap_weight ItoI s t = Ok (Z.of_nat (length ps)).
Proof.
  destruct near_range as (X & Y & Z). destruct (checks k dx dy dz X Y Z) as [H _]. rewrite i_to_i_shift, lap_weight_shift. unfold check2 in H.
  destruct (i_to_i k (idx dx dy dz) (idx 0 0 0)) as [ps|e]; [|discriminate]. exists ps. split; [reflexivity|].
  repeat rewrite andb_true_iff in H. destruct H as (((((A & B) & C) & D) & E) & F). split; [|split; [|split; [|split]]].
  - clear - A. induction (map p_tag ps) as [|x l IH]; [constructor|]. cbn [nodupb] in A. apply andb_true_iff in A. destruct A as [A1 A2]. constructor; [|auto]. intros I. apply negb_true_iff in A1. assert (existsb (Z.eqb x) l = true); [apply existsb_exists; exists x; split; [assumption|apply Z.eqb_refl]|congruence].
  - intros p I. rewrite forallb_forall in B. specialize (B p I). apply andb_true_iff in B. lia.
  - apply Z.leb_le in C. lia.
  - assert (Q : (0 <=? dx) && (dx <=? 1) && (0 <=? dy) && (dy <=? 1) && (0 <=? dz) && (dz <=? 1) = true <-> forall a, icoord a s / 2 = icoord a t).
    { repeat rewrite andb_true_iff. rewrite !Z.leb_le. unfold dx, dy, dz.
      pose proof (Z.div_mod (ix s) 2 ltac:(lia)). pose proof (Z.div_mod (iy s) 2 ltac:(lia)). pose proof (Z.div_mod (iz s) 2 ltac:(lia)).
      pose proof (Z.mod_pos_bound (ix s) 2 ltac:(lia)). pose proof (Z.mod_pos_bound (iy s) 2 ltac:(lia)). pose proof (Z.mod_pos_bound (iz s) 2 ltac:(lia)). split.
      - intros Q []; cbn [icoord]; lia.
      - intros Q. pose proof (Q AX). pose proof (Q AY). pose proof (Q AZ). cbn [icoord] in *. lia. }
    rewrite <- Q. destruct (_ && (dz <=? 1)); split; intros R; try reflexivity; try discriminate R.
    + rewrite orb_false_r in D. destruct ps; [reflexivity|discriminate D].
    + subst ps. discriminate E.
  - destruct (lap_weight _ _ _) as [w|]; [|discriminate]. apply Z.eqb_eq in F. congruence.
Qed.

Hypothesis HU : child_of t u.
Lemma rem2 : forall x, 0 <= x -> Z.rem x 2 = x - 2 * (x / 2) /\ 0 <= x - 2 * (x / 2) <= 1.
Proof. intros x H. rewrite Z.rem_mod_nonneg by lia. pose proof (Z.div_mod x 2 ltac:(lia)). pose proof (Z.mod_pos_bound x 2 ltac:(lia)). lia. Qed.

Lemma shares_right : exists l, shares_of k s t u = Ok l /\ ((apart s u /\ exists x, l = [x] /\ right_share k s u x) \/ (~ apart s u /\ l = [])).
Proof.
  pose proof (HU AX) as [Ux Vx]. pose proof (HU AY) as [Uy Vy]. pose proof (HU AZ) as [Uz Vz]. cbn [icoord] in *.
  destruct (rem2 _ Ux) as [Rx Bx]. destruct (rem2 _ Uy) as [Ry By]. destruct (rem2 _ Uz) as [Rz Bz]. rewrite Vx in *. rewrite Vy in *. rewrite Vz in *.
  destruct near_range as (X & Y & Z). destruct (checks k dx dy dz X Y Z) as [_ H]. specialize (H _ _ _ Bx By Bz).
  assert (E : shares_of k s t u = shares_of k (idx dx dy dz) (idx 0 0 0) (idx (ix u - 2 * ix t) (iy u - 2 * iy t) (iz u - 2 * iz t))).
  { unfold shares_of. rewrite i_to_i_shift. f_equal. unfold i_to_l. cbn [ix iy iz idx]. rewrite Rx, Ry, Rz. rewrite (Z.rem_small (ix u - 2 * ix t)), (Z.rem_small (iy u - 2 * iy t)), (Z.rem_small (iz u - 2 * iz t)) by lia. reflexivity. }
  rewrite E. unfold check1 in H. destruct (shares_of k (idx dx dy dz) _ _) as [l|]; [|discriminate]. exists l. split; [reflexivity|].
  replace (dx - (ix u - 2 * ix t)) with (ix s - ix u) in H by (unfold dx; lia). replace (dy - (iy u - 2 * iy t)) with (iy s - iy u) in H by (unfold dy; lia). replace (dz - (iz u - 2 * iz t)) with (iz s - iz u) in H by (unfold dz; lia).
  destruct l as [|x [|? ?]]; [| |discriminate].
  - right. split; [|reflexivity]. intros A. apply apartb_iff in A. rewrite A in H. discriminate.
  - left. apply andb_true_iff in H. destruct H as [A B]. split; [apply apartb_iff; exact A|]. exists x. split; [reflexivity|]. apply right_shareb_ok. exact B.
Qed.
End lift.
