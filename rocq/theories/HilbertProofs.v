From Coq Require Import ZArith List Lia Bool.
From Verif Require Import Base HilbertModel HilbertSpec.
Import ListNotations.
Local Open Scope Z_scope.
Ltac Zify.zify_post_hook ::= Z.div_mod_to_equations.

(** ** The transducer: states are the values [offsets] can take *)

Definition step (o : list Z) (m : Z) : Z * list Z :=
  match hilbert_table_step o m with Ok r => r | Fail _ => (-1, []) end.

Definition listZ_eqb (a b : list Z) : bool := if list_eq_dec Z.eq_dec a b then true else false.
Definition mem (o : list Z) (R : list (list Z)) : bool := existsb (listZ_eqb o) R.

Definition ms : list Z := [0;1;2;3;4;5;6;7].

Fixpoint reach (n : nat) (R : list (list Z)) : list (list Z) :=
  match n with
  | O => R
  | S n' => reach n' (fold_left (fun acc o => fold_left (fun acc m =>
              let o' := snd (step o m) in if mem o' acc then acc else acc ++ [o']) ms acc) R R)
  end.

Definition states : list (list Z) := Eval vm_compute in reach 6 [zseq 0 8].

Lemma mem_In : forall o R, mem o R = true <-> In o R.
Proof.
  intros o R. unfold mem. rewrite existsb_exists. split.
  - intros (x & Hx & E). unfold listZ_eqb in E. destruct (list_eq_dec Z.eq_dec o x); [subst; assumption|discriminate].
  - intros H. exists o. split; [assumption|]. unfold listZ_eqb.
    destruct (list_eq_dec Z.eq_dec o o); congruence.
Qed.

Lemma In_ms : forall m, 0 <= m < 8 <-> In m ms.
Proof. intros m. cbn. lia. Qed.

Lemma for_states : forall (P : list Z -> Z -> bool),
  forallb (fun o => forallb (P o) ms) states = true ->
  forall o m, In o states -> 0 <= m < 8 -> P o m = true.
Proof.
  intros P H o m Ho Hm. rewrite forallb_forall in H. specialize (H o Ho).
  rewrite forallb_forall in H. apply H. apply In_ms. assumption.
Qed.

Definition isOk {A} (r : res A) : bool := match r with Ok _ => true | Fail _ => false end.

Lemma init_state : In (zseq 0 8) states.
Proof. apply mem_In. vm_compute. reflexivity. Qed.

Lemma step_spec : forall o m, In o states -> 0 <= m < 8 ->
  hilbert_table_step o m = Ok (step o m) /\ 0 <= fst (step o m) < 8 /\ In (snd (step o m)) states.
Proof.
  intros o m Ho Hm.
  assert (H := for_states (fun o m => isOk (hilbert_table_step o m) && (0 <=? fst (step o m))
      && (fst (step o m) <? 8) && mem (snd (step o m)) states) ltac:(vm_compute; reflexivity) o m Ho Hm).
  cbv beta in H. rewrite !andb_true_iff in H. destruct H as [[[A B] C] D].
  split; [|split; [lia|apply mem_In; assumption]].
  unfold step. destruct (hilbert_table_step o m); [reflexivity|discriminate].
Qed.

(** The octant with a given digit. *)
Definition octant (o : list Z) (d : Z) : Z :=
  match find (fun m => fst (step o m) =? d) ms with Some m => m | None => 0 end.

Lemma octant_spec : forall o d, In o states -> 0 <= d < 8 ->
  0 <= octant o d < 8 /\ fst (step o (octant o d)) = d.
Proof.
  intros o d Ho Hd.
  assert (H := for_states (fun o d => (0 <=? octant o d) && (octant o d <? 8) &&
      (fst (step o (octant o d)) =? d)) ltac:(vm_compute; reflexivity) o d Ho Hd).
  cbv beta in H. lia.
Qed.

Lemma octant_step : forall o m, In o states -> 0 <= m < 8 ->
  octant o (fst (step o m)) = m.
Proof.
  intros o m Ho Hm.
  assert (H := for_states (fun o m => octant o (fst (step o m)) =? m)
     ltac:(vm_compute; reflexivity) o m Ho Hm).
  cbv beta in H. lia.
Qed.

(** ** The key as a recursive function of the level *)

Definition bx (m : Z) : Z := m mod 2.
Definition by_ (m : Z) : Z := (m / 2) mod 2.
Definition bz (m : Z) : Z := (m / 4) mod 2.
Definition hb (l : nat) (x : Z) : Z := x / 2 ^ Z.of_nat l.   (* leading bit, for x < 2^(l+1) *)
Definition lo (l : nat) (x : Z) : Z := x mod 2 ^ Z.of_nat l.
Definition mof (l : nat) (x y z : Z) : Z := 4 * hb l z + 2 * hb l y + hb l x.

Fixpoint H (l : nat) (o : list Z) (x y z : Z) : Z :=
  match l with
  | O => 0
  | S l' => let m := mof l' x y z in
      8 ^ Z.of_nat l' * fst (step o m) + H l' (snd (step o m)) (lo l' x) (lo l' y) (lo l' z)
  end.

Lemma pow2_pos : forall l, 0 < 2 ^ Z.of_nat l.
Proof. intros; apply Z.pow_pos_nonneg; lia. Qed.
Lemma pow8_pos : forall l, 0 < 8 ^ Z.of_nat l.
Proof. intros; apply Z.pow_pos_nonneg; lia. Qed.
Lemma pow2_S : forall l, 2 ^ Z.of_nat (S l) = 2 * 2 ^ Z.of_nat l.
Proof. intros. rewrite Nat2Z.inj_succ, Z.pow_succ_r; lia. Qed.
Lemma pow8_S : forall l, 8 ^ Z.of_nat (S l) = 8 * 8 ^ Z.of_nat l.
Proof. intros. rewrite Nat2Z.inj_succ, Z.pow_succ_r; lia. Qed.

Lemma hb_lo : forall l x, 0 <= x < 2 ^ Z.of_nat (S l) ->
  (hb l x = 0 \/ hb l x = 1) /\ 0 <= lo l x < 2 ^ Z.of_nat l /\ x = 2 ^ Z.of_nat l * hb l x + lo l x.
Proof.
  intros l x Hx. rewrite pow2_S in Hx. unfold hb, lo. pose proof (pow2_pos l) as P.
  pose proof (Z.div_mod x (2 ^ Z.of_nat l) ltac:(lia)).
  pose proof (Z.mod_pos_bound x (2 ^ Z.of_nat l) P).
  assert (0 <= x / 2 ^ Z.of_nat l < 2).
  { split; [apply Z.div_pos; lia|apply Z.div_lt_upper_bound; lia]. }
  repeat split; lia.
Qed.

Lemma mof_range : forall l x y z, in_cube (2 ^ Z.of_nat (S l)) x y z -> 0 <= mof l x y z < 8.
Proof.
  intros l x y z (Hx & Hy & Hz). apply hb_lo in Hx, Hy, Hz. unfold mof. lia.
Qed.

Lemma lo_cube : forall l x y z, in_cube (2 ^ Z.of_nat (S l)) x y z ->
  in_cube (2 ^ Z.of_nat l) (lo l x) (lo l y) (lo l z).
Proof.
  intros l x y z (Hx & Hy & Hz). apply hb_lo in Hx, Hy, Hz. unfold in_cube. tauto.
Qed.

Lemma H_bounds : forall l o x y z, In o states -> in_cube (2 ^ Z.of_nat l) x y z ->
  0 <= H l o x y z < 8 ^ Z.of_nat l.
Proof.
  induction l as [|l IH]; intros o x y z Ho Hc; [cbn; lia|].
  cbn [H]. cbv zeta. destruct (step_spec o (mof l x y z) Ho (mof_range _ _ _ _ Hc)) as (_ & D & S1).
  specialize (IH _ _ _ _ S1 (lo_cube _ _ _ _ Hc)). rewrite pow8_S. nia.
Qed.

Lemma radix_inj8 : forall m a b p q, 0 <= a < m -> 0 <= b < m -> m * p + a = m * q + b -> a = b /\ p = q.
Proof.
  intros m a b p q Ha Hb E. assert (p = q); [|subst; lia].
  destruct (Z.lt_trichotomy p q) as [C|[C|C]]; auto; exfalso; nia.
Qed.

Lemma mof_inj : forall l x y z x' y' z',
  in_cube (2 ^ Z.of_nat (S l)) x y z -> in_cube (2 ^ Z.of_nat (S l)) x' y' z' ->
  mof l x y z = mof l x' y' z' -> hb l x = hb l x' /\ hb l y = hb l y' /\ hb l z = hb l z'.
Proof.
  intros l x y z x' y' z' (Hx & Hy & Hz) (Hx' & Hy' & Hz') E.
  apply hb_lo in Hx, Hy, Hz, Hx', Hy', Hz'. unfold mof in E. lia.
Qed.

Lemma H_inj : forall l o x y z x' y' z', In o states ->
  in_cube (2 ^ Z.of_nat l) x y z -> in_cube (2 ^ Z.of_nat l) x' y' z' ->
  H l o x y z = H l o x' y' z' -> x = x' /\ y = y' /\ z = z'.
Proof.
  induction l as [|l IH]; intros o x y z x' y' z' Ho Hc Hc' E.
  - unfold in_cube in *. change (2 ^ Z.of_nat 0) with 1 in *. lia.
  - cbn [H] in E. cbv zeta in E.
    pose proof (mof_range _ _ _ _ Hc) as M. pose proof (mof_range _ _ _ _ Hc') as M'.
    destruct (step_spec o _ Ho M) as (_ & D & S1). destruct (step_spec o _ Ho M') as (_ & D' & S1').
    pose proof (H_bounds l _ _ _ _ S1 (lo_cube _ _ _ _ Hc)) as B.
    pose proof (H_bounds l _ _ _ _ S1' (lo_cube _ _ _ _ Hc')) as B'.
    destruct (radix_inj8 _ _ _ _ _ B B' E) as [EL ED].
    assert (EM : mof l x y z = mof l x' y' z').
    { rewrite <- (octant_step o _ Ho M), <- (octant_step o _ Ho M'). congruence. }
    rewrite <- EM in EL.
    destruct (IH _ _ _ _ _ _ _ S1 (lo_cube _ _ _ _ Hc) (lo_cube _ _ _ _ Hc') EL) as (A1 & A2 & A3).
    destruct (mof_inj _ _ _ _ _ _ _ Hc Hc' EM) as (B1 & B2 & B3).
    destruct Hc as (Hx & Hy & Hz), Hc' as (Hx' & Hy' & Hz').
    apply hb_lo in Hx, Hy, Hz, Hx', Hy', Hz'.
    destruct Hx as (_ & _ & ->), Hy as (_ & _ & ->), Hz as (_ & _ & ->),
      Hx' as (_ & _ & ->), Hy' as (_ & _ & ->), Hz' as (_ & _ & ->).
    rewrite A1, A2, A3, B1, B2, B3. auto.
Qed.

(** ** The inverse: the cell with a given key *)

Fixpoint cell (l : nat) (o : list Z) (k : Z) : Z * Z * Z :=
  match l with
  | O => (0, 0, 0)
  | S l' =>
      let m := octant o (k / 8 ^ Z.of_nat l') in
      let '(x, y, z) := cell l' (snd (step o m)) (k mod 8 ^ Z.of_nat l') in
      (2 ^ Z.of_nat l' * bx m + x, 2 ^ Z.of_nat l' * by_ m + y, 2 ^ Z.of_nat l' * bz m + z)
  end.

Lemma bits_range : forall m, 0 <= m < 8 ->
  (bx m = 0 \/ bx m = 1) /\ (by_ m = 0 \/ by_ m = 1) /\ (bz m = 0 \/ bz m = 1) /\
  m = 4 * bz m + 2 * by_ m + bx m.
Proof. intros m Hm. unfold bx, by_, bz. lia. Qed.

Lemma hb_mk : forall l b x, 0 <= x < 2 ^ Z.of_nat l ->
  hb l (2 ^ Z.of_nat l * b + x) = b /\ lo l (2 ^ Z.of_nat l * b + x) = x.
Proof.
  intros l b x Hx. unfold hb, lo. pose proof (pow2_pos l).
  split.
  - symmetry. apply Z.div_unique_pos with (r := x); lia.
  - symmetry. apply Z.mod_unique_pos with (q := b); lia.
Qed.

Lemma cell_spec : forall l o k, In o states -> 0 <= k < 8 ^ Z.of_nat l ->
  let '(x, y, z) := cell l o k in in_cube (2 ^ Z.of_nat l) x y z /\ H l o x y z = k.
Proof.
  induction l as [|l IH]; intros o k Ho Hk.
  - cbn in *. unfold in_cube. change (2 ^ 0) with 1. lia.
  - cbn [cell]. cbv zeta. rewrite pow8_S in Hk. pose proof (pow8_pos l) as P8.
    set (d := k / 8 ^ Z.of_nat l) in *. set (r := k mod 8 ^ Z.of_nat l) in *.
    assert (Hd : 0 <= d < 8).
    { unfold d. split; [apply Z.div_pos; lia|apply Z.div_lt_upper_bound; lia]. }
    assert (Hr : 0 <= r < 8 ^ Z.of_nat l) by (apply Z.mod_pos_bound; lia).
    assert (Ek : k = 8 ^ Z.of_nat l * d + r) by (apply Z.div_mod; lia).
    clearbody d r.
    destruct (octant_spec o d Ho Hd) as [Om Of]. set (m := octant o d) in *.
    destruct (step_spec o m Ho Om) as (_ & _ & S1).
    specialize (IH (snd (step o m)) r S1 Hr).
    destruct (cell l (snd (step o m)) r) as [[x y] z]. destruct IH as [Hc HH].
    destruct (bits_range m Om) as (Bx & By & Bz & Bm).
    destruct Hc as (Cx & Cy & Cz).
    split.
    + unfold in_cube. rewrite pow2_S.
      destruct Bx as [->| ->], By as [->| ->], Bz as [->| ->]; lia.
    + cbn [H]. cbv zeta. unfold mof.
      destruct (hb_mk l (bx m) x Cx) as [-> ->].
      destruct (hb_mk l (by_ m) y Cy) as [-> ->].
      destruct (hb_mk l (bz m) z Cz) as [-> ->].
      rewrite <- Bm. rewrite Of, HH. lia.
Qed.

(** ** The modelled loop computes [H] *)

Lemma mi_bit : forall l x, 0 <= x ->
  (if Z.rem x (2 ^ Z.of_nat (S l)) >=? Z.quot (2 ^ Z.of_nat (S l)) 2 then 1 else 0)
  = hb l (x mod 2 ^ Z.of_nat (S l)).
Proof.
  intros l x Hx. pose proof (pow2_pos (S l)) as P. pose proof (pow2_pos l) as P'.
  rewrite Z.rem_mod_nonneg by lia.
  pose proof (Z.mod_pos_bound x _ P) as B. pose proof (pow2_S l) as E.
  assert (Q : Z.quot (2 ^ Z.of_nat (S l)) 2 = 2 ^ Z.of_nat l).
  { rewrite Z.quot_div_nonneg by lia. rewrite E, Z.mul_comm. apply Z.div_mul. lia. }
  rewrite Q. set (v := x mod 2 ^ Z.of_nat (S l)) in *. clearbody v.
  destruct (hb_lo l v B) as (C & D & F).
  set (n := 2 ^ Z.of_nat l) in *. clearbody n.
  destruct (v >=? n) eqn:G; destruct C as [C|C]; rewrite C in *; lia.
Qed.

Lemma lo_mod : forall l x, 0 <= x -> lo l (x mod 2 ^ Z.of_nat (S l)) = x mod 2 ^ Z.of_nat l.
Proof.
  intros l x Hx. unfold lo. rewrite pow2_S. rewrite Z.mul_comm.
  rewrite Z.rem_mul_r by (pose proof (pow2_pos l); lia).
  rewrite Z.mul_comm, Z.mod_add by (pose proof (pow2_pos l); lia).
  apply Z.mod_mod. pose proof (pow2_pos l); lia.
Qed.

Lemma loop_H : forall l x y z key o, In o states -> 0 <= x -> 0 <= y -> 0 <= z ->
  hilbert_loop l (2 ^ Z.of_nat l) x y z key o =
  Ok (key + H l o (x mod 2 ^ Z.of_nat l) (y mod 2 ^ Z.of_nat l) (z mod 2 ^ Z.of_nat l)).
Proof.
  induction l as [|l IH]; intros x y z key o Ho Hx Hy Hz.
  - cbn. f_equal. lia.
  - cbn [hilbert_loop]. pose proof (pow2_S l) as E. pose proof (pow2_pos l) as P.
    assert (G : (2 ^ Z.of_nat (S l) >? 1) = true) by (rewrite E; apply Z.gtb_lt; lia). rewrite G.
    assert (EM : m_index x y z (2 ^ Z.of_nat (S l)) =
       mof l (x mod 2 ^ Z.of_nat (S l)) (y mod 2 ^ Z.of_nat (S l)) (z mod 2 ^ Z.of_nat (S l))).
    { unfold m_index, mof. rewrite !mi_bit by assumption. reflexivity. }
    rewrite EM.
    assert (Hm : 0 <= mof l (x mod 2 ^ Z.of_nat (S l)) (y mod 2 ^ Z.of_nat (S l)) (z mod 2 ^ Z.of_nat (S l)) < 8).
    { apply mof_range. unfold in_cube. pose proof (pow2_pos (S l)).
      repeat split; apply Z.mod_pos_bound; assumption. }
    cbn [H]. cbv zeta.
    set (m := mof l _ _ _) in *.
    destruct (step_spec o m Ho Hm) as (-> & D & S1). cbn [bind].
    destruct (step o m) as [d next] eqn:ES. cbn [fst snd] in *.
    assert (Q : Z.quot (2 ^ Z.of_nat (S l)) 2 = 2 ^ Z.of_nat l).
    { rewrite Z.quot_div_nonneg by lia. rewrite E, Z.mul_comm. apply Z.div_mul. lia. }
    rewrite Q, IH by assumption.
    rewrite !lo_mod by assumption. f_equal.
    assert (Q3 : Z.quot (2 ^ Z.of_nat (S l) * 2 ^ Z.of_nat (S l) * 2 ^ Z.of_nat (S l)) 8 = 8 ^ Z.of_nat l).
    { rewrite Z.quot_div_nonneg by nia. rewrite E.
      replace (2 * 2 ^ Z.of_nat l * (2 * 2 ^ Z.of_nat l) * (2 * 2 ^ Z.of_nat l))
        with (2 ^ Z.of_nat l * 2 ^ Z.of_nat l * 2 ^ Z.of_nat l * 8) by ring.
      rewrite Z.div_mul by lia. change 8 with (2 * 2 * 2) at 1. rewrite !Z.pow_mul_l. ring. }
    rewrite Q3. lia.
Qed.

Lemma hilbert_key_H : forall l x y z, in_cube (2 ^ Z.of_nat l) x y z ->
  hilbert_key x y z (2 ^ Z.of_nat l) = Ok (H l (zseq 0 8) x y z).
Proof.
  intros l x y z (Hx & Hy & Hz). unfold hilbert_key.
  rewrite Z.log2_pow2, Nat2Z.id by lia.
  rewrite loop_H by (try apply init_state; lia).
  rewrite !Z.mod_small by assumption. reflexivity.
Qed.

(** ** Adjacency *)

(** Corner bits of the first and last cell of each state. *)
Definition entry (o : list Z) : Z := octant o 0.
Definition exit_ (o : list Z) : Z := octant o 7.

Lemma entry_child : forall o, In o states ->
  entry (snd (step o (octant o 0))) = entry o /\ exit_ (snd (step o (octant o 7))) = exit_ o.
Proof.
  intros o Ho.
  assert (E := for_states (fun o _ => (entry (snd (step o (octant o 0))) =? entry o) &&
     (exit_ (snd (step o (octant o 7))) =? exit_ o)) ltac:(vm_compute; reflexivity) o 0 Ho ltac:(lia)).
  cbv beta in E. lia.
Qed.

(** Consecutive octants are joined through a common face.  [joint a e b e'] :
    octants a and b, exit corner e of a and entry corner e' of b. *)
Definition joint1 (a e b e' : Z) : Z * bool :=
  (* displacement along one axis, and whether the two corners touch there *)
  (b - a, if b - a =? 0 then e =? e' else if b - a =? 1 then (e =? 1) && (e' =? 0)
          else (e =? 0) && (e' =? 1)).

Definition jointb (a e b e' : Z) : bool :=
  let '(dx, tx) := joint1 (bx a) (bx e) (bx b) (bx e') in
  let '(dy, ty) := joint1 (by_ a) (by_ e) (by_ b) (by_ e') in
  let '(dz, tz) := joint1 (bz a) (bz e) (bz b) (bz e') in
  tx && ty && tz && (Z.abs dx + Z.abs dy + Z.abs dz =? 1).

Lemma joint_spec : forall o d, In o states -> 0 <= d < 7 ->
  jointb (octant o d) (exit_ (snd (step o (octant o d))))
         (octant o (d + 1)) (entry (snd (step o (octant o (d + 1))))) = true.
Proof.
  intros o d Ho Hd.
  assert (E := for_states (fun o d => (d =? 7) ||
     jointb (octant o d) (exit_ (snd (step o (octant o d))))
         (octant o (d + 1)) (entry (snd (step o (octant o (d + 1)))))) ltac:(vm_compute; reflexivity) o d Ho ltac:(lia)).
  cbv beta in E. destruct (d =? 7) eqn:F; [lia|]. assumption.
Qed.

Definition corner (l : nat) (e : Z) : Z * Z * Z :=
  let n := 2 ^ Z.of_nat l - 1 in (n * bx e, n * by_ e, n * bz e).

Lemma cell_ends : forall l o, In o states ->
  cell l o 0 = corner l (entry o) /\ cell l o (8 ^ Z.of_nat l - 1) = corner l (exit_ o).
Proof.
  induction l as [|l IH]; intros o Ho.
  - cbn. unfold corner. change (2 ^ Z.of_nat 0 - 1) with 0. rewrite !Z.mul_0_l. auto.
  - cbn [cell]. cbv zeta. pose proof (pow8_pos l) as P.
    rewrite Z.div_0_l, Z.mod_0_l by lia.
    assert (Q1 : (8 ^ Z.of_nat (S l) - 1) / 8 ^ Z.of_nat l = 7).
    { symmetry. apply Z.div_unique_pos with (r := 8 ^ Z.of_nat l - 1); rewrite ?pow8_S; lia. }
    assert (Q2 : (8 ^ Z.of_nat (S l) - 1) mod 8 ^ Z.of_nat l = 8 ^ Z.of_nat l - 1).
    { symmetry. apply Z.mod_unique_pos with (q := 7); rewrite ?pow8_S; lia. }
    rewrite Q1, Q2. destruct (entry_child o Ho) as [E1 E2].
    destruct (octant_spec o 0 Ho ltac:(lia)) as [O0 _]. destruct (octant_spec o 7 Ho ltac:(lia)) as [O7 _].
    destruct (step_spec o _ Ho O0) as (_ & _ & S0). destruct (step_spec o _ Ho O7) as (_ & _ & S7).
    destruct (IH _ S0) as [-> _]. destruct (IH _ S7) as [_ ->].
    rewrite E1, E2. unfold corner, entry, exit_. rewrite !pow2_S.
    split; (apply f_equal2; [apply f_equal2|]); ring.
Qed.

Lemma cell_adjacent : forall l o k, In o states -> 0 <= k -> k + 1 < 8 ^ Z.of_nat l ->
  let '(x, y, z) := cell l o k in let '(x', y', z') := cell l o (k + 1) in
  face_neighbours x y z x' y' z'.
Proof.
  induction l as [|l IH]; intros o k Ho Hk Hk1.
  - change (8 ^ Z.of_nat 0) with 1 in Hk1. lia.
  - cbn [cell]. cbv zeta. pose proof (pow8_pos l) as P. rewrite pow8_S in Hk1.
    set (d := k / 8 ^ Z.of_nat l). set (r := k mod 8 ^ Z.of_nat l).
    assert (Hr : 0 <= r < 8 ^ Z.of_nat l) by (apply Z.mod_pos_bound; lia).
    assert (Ek : k = 8 ^ Z.of_nat l * d + r) by (apply Z.div_mod; lia).
    assert (Hd : 0 <= d < 8).
    { unfold d. split; [apply Z.div_pos; lia|apply Z.div_lt_upper_bound; lia]. }
    clearbody d r.
    destruct (octant_spec o d Ho Hd) as [Om _].
    destruct (step_spec o _ Ho Om) as (_ & _ & S1).
    destruct (Z.eq_dec (r + 1) (8 ^ Z.of_nat l)) as [Er|Er].
    + (* crossing to the next octant *)
      assert (Hd7 : 0 <= d < 7) by nia.
      assert (Q1 : (k + 1) / 8 ^ Z.of_nat l = d + 1)
        by (symmetry; apply Z.div_unique_pos with (r := 0); lia).
      assert (Q2 : (k + 1) mod 8 ^ Z.of_nat l = 0)
        by (symmetry; apply Z.mod_unique_pos with (q := d + 1); lia).
      rewrite Q1, Q2. replace r with (8 ^ Z.of_nat l - 1) by lia.
      destruct (octant_spec o (d + 1) Ho ltac:(lia)) as [Om' _].
      destruct (step_spec o _ Ho Om') as (_ & _ & S1').
      destruct (cell_ends l _ S1) as [_ ->]. destruct (cell_ends l _ S1') as [-> _].
      pose proof (joint_spec o d Ho Hd7) as J. unfold jointb, joint1 in J. unfold corner.
      set (a := octant o d) in *. set (b := octant o (d + 1)) in *.
      set (e := exit_ _) in *. set (e' := entry _) in *.
      destruct (bits_range a Om) as (A1 & A2 & A3 & _).
      destruct (bits_range b Om') as (B1 & B2 & B3 & _).
      unfold face_neighbours. rewrite !andb_true_iff in J.
      set (n := 2 ^ Z.of_nat l) in *.
      assert (AX : forall p q u v,
         (if p - q =? 0 then u =? v else if p - q =? 1 then (u =? 1) && (v =? 0) else (u =? 0) && (v =? 1)) = true ->
         p = 0 \/ p = 1 -> q = 0 \/ q = 1 ->
         Z.abs (n * q + (n - 1) * u - (n * p + (n - 1) * v)) = Z.abs (p - q)).
      { clear. intros p q u v J Hp Hq.
        destruct Hp as [->| ->], Hq as [->| ->]; cbn in J; lia. }
      destruct J as [[[J1 J2] J3] J4].
      rewrite (AX (bx b) (bx a) (bx e) (bx e') J1 B1 A1).
      rewrite (AX (by_ b) (by_ a) (by_ e) (by_ e') J2 B2 A2).
      rewrite (AX (bz b) (bz a) (bz e) (bz e') J3 B3 A3). lia.
    + assert (Q1 : (k + 1) / 8 ^ Z.of_nat l = d)
        by (symmetry; apply Z.div_unique_pos with (r := r + 1); lia).
      assert (Q2 : (k + 1) mod 8 ^ Z.of_nat l = r + 1)
        by (symmetry; apply Z.mod_unique_pos with (q := d); lia).
      rewrite Q1, Q2.
      specialize (IH _ r S1 ltac:(lia) ltac:(lia)).
      destruct (cell l _ r) as [[x y] z]. destruct (cell l _ (r + 1)) as [[x' y'] z'].
      unfold face_neighbours in *. rewrite <- IH. f_equal; [f_equal|]; f_equal; ring.
Qed.

Lemma H_adjacent : forall l o x y z x' y' z', In o states ->
  in_cube (2 ^ Z.of_nat l) x y z -> in_cube (2 ^ Z.of_nat l) x' y' z' ->
  H l o x' y' z' = H l o x y z + 1 -> face_neighbours x y z x' y' z'.
Proof.
  intros l o x y z x' y' z' Ho Hc Hc' E.
  pose proof (H_bounds l o x y z Ho Hc) as B. pose proof (H_bounds l o x' y' z' Ho Hc') as B'.
  pose proof (cell_spec l o (H l o x y z) Ho B) as C1.
  pose proof (cell_spec l o (H l o x y z + 1) Ho ltac:(lia)) as C2.
  pose proof (cell_adjacent l o (H l o x y z) Ho ltac:(lia) ltac:(lia)) as A.
  destruct (cell l o (H l o x y z)) as [[a b] c]. destruct (cell l o (H l o x y z + 1)) as [[a' b'] c'].
  destruct C1 as [C1 D1], C2 as [C2 D2].
  apply H_inj in D1; auto. rewrite <- E in D2. apply H_inj in D2; auto.
  destruct D1 as (-> & -> & ->), D2 as (-> & -> & ->). assumption.
Qed.
