(** From the cut curve back to the cells: [distribute_points_hilbert]. *)
From Coq Require Import ZArith List Bool Lia Permutation.
From Verif Require Import Base ListFacts HilbertModel HilbertSpec HilbertProofs PartitionModel PartitionSpec PartitionProofs.
Import ListNotations.
Local Open Scope Z_scope.

Lemma shiftl1 : forall l, Z.shiftl 1 (Z.of_nat l) = 2 ^ Z.of_nat l.
Proof. intros. rewrite Z.shiftl_mul_pow2 by lia. lia. Qed.

Definition slot (n x y z : Z) : Z := x + (z * n * n + y * n).

Lemma slot_range : forall n x y z, in_cube n x y z -> 0 <= slot n x y z < n * n * n.
Proof. intros n x y z (Hx & Hy & Hz). unfold slot. nia. Qed.

Lemma slot_order_z : forall n x y z z0, in_cube n x y z -> 0 <= z0 ->
  (slot n x y z < z0 * n * n <-> z < z0).
Proof.
  intros n x y z z0 (Hx & Hy & Hz) H0. unfold slot. split; intros.
  - destruct (Z.lt_ge_cases z z0); [assumption|]. exfalso. nia.
  - nia.
Qed.

Section Curve.
Variables (l : nat) (global : list Z).
Let n := 2 ^ Z.of_nat l.
Let len := 8 ^ Z.of_nat l.
Hypothesis Hglobal : Z.of_nat (length global) = 2 * len.

Let K x y z := H l (zseq 0 8) x y z.
Definition cell_count (i : Z) : Z :=
  nth (Z.to_nat i) global 0 + nth (Z.to_nat (len + i)) global 0.

Lemma n_pos : 0 < n. Proof. apply pow2_pos. Qed.
Lemma len_cube : len = n * n * n.
Proof. unfold len, n. change 8 with (2 * 2 * 2). rewrite !Z.pow_mul_l. reflexivity. Qed.

Definition good (bound : Z) (st : list Z * list Z) : Prop :=
  Z.of_nat (length (fst st)) = len /\ Z.of_nat (length (snd st)) = len /\
  forall x y z, in_cube n x y z -> slot n x y z < bound ->
    nth_error (fst st) (Z.to_nat (K x y z)) = Some (cell_count (slot n x y z)) /\
    nth_error (snd st) (Z.to_nat (K x y z)) = Some (slot n x y z).

Lemma nth_resZ_nth : forall (g : list Z) i, 0 <= i < Z.of_nat (length g) -> nth_resZ g i = Ok (nth (Z.to_nat i) g 0).
Proof.
  intros g i Hi. apply nth_resZ_ok. split; [lia|]. apply nth_error_nth'. lia.
Qed.

Lemma good_step : forall x y z st, in_cube n x y z -> good (slot n x y z) st ->
  exists st', (let '(counts, origin) := st in
        let i := x + (z * n * n + y * n) in
        do hidx <- hilbert_key x y z n;
        do si <- nth_resZ global i;
        do ti <- nth_resZ global (len + i);
        do counts' <- set_resZ counts hidx (si + ti);
        do origin' <- set_resZ origin hidx i;
        Ok (counts', origin')) = Ok st' /\ good (slot n x y z + 1) st'.
Proof.
  intros x y z [counts origin] Hc (L1 & L2 & G). cbn [fst snd] in *.
  pose proof (slot_range n x y z Hc) as S. rewrite <- len_cube in S.
  pose proof (H_bounds l _ x y z init_state Hc) as B. fold (K x y z) in B. fold len in B.
  assert (EK : hilbert_key x y z n = Ok (K x y z)) by (apply hilbert_key_H; exact Hc).
  cbv zeta. rewrite EK. cbn [bind].
  fold (slot n x y z). rewrite !nth_resZ_nth by lia. cbn [bind].
  rewrite set_resZ_ok by lia. cbn [bind]. rewrite set_resZ_ok by lia. cbn [bind].
  eexists; split; [reflexivity|].
  split; [cbn [fst]; rewrite upd_length; assumption|].
  split; [cbn [snd]; rewrite upd_length; assumption|].
  intros x0 y0 z0 Hc0 Hlt. cbn [fst snd].
  pose proof (H_bounds l _ x0 y0 z0 init_state Hc0) as B'. fold (K x0 y0 z0) in B'. fold len in B'.
  destruct (Z.eq_dec (slot n x0 y0 z0) (slot n x y z)) as [E|E].
  - assert (Q : x0 = x /\ y0 = y /\ z0 = z).
    { destruct Hc0 as (?&?&?), Hc as (?&?&?). unfold slot in E.
      assert (z0 = z) by nia. subst z0. assert (y0 = y) by nia. subst y0. lia. }
    destruct Q as (-> & -> & ->). split; apply upd_same; lia.
  - assert (D : Z.to_nat (K x y z) <> Z.to_nat (K x0 y0 z0)).
    { intros Q. apply E. assert (Q' : K x y z = K x0 y0 z0) by lia.
      destruct (H_inj l _ _ _ _ _ _ _ init_state Hc Hc0 Q') as (-> & -> & ->). reflexivity. }
    rewrite !upd_other by exact D. apply G; [assumption|lia].
Qed.

Lemma curve_counts_ok : exists st, curve_counts global len n = Ok st /\ good len st.
Proof.
  pose proof n_pos as Np. assert (Hlen : 0 <= len) by apply Z.lt_le_incl, pow8_pos.
  unfold curve_counts.
  match goal with |- exists st, foldM ?f ?z ?s = _ /\ _ =>
    destruct (foldM_ind _ _ f (fun k st => good (Z.of_nat k * n * n) st) z s) as (st & E & G) end.
  - split; [cbn [fst]; rewrite repeat_length; lia|]. split; [cbn [snd]; rewrite repeat_length; lia|].
    intros x y z Hc Hlt. pose proof (slot_range n x y z Hc); lia.
  - intros jz az st Hz Gz. apply zseq_inv in Hz. destruct Hz as [Hz ->]. cbn [Z.add].
    match goal with |- exists st, foldM ?f ?z ?s = _ /\ _ =>
      destruct (foldM_ind _ _ f (fun k st => good (Z.of_nat jz * n * n + Z.of_nat k * n) st) z s) as (st' & E' & G') end.
    + rewrite Z.add_0_r. exact Gz.
    + intros jy ay sty Hy Gy. apply zseq_inv in Hy. destruct Hy as [Hy ->]. cbn [Z.add].
      match goal with |- exists st, foldM ?f ?z ?s = _ /\ _ =>
        destruct (foldM_ind _ _ f (fun k st => good (Z.of_nat k + (Z.of_nat jz * n * n + Z.of_nat jy * n)) st) z s) as (st'' & E'' & G'') end.
      * exact Gy.
      * intros jx ax stx Hx Gx. apply zseq_inv in Hx. destruct Hx as [Hx ->]. cbn [Z.add].
        destruct (good_step (Z.of_nat jx) (Z.of_nat jy) (Z.of_nat jz) stx) as (s' & Es & Gs).
        { repeat split; lia. }
        { exact Gx. }
        exists s'. split; [exact Es|].
        replace (Z.of_nat (S jx) + (Z.of_nat jz * n * n + Z.of_nat jy * n)) with (slot n (Z.of_nat jx) (Z.of_nat jy) (Z.of_nat jz) + 1) by (unfold slot; lia).
        exact Gs.
      * exists st''. split; [exact E''|]. rewrite zseq_len, Z2Nat.id in G'' by lia.
        replace (Z.of_nat jz * n * n + Z.of_nat (S jy) * n) with (n + (Z.of_nat jz * n * n + Z.of_nat jy * n)) by lia. exact G''.
    + exists st'. split; [exact E'|]. rewrite zseq_len, Z2Nat.id in G' by lia.
      replace (Z.of_nat (S jz) * n * n) with (Z.of_nat jz * n * n + n * n) by lia. exact G'.
  - exists st. split; [exact E|]. rewrite zseq_len, Z2Nat.id in G by lia. rewrite len_cube. exact G.
Qed.

(** Each key belongs to a cell. *)
Lemma key_cell : forall k, 0 <= k < len -> exists x y z, in_cube n x y z /\ K x y z = k.
Proof.
  intros k Hk. pose proof (cell_spec l _ k init_state Hk) as C.
  destruct (HilbertProofs.cell l (zseq 0 8) k) as [[x y] z]. exists x, y, z. exact C.
Qed.

Lemma slot_cell : forall i, 0 <= i < len -> exists x y z, in_cube n x y z /\ slot n x y z = i.
Proof.
  intros i Hi. pose proof n_pos as Np. rewrite len_cube in Hi.
  exists (i mod n), (i / n mod n), (i / n / n). repeat split.
  - apply Z.mod_pos_bound; lia.
  - apply Z.mod_pos_bound; lia.
  - apply Z.mod_pos_bound; lia.
  - apply Z.mod_pos_bound; lia.
  - apply Z.div_pos; [apply Z.div_pos; lia|lia].
  - apply Z.div_lt_upper_bound; [lia|]. apply Z.div_lt_upper_bound; lia.
  - unfold slot. pose proof (Z.div_mod i n ltac:(lia)). pose proof (Z.div_mod (i / n) n ltac:(lia)). nia.
Qed.

Lemma slot_inj : forall x y z x' y' z', in_cube n x y z -> in_cube n x' y' z' ->
  slot n x y z = slot n x' y' z' -> x = x' /\ y = y' /\ z = z'.
Proof.
  intros x y z x' y' z' (?&?&?) (?&?&?) E. unfold slot in E.
  assert (z = z') by nia. subst z'. assert (y = y') by nia. subst y'. lia.
Qed.

Lemma origin_perm : forall counts origin, good len (counts, origin) -> Permutation origin (zseq 0 (Z.to_nat len)).
Proof.
  intros counts origin (L1 & L2 & G). cbn [fst snd] in *.
  apply NoDup_Permutation_bis.
  - apply NoDup_nth_error. intros i j Hi E.
    assert (Hi' : 0 <= Z.of_nat i < len) by lia.
    destruct (key_cell _ Hi') as (x & y & z & Hc & Ek).
    assert (Hj' : 0 <= Z.of_nat j < len).
    { destruct (nth_error_lt _ origin i Hi) as [a Ha]. rewrite E in Ha. apply nth_error_bound in Ha. lia. }
    destruct (key_cell _ Hj') as (x' & y' & z' & Hc' & Ek').
    pose proof (slot_range n x y z Hc) as R. pose proof (slot_range n x' y' z' Hc') as R'.
    rewrite <- len_cube in R, R'.
    destruct (G x y z Hc ltac:(lia)) as [_ A]. destruct (G x' y' z' Hc' ltac:(lia)) as [_ A'].
    rewrite Ek, Nat2Z.id in A. rewrite Ek', Nat2Z.id in A'. rewrite A, A' in E. apply some_inj in E.
    destruct (slot_inj x y z x' y' z' Hc Hc' E) as (-> & -> & ->). lia.
  - rewrite zseq_len. lia.
  - intros a Ha. apply In_nth_error in Ha. destruct Ha as [i Hi].
    pose proof (nth_error_bound _ _ _ _ Hi).
    destruct (key_cell (Z.of_nat i) ltac:(lia)) as (x & y & z & Hc & Ek).
    pose proof (slot_range n x y z Hc) as R. rewrite <- len_cube in R.
    destruct (G x y z Hc ltac:(lia)) as [_ A]. rewrite Ek, Nat2Z.id in A.
    apply zseq_in. assert (a = slot n x y z) by congruence. lia.
Qed.

Lemma counts_map : forall counts origin, good len (counts, origin) -> counts = map cell_count origin.
Proof.
  intros counts origin (L1 & L2 & G). cbn [fst snd] in *.
  apply list_ext; [rewrite map_length; lia|]. intros i Hi.
  destruct (key_cell (Z.of_nat i) ltac:(lia)) as (x & y & z & Hc & Ek).
  pose proof (slot_range n x y z Hc) as R. rewrite <- len_cube in R.
  destruct (G x y z Hc ltac:(lia)) as [A B]. rewrite Ek, Nat2Z.id in A, B.
  rewrite A. symmetry. apply map_nth_error. assumption.
Qed.

Lemma nth_seq_sum : forall (g : list Z) a k, 0 <= a -> a + Z.of_nat k <= Z.of_nat (length g) ->
  zsum (map (fun i => nth (Z.to_nat i) g 0) (zseq a k)) = zsum (firstn k (skipn (Z.to_nat a) g)).
Proof.
  intros g a k Ha Hk. f_equal. apply list_ext.
  - rewrite map_length, zseq_len, firstn_length, skipn_length. lia.
  - intros i Hi. rewrite map_length, zseq_len in Hi.
    rewrite (map_nth_error _ _ _ (zseq_nth_error a k i Hi)).
    rewrite ListFacts.nth_error_firstn_lt by assumption. rewrite ListFacts.nth_error_skipn.
    symmetry. rewrite <- (Nat2Z.id (Z.to_nat a + i)). rewrite Nat2Z.inj_add, Z2Nat.id by lia.
    rewrite (nth_error_nth' g 0); [reflexivity|lia].
Qed.

Lemma counts_total : forall counts origin, good len (counts, origin) -> total counts = total global.
Proof.
  intros counts origin G. pose proof (pow8_pos l) as P8. fold len in P8.
  rewrite (counts_map _ _ G). pose proof (origin_perm _ _ G) as P.
  change total with zsum. rewrite (zsum_perm _ _ (Permutation_map cell_count P)).
  assert (E : zsum (map cell_count (zseq 0 (Z.to_nat len))) =
     zsum (map (fun i => nth (Z.to_nat i) global 0) (zseq 0 (Z.to_nat len))) +
     zsum (map (fun i => nth (Z.to_nat i) global 0) (zseq len (Z.to_nat len)))).
  { replace (zseq len (Z.to_nat len)) with (map (fun i => len + i) (zseq 0 (Z.to_nat len))).
    - rewrite map_map. clear. induction (zseq 0 (Z.to_nat len)) as [|a w IH]; [reflexivity|].
      cbn [map]. unfold zsum in *. cbn [fold_right]. rewrite IH. unfold cell_count. lia.
    - unfold zseq. rewrite map_map. apply map_ext. intros; lia. }
  rewrite E, !nth_seq_sum by lia.
  rewrite <- zsum_app. cbn [Z.to_nat skipn].
  rewrite (firstn_all2 (n := Z.to_nat len) (skipn (Z.to_nat len) global)) by (rewrite skipn_length; lia).
  rewrite firstn_skipn. reflexivity.
Qed.

Lemma counts_nonneg : forall counts origin, nonneg global -> good len (counts, origin) -> nonneg counts.
Proof.
  intros counts origin Hn G. rewrite (counts_map _ _ G). apply Forall_forall. intros c Hc.
  apply in_map_iff in Hc. destruct Hc as (i & <- & _). unfold cell_count.
  assert (N : forall k, 0 <= nth k global 0).
  { intros k. destruct (nth_in_or_default k global 0) as [I|I]; [|lia].
    rewrite Forall_forall in Hn. apply Hn. assumption. }
  pose proof (N (Z.to_nat i)). pose proof (N (Z.to_nat (len + i))). lia.
Qed.

(** The scatter back to cell order. *)
Lemma scatter_ok : forall counts origin (rm : list Z), good len (counts, origin) -> Z.of_nat (length rm) = len ->
  exists r, foldM (fun r hidx =>
    do o <- nth_resZ origin hidx;
    do v <- nth_resZ rm hidx;
    set_resZ r o (Some v)) (zseq 0 (Z.to_nat len)) (repeat None (Z.to_nat len)) = Ok r /\
    Z.of_nat (length r) = len /\
    forall x y z, in_cube n x y z ->
      nth_error r (Z.to_nat (slot n x y z)) = Some (nth_error rm (Z.to_nat (K x y z))).
Proof.
  intros counts origin rm G Lr. pose proof (pow8_pos l) as P8. fold len in P8.
  destruct G as (L1 & L2 & G). cbn [fst snd] in *.
  set (P := fun (k : nat) (r : list (option Z)) => Z.of_nat (length r) = len /\
    forall x y z, in_cube n x y z -> K x y z < Z.of_nat k ->
      nth_error r (Z.to_nat (slot n x y z)) = Some (nth_error rm (Z.to_nat (K x y z)))).
  match goal with |- exists r, foldM ?f ?z ?s = _ /\ _ =>
    destruct (foldM_ind _ _ f P z s) as (r & E & HL & HN) end.
  - split; [rewrite repeat_length; lia|]. intros x y z Hc Hk.
    pose proof (H_bounds l _ x y z init_state Hc) as B. fold (K x y z) in B. lia.
  - intros j a r Hj [HL HN]. apply zseq_inv in Hj. destruct Hj as [Hj ->]. cbn [Z.add].
    destruct (key_cell (Z.of_nat j) ltac:(lia)) as (x & y & z & Hc & Ek).
    pose proof (slot_range n x y z Hc) as R. rewrite <- len_cube in R.
    destruct (G x y z Hc ltac:(lia)) as [_ A]. rewrite Ek, Nat2Z.id in A.
    assert (A' : nth_resZ origin (Z.of_nat j) = Ok (slot n x y z)) by (apply nth_resZ_ok; rewrite Nat2Z.id; split; [lia|assumption]).
    rewrite A'. cbn [bind].
    destruct (nth_error_lt _ rm j ltac:(lia)) as [v Hv].
    assert (V' : nth_resZ rm (Z.of_nat j) = Ok v) by (apply nth_resZ_ok; rewrite Nat2Z.id; split; [lia|assumption]).
    rewrite V'. cbn [bind]. rewrite set_resZ_ok by lia.
    eexists; split; [reflexivity|]. split; [rewrite upd_length; assumption|].
    intros x' y' z' Hc' Hk'.
    pose proof (slot_range n x' y' z' Hc') as R'. rewrite <- len_cube in R'.
    destruct (Z.eq_dec (K x' y' z') (Z.of_nat j)) as [E|E].
    + assert (Q : K x y z = K x' y' z') by lia.
      destruct (H_inj l _ _ _ _ _ _ _ init_state Hc Hc' Q) as (<- & <- & <-).
      rewrite upd_same by lia. rewrite Ek, Nat2Z.id. congruence.
    + rewrite upd_other; [apply HN; [assumption|lia]|].
      intros Q. apply E. assert (Q' : slot n x y z = slot n x' y' z') by lia.
      destruct (slot_inj x y z x' y' z' Hc Hc' Q') as (<- & <- & <-). exact Ek.
  - exists r. split; [exact E|]. split; [exact HL|]. intros x y z Hc. apply HN; [assumption|].
    rewrite zseq_len, Z2Nat.id by lia. apply (H_bounds l _ x y z init_state Hc).
Qed.

Lemma distribute_spec : forall np, (1 <= np)%nat -> nonneg global ->
  exists curve,
    Z.of_nat (length curve) = len /\ nonneg curve /\ total curve = total global /\
    (forall x y z, in_cube n x y z -> nth_error curve (Z.to_nat (K x y z)) = Some (cell_count (slot n x y z))) /\
    (forall e, partition curve (Z.of_nat np) = Fail e ->
       distribute_points_hilbert (Z.of_nat np) global len (Z.of_nat l) = Fail e) /\
    (forall rm, partition curve (Z.of_nat np) = Ok rm -> length rm = length curve ->
       exists r, distribute_points_hilbert (Z.of_nat np) global len (Z.of_nat l) = Ok r /\
         Z.of_nat (length r) = len /\
         forall x y z, in_cube n x y z ->
           nth_error r (Z.to_nat (slot n x y z)) = Some (nth_error rm (Z.to_nat (K x y z)))).
Proof.
  intros np Hnp Hn. destruct curve_counts_ok as ([counts origin] & E & G).
  exists counts. pose proof G as (L1 & L2 & G'). cbn [fst snd] in L1, L2, G'.
  split; [exact L1|]. split; [apply (counts_nonneg _ _ Hn G)|]. split; [apply (counts_total _ _ G)|].
  split; [|split].
  - intros x y z Hc. apply G'; [assumption|]. rewrite len_cube. apply slot_range. assumption.
  - intros e He. unfold distribute_points_hilbert. rewrite shiftl1. fold n. rewrite E. cbn [bind]. rewrite He. reflexivity.
  - intros rm Hrm HL. destruct (scatter_ok counts origin rm G ltac:(lia)) as (r & Er & Lr & Nr).
    exists r. split; [|split; assumption].
    unfold distribute_points_hilbert. rewrite shiftl1. fold n. rewrite E. cbn [bind]. rewrite Hrm. exact Er.
Qed.
End Curve.
