(** Proofs about [BasicModel]. *)
From Coq Require Import String.
From Coq Require Import ZArith Reals List Bool Lia Lra Permutation Sorting.Sorted.
From Verif Require Import Base ListFacts BasicModel BasicSpec.
Import ListNotations.
Open Scope Z_scope.

(** ** Lists *)
Lemma in_zseq : forall a n x, In x (zseq a n) <-> a <= x < a + Z.of_nat n.
Proof.
  intros a n x. unfold zseq. rewrite in_map_iff. split.
  - intros (k & E & I). apply in_seq in I. lia.
  - intros H. exists (Z.to_nat (x - a)). split; [lia|]. apply in_seq. lia.
Qed.
Lemma zseq_snoc : forall a n, zseq a (S n) = (zseq a n ++ [a + Z.of_nat n])%list.
Proof. intros. unfold zseq. rewrite seq_S, map_app. reflexivity. Qed.
Lemma NoDup_zseq : forall a n, NoDup (zseq a n).
Proof.
  intros a n. unfold zseq. apply FinFun.Injective_map_NoDup; [|apply seq_NoDup]. intros x y E. lia.
Qed.
Lemma length_zseq : forall a n, length (zseq a n) = n.
Proof. intros. unfold zseq. rewrite map_length, seq_length. reflexivity. Qed.

Lemma NoDup_flat_map : forall A B (f : A -> list B) l, NoDup l -> (forall a, In a l -> NoDup (f a)) ->
  (forall a b x, In a l -> In b l -> In x (f a) -> In x (f b) -> a = b) -> NoDup (flat_map f l).
Proof.
  intros A B f l. induction l as [|a l IH]; intros N F D; cbn; [constructor|].
  inversion N as [|? ? Na Nl]; subst. 
  assert (G : NoDup (flat_map f l)).
  { apply IH; [exact Nl|intros; apply F; right; assumption|]. intros b c x Ib Ic. apply D; right; assumption. }
  revert G. pose proof (F a (or_introl eq_refl)) as Fa.
  assert (X : forall x, In x (f a) -> ~ In x (flat_map f l)).
  { intros x Ix Jx. apply in_flat_map in Jx. destruct Jx as (b & Ib & Jx). apply Na.
    rewrite (D a b x); auto; [left; reflexivity|right; exact Ib]. }
  clear - Fa X. revert X Fa. induction (f a) as [|y r IHr]; intros X Fa G; cbn; [exact G|].
  inversion Fa; subst. constructor.
  - intros Q. apply in_app_or in Q. destruct Q as [Q|Q]; [contradiction|]. apply (X y); [left; reflexivity|exact Q].
  - apply IHr; auto. intros x Ix. apply X. right. exact Ix.
Qed.
Lemma not_NoDup_flat_map : forall A B (f : A -> list B) l a b x,
  In a l -> In b l -> a <> b -> In x (f a) -> In x (f b) -> ~ NoDup (flat_map f l).
Proof.
  intros A B f l a b x. induction l as [|c l IH]; intros Ia Ib D Fa Fb N; [destruct Ia|]. cbn in N.
  assert (K : forall (p q : list B), NoDup (p ++ q) -> (forall y, In y p -> In y q -> False) /\ NoDup q).
  { clear. intros p. induction p as [|y p IHp]; intros q H; cbn in *; [split; [intros; contradiction|exact H]|].
    inversion H; subst. destruct (IHp _ H3) as (D & Q). split; [|exact Q]. intros z [Ez|Iz] Jz; [subst; apply H2; apply in_or_app; right; exact Jz|eauto]. }
  destruct (K _ _ N) as (K1 & K2).
  destruct Ia as [Ea|Ia], Ib as [Eb|Ib].
  - congruence.
  - subst c. apply (K1 x); [exact Fa|]. apply in_flat_map. eauto.
  - subst c. apply (K1 x); [exact Fb|]. apply in_flat_map. eauto.
  - apply (IH Ia Ib D Fa Fb K2).
Qed.
Lemma map_flat_map : forall A B C (g : B -> C) (f : A -> list B) l, map g (flat_map f l) = flat_map (fun a => map g (f a)) l.
Proof. intros. induction l; cbn; [reflexivity|]. rewrite map_app, IHl. reflexivity. Qed.

(** ** Sharing *)
Section Share.
  Variables (ranks count : Z).
  Hypothesis ranks_pos : 1 <= ranks.
  Hypothesis count_pos : 1 <= count.

  Lemma share_eq : count = ranks * (count / ranks) + count mod ranks.
  Proof. apply Z.div_mod. lia. Qed.
  Lemma bonus_range : 0 <= count mod ranks < ranks.
  Proof. apply Z.mod_pos_bound. lia. Qed.
  Lemma share_nonneg : 0 <= count / ranks.
  Proof. apply Z.div_pos; lia. Qed.
  Lemma dole_nonneg : forall r, 0 <= dole ranks r count.
  Proof. intros r. unfold dole. pose proof share_nonneg. destruct (r <? count mod ranks); lia. Qed.
  Lemma dole_close : forall r, count / ranks <= dole ranks r count <= count / ranks + 1.
  Proof. intros r. unfold dole. destruct (r <? count mod ranks); lia. Qed.
  Lemma dole_first : 1 <= dole ranks 0 count.
  Proof.
    unfold dole. pose proof share_eq. pose proof bonus_range. pose proof share_nonneg.
    destruct (Z.ltb_spec 0 (count mod ranks)); nia.
  Qed.
  Lemma totalZ_app : forall A (f : A -> Z) a b, totalZ f (a ++ b) = totalZ f a + totalZ f b.
  Proof. intros. induction a; cbn [app totalZ]; lia. Qed.
  Lemma dole_prefix : forall k : nat, totalZ (fun r => dole ranks r count) (zseq 0 k) = Z.of_nat k * (count / ranks) + Z.min (Z.of_nat k) (count mod ranks).
  Proof.
    induction k as [|k IH].
    - cbn. pose proof bonus_range. lia.
    - rewrite zseq_snoc, totalZ_app, IH. cbn [totalZ]. unfold dole.
      destruct (Z.ltb_spec (0 + Z.of_nat k) (count mod ranks)); lia.
  Qed.
  Lemma dole_total : totalZ (fun r => dole ranks r count) (zseq 0 (Z.to_nat ranks)) = count.
  Proof. rewrite dole_prefix, Z2Nat.id by lia. pose proof share_eq. pose proof bonus_range. lia. Qed.

  Lemma index_bound : forall r i, 0 <= r < ranks -> 0 <= i < dole ranks r count -> 0 <= index_of r (dole ranks r count) i < count.
  Proof.
    intros r i Hr Hi. unfold index_of. pose proof (dole_nonneg r). pose proof share_eq as E. pose proof bonus_range. pose proof share_nonneg.
    split; [nia|]. revert Hi. unfold dole. destruct (Z.ltb_spec r (count mod ranks)); intros; nia.
  Qed.

  Definition indices_of (r : Z) : list Z := map (index_of r (dole ranks r count)) (zseq 0 (Z.to_nat (dole ranks r count))).
  Lemma indices_all : forall place, map index (all_targets ranks count place) = flat_map indices_of (zseq 0 (Z.to_nat ranks)).
  Proof.
    intros place. unfold all_targets. rewrite map_flat_map. apply flat_map_ext. intros r. unfold set_targets, indices_of. rewrite map_map. reflexivity.
  Qed.
  Lemma in_indices : forall r x, In x (indices_of r) <-> exists i, 0 <= i < dole ranks r count /\ x = index_of r (dole ranks r count) i.
  Proof.
    intros r x. unfold indices_of. rewrite in_map_iff. pose proof (dole_nonneg r). split.
    - intros (i & E & I). apply in_zseq in I. exists i. split; [lia|auto].
    - intros (i & I & E). exists i. split; [auto|]. apply in_zseq. lia.
  Qed.
  Lemma indices_NoDup : forall r, NoDup (indices_of r).
  Proof. intros r. apply FinFun.Injective_map_NoDup; [|apply NoDup_zseq]. intros a b E. unfold index_of in E. lia. Qed.

  Lemma distinct_if : count mod ranks = 0 \/ count < ranks -> NoDup (flat_map indices_of (zseq 0 (Z.to_nat ranks))).
  Proof.
    intros H. apply NoDup_flat_map; [apply NoDup_zseq|intros; apply indices_NoDup|].
    intros a b x Ia Ib Xa Xb. apply in_zseq in Ia. apply in_zseq in Ib.
    apply in_indices in Xa. apply in_indices in Xb. destruct Xa as (i & Hi & Ei), Xb as (j & Hj & Ej).
    unfold index_of in *. pose proof share_eq as E. pose proof bonus_range as B. pose proof share_nonneg as S. unfold dole in *.
    destruct H as [H|H].
    - rewrite H in *. destruct (Z.ltb_spec a 0); [lia|]. destruct (Z.ltb_spec b 0); [lia|]. nia.
    - rewrite (Z.div_small count ranks) in * by lia. 
      destruct (Z.ltb_spec a (count mod ranks)); destruct (Z.ltb_spec b (count mod ranks)); lia.
  Qed.
  Lemma clash : count mod ranks <> 0 -> ranks <= count ->
    exists r i r' i', 0 <= r < ranks /\ 0 <= i < dole ranks r count /\ 0 <= r' < ranks /\ 0 <= i' < dole ranks r' count /\ r < r' /\
      index_of r (dole ranks r count) i = index_of r' (dole ranks r' count) i'.
  Proof.
    intros M L. pose proof share_eq as E. pose proof bonus_range as B. pose proof share_nonneg as S.
    set (s := count / ranks) in *. set (b := count mod ranks) in *.
    assert (S1 : 1 <= s) by (destruct (Z.eq_dec s 0); nia).
    pose proof (Z.div_mod (s * b) (s + 1) ltac:(lia)) as D. pose proof (Z.mod_pos_bound (s * b) (s + 1) ltac:(lia)) as P.
    set (q := s * b / (s + 1)) in *. set (i := s * b mod (s + 1)) in *.
    assert (Q : 0 <= q < b) by nia.
    exists q, i, b, 0. unfold dole, index_of. fold s b.
    destruct (Z.ltb_spec q b); [|lia]. destruct (Z.ltb_spec b b); [lia|].
    repeat split; try lia.
  Qed.
  Lemma distinct_only_if : NoDup (flat_map indices_of (zseq 0 (Z.to_nat ranks))) -> count mod ranks = 0 \/ count < ranks.
  Proof.
    intros N. destruct (Z.eq_dec (count mod ranks) 0) as [|M]; [auto|]. destruct (Z_lt_le_dec count ranks) as [|L]; [auto|]. exfalso.
    destruct (clash M L) as (r & i & r' & i' & Hr & Hi & Hr' & Hi' & D & E). revert N.
    apply (not_NoDup_flat_map _ _ indices_of _ r r' (index_of r (dole ranks r count) i)).
    - apply in_zseq. lia.
    - apply in_zseq. lia.
    - lia.
    - apply in_indices. eauto.
    - apply in_indices. eauto.
  Qed.

  Lemma length_all : forall place, length (all_targets ranks count place) = Z.to_nat count.
  Proof.
    intros place. rewrite <- (map_length index), indices_all.
    assert (K : forall l, Z.of_nat (length (flat_map indices_of l)) = totalZ (fun r => dole ranks r count) l).
    { induction l as [|r l IH]; [reflexivity|]. cbn [flat_map totalZ]. rewrite app_length, Nat2Z.inj_add, IH.
      unfold indices_of. rewrite map_length, length_zseq. pose proof (dole_nonneg r). lia. }
    specialize (K (zseq 0 (Z.to_nat ranks))). rewrite dole_total in K. lia.
  Qed.
  Lemma dole_le : forall r, 0 <= r -> dole ranks r count <= count.
  Proof.
    intros r Hr. unfold dole. pose proof share_eq. pose proof bonus_range. pose proof share_nonneg.
    destruct (Z.ltb_spec r (count mod ranks)); nia.
  Qed.
End Share.

(** ** Choosing the tests *)
Lemma copy_test_ok : forall n s i, 1 <= n <= Z.of_nat (length s) -> 0 <= i < n ->
  exists t, nth_error s (Z.to_nat (i * (Z.of_nat (length s) / n))) = Some t /\ copy_test n s i = Ok (mkT (pos t) (0%R, 0%R) (index t)).
Proof.
  intros n s i Hn Hi. unfold copy_test. destruct (Z.eqb_spec n 0); [lia|].
  assert (B : 0 <= i * (Z.of_nat (length s) / n) < Z.of_nat (length s)).
  { pose proof (Z.mul_div_le (Z.of_nat (length s)) n ltac:(lia)). pose proof (Z.div_pos (Z.of_nat (length s)) n ltac:(lia) ltac:(lia)).
    assert (1 <= Z.of_nat (length s) / n) by (apply Z.div_le_lower_bound; lia). nia. }
  destruct (nth_error_lt _ s (Z.to_nat (i * (Z.of_nat (length s) / n))) ltac:(lia)) as (t & Et). exists t. split; [exact Et|].
  destruct (Z.ltb_spec (i * (Z.of_nat (length s) / n)) (Z.of_nat (length s))); [|lia]. cbn [assert_ bind].
  assert (X : nth_resZ s (i * (Z.of_nat (length s) / n)) = Ok t) by (apply nth_resZ_ok; split; [lia|exact Et]).
  rewrite X. reflexivity.
Qed.
Definition forget (t : target) : target := mkT (pos t) (0%R, 0%R) (index t).
Lemma choose_list : forall n s l, 1 <= n <= Z.of_nat (length s) -> (forall i, In i l -> 0 <= i < n) -> NoDup l ->
  exists picked, mapM (copy_test n s) l = Ok (map forget picked) /\ length picked = length l /\
    exists js, Forall2 (fun j t => nth_error s j = Some t) js picked /\ NoDup js /\
      forall j, In j js -> exists i, In i l /\ j = Z.to_nat (i * (Z.of_nat (length s) / n)).
Proof.
  intros n s l Hn. induction l as [|i l IH]; intros B N.
  - exists []. repeat split. exists []. repeat split; [constructor|constructor|intros j []].
  - inversion N; subst. destruct IH as (p & E & L & js & F & D & J); [intros; apply B; right; assumption|assumption|].
    destruct (copy_test_ok n s i Hn (B i (or_introl eq_refl))) as (t & Et & Ct).
    exists (t :: p). cbn [mapM]. rewrite Ct. cbn [bind]. rewrite E. cbn [bind]. split; [reflexivity|]. split; [cbn; lia|].
    exists (Z.to_nat (i * (Z.of_nat (length s) / n)) :: js). split; [constructor; auto|]. split.
    + constructor; [|exact D]. intros Q. destruct (J _ Q) as (i' & Ii' & E').
      assert (1 <= Z.of_nat (length s) / n) by (apply Z.div_le_lower_bound; lia).
      pose proof (B i (or_introl eq_refl)). pose proof (B i' (or_intror Ii')).
      assert (i = i') by nia. subst. contradiction.
    + intros j [Q|Q]; [exists i; split; [left; reflexivity|auto]|]. destruct (J _ Q) as (i' & Ii' & E'). exists i'. split; [right; exact Ii'|exact E'].
Qed.
Lemma choose_ok : forall n s, 1 <= n <= Z.of_nat (length s) ->
  exists picked js, choose_tests n s = Ok (map forget picked) /\ length picked = Z.to_nat n /\
    Forall2 (fun j t => nth_error s j = Some t) js picked /\ NoDup js.
Proof.
  intros n s Hn. destruct (choose_list n s (zseq 0 (Z.to_nat n)) Hn) as (p & E & L & js & F & D & _).
  - intros i I. apply in_zseq in I. lia.
  - apply NoDup_zseq.
  - exists p, js. rewrite length_zseq in L. auto.
Qed.
Lemma picked_incl : forall (s picked : list target) js, Forall2 (fun j t => nth_error s j = Some t) js picked -> incl picked s.
Proof.
  intros s picked js F t I. induction F; [destruct I|]. destruct I as [E|I]; [subst; eapply nth_error_In; eauto|auto].
Qed.
Lemma picked_NoDup : forall (s picked : list target) js, Forall2 (fun j t => nth_error s j = Some t) js picked -> NoDup js ->
  NoDup (map index s) -> NoDup (map index picked).
Proof.
  intros s picked js F D N. induction F as [|j t js p H F IH]; cbn; [constructor|]. inversion D; subst. constructor; [|auto].
  intros Q. apply in_map_iff in Q. destruct Q as (t' & E & I).
  assert (X : exists j', In j' js /\ nth_error s j' = Some t').
  { clear - F I. induction F; [destruct I|]. destruct I as [E|I]; [subst; eexists; split; [left; reflexivity|eauto]|].
    destruct (IHF I) as (j' & ? & ?). exists j'. split; [right; assumption|assumption]. }
  destruct X as (j' & Ij' & Ej'). apply H2. replace j with j'; [exact Ij'|].
  apply (proj1 (NoDup_nth_error (map index s)) N).
  - rewrite map_length. apply nth_error_Some. congruence.
  - rewrite !nth_error_map, Ej', H. cbn. congruence.
Qed.

(** ** Looking up *)
Lemma find_absent : forall k l i m, ~ In k (map index l) -> find k (offsets i l m) = find k m.
Proof.
  intros k l. induction l as [|t l IH]; intros i m H; cbn [offsets]; [reflexivity|]. rewrite IH.
  - cbn [find]. destruct (Z.eqb_spec (index t) k); [|reflexivity]. exfalso. apply H. left. assumption.
  - intros Q. apply H. right. exact Q.
Qed.
Lemma find_last : forall k l i m, In k (map index l) ->
  exists j t, find k (offsets i l m) = Some (i + Z.of_nat j) /\ nth_error l j = Some t /\ index t = k /\
    forall j' t', (j < j')%nat -> nth_error l j' = Some t' -> index t' <> k.
Proof.
  intros k l. induction l as [|t l IH]; intros i m H; [destruct H|]. cbn [offsets].
  destruct (in_dec Z.eq_dec k (map index l)) as [I|I].
  - destruct (IH (i + 1) ((index t, i) :: m) I) as (j & u & F & E & K & L). exists (S j), u.
    split; [rewrite F; f_equal; lia|]. split; [exact E|]. split; [exact K|]. intros [|j'] t' Q E'; [lia|]. apply (L j'); [lia|exact E'].
  - exists 0%nat, t. rewrite find_absent by exact I. cbn [find]. destruct H as [H|H]; [|contradiction].
    destruct (Z.eqb_spec (index t) k); [|contradiction]. split; [f_equal; lia|]. split; [reflexivity|]. split; [assumption|].
    intros [|j'] t' Q E'; [lia|]. cbn in E'. intros Ek. apply I. apply in_map_iff. exists t'. split; [exact Ek|eapply nth_error_In; eauto].
Qed.

Open Scope R_scope.
Lemma norm_sq : forall a b, norm (minus a b) = sq a b.
Proof. intros [a1 a2] [b1 b2]. unfold norm, minus, sq. cbn. ring. Qed.
Lemma norm_zero : forall a, norm a = sq a zero.
Proof. intros [a1 a2]. unfold norm, sq, zero. cbn. ring. Qed.
Lemma sq_nonneg : forall a b, 0 <= sq a b.
Proof. intros. unfold sq. pose proof (pow2_ge_0 (fst a - fst b)). pose proof (pow2_ge_0 (snd a - snd b)). lra. Qed.
Lemma sq_eq0 : forall a b, sq a b = 0 -> a = b.
Proof.
  intros [a1 a2] [b1 b2] H. unfold sq in H. cbn [fst snd] in H.
  pose proof (pow2_ge_0 (a1 - b1)). pose proof (pow2_ge_0 (a2 - b2)).
  assert (X : (a1 - b1) ^ 2 = 0) by lra. assert (Y : (a2 - b2) ^ 2 = 0) by lra.
  destruct (Req_dec (a1 - b1) 0) as [X0|X0]; [|exfalso; apply (pow_nonzero _ 2) in X0; contradiction].
  destruct (Req_dec (a2 - b2) 0) as [Y0|Y0]; [|exfalso; apply (pow_nonzero _ 2) in Y0; contradiction].
  f_equal; lra.
Qed.

Definition quotient (f : point -> cpx) (t : target) : R := sqrt (sq (phi t) (f (pos t)) / sq (f (pos t)) zero).
Definition exact_of (f : point -> cpx) (t : target) : target := mkT (pos t) (f (pos t)) (index t).

(** One step, if the index finds the target [t]. *)
Lemma compare_one_ok : forall s m num den mx e idx t, find (index e) m = Some idx -> nth_resZ s idx = Ok t -> phi e <> zero ->
  compare_one s m (num, den, mx) e =
  Ok (num + sq (phi t) (phi e), den + sq (phi e) zero, if Rlt_dec mx (sqrt (sq (phi t) (phi e) / sq (phi e) zero)) then sqrt (sq (phi t) (phi e) / sq (phi e) zero) else mx).
Proof.
  intros s m num den mx e idx t F N Z0. unfold compare_one. rewrite F, N. cbn [bind]. rewrite norm_sq, norm_zero. unfold div.
  destruct (Req_EM_T (sq (phi e) zero) 0) as [Q|Q]; [apply sq_eq0 in Q; contradiction|]. reflexivity.
Qed.

(** The loop, if the index of every test finds the target it was copied from. *)
Lemma compare_fold : forall s m f picked num den mx, 0 <= mx ->
  (forall t, In t picked -> exists idx, find (index t) m = Some idx /\ nth_resZ s idx = Ok t) ->
  (forall t, In t picked -> f (pos t) <> zero) ->
  exists mx', foldM (compare_one s m) (map (exact_of f) picked) (num, den, mx) =
    Ok (num + total (fun t => sq (phi t) (f (pos t))) picked, den + total (fun t => sq (f (pos t)) zero) picked, mx') /\
    mx <= mx' /\ (forall t, In t picked -> quotient f t <= mx') /\ (mx' = mx \/ exists t, In t picked /\ mx' = quotient f t).
Proof.
  intros s m f picked. induction picked as [|t p IH]; intros num den mx H0 F Z0.
  - exists mx. cbn [map foldM total]. split; [rewrite !Rplus_0_r; reflexivity|]. split; [lra|]. split; [intros t []|auto].
  - destruct (F t (or_introl eq_refl)) as (idx & Fi & Ni).
    cbn [map foldM]. rewrite (compare_one_ok s m num den mx (exact_of f t) idx t); [|exact Fi|exact Ni|cbn; apply Z0; left; reflexivity].
    cbn [bind exact_of phi]. fold (quotient f t).
    assert (M : mx <= (if Rlt_dec mx (quotient f t) then quotient f t else mx) /\ quotient f t <= (if Rlt_dec mx (quotient f t) then quotient f t else mx)).
    { destruct (Rlt_dec mx (quotient f t)); lra. }
    destruct M as (M1 & M2).
    destruct (IH (num + sq (phi t) (f (pos t))) (den + sq (f (pos t)) zero) (if Rlt_dec mx (quotient f t) then quotient f t else mx)) as (mx' & E & A & B & C).
    + lra.
    + intros u I. apply F. right. exact I.
    + intros u I. apply Z0. right. exact I.
    + exists mx'. rewrite E. split; [cbn [total]; rewrite !Rplus_assoc; reflexivity|]. split; [lra|]. split.
      * intros u [I|I]; [subst; lra|apply B; exact I].
      * destruct C as [C|(u & I & C)]; [|right; exists u; split; [right; exact I|exact C]].
        destruct (Rlt_dec mx (quotient f t)); [right; exists t; split; [left; reflexivity|exact C]|left; exact C].
Qed.

Lemma total_perm : forall A (f : A -> R) a b, Permutation a b -> total f a = total f b.
Proof. intros A f a b P. induction P; cbn [total]; lra. Qed.
Lemma total_pos : forall A (f : A -> R) l, l <> [] -> (forall t, In t l -> 0 < f t) -> 0 < total f l.
Proof.
  intros A f l N H. destruct l as [|a l]; [contradiction|]. cbn [total].
  assert (G : forall l, (forall t, In t l -> 0 < f t) -> 0 <= total f l).
  { clear. induction l; cbn [total]; intros; [lra|]. pose proof (H a (or_introl eq_refl)). pose proof (IHl (fun t I => H t (or_intror I))). lra. }
  pose proof (H a (or_introl eq_refl)). pose proof (G l (fun t I => H t (or_intror I))). lra.
Qed.

(** Permutations of an image. *)
Lemma perm_map_inv : forall A B (g : A -> B) l e, Permutation e (map g l) -> exists l', e = map g l' /\ Permutation l' l.
Proof. intros A B g l e P. destruct (Permutation_map_inv g l P) as (l' & E & Q). exists l'. split; [exact E|apply Permutation_sym; exact Q]. Qed.

Lemma compare_ok : forall s f picked exacts, NoDup (map index s) -> incl picked s -> picked <> [] ->
  (forall t, In t picked -> f (pos t) <> zero) -> Permutation exacts (map (exact_of f) picked) ->
  exists mx, compare_results s exacts = Ok (sqrt (total (fun t => sq (phi t) (f (pos t))) picked / total (fun t => sq (f (pos t)) zero) picked), mx) /\
    largest (quotient f) picked mx.
Proof.
  intros s f picked exacts N I NE Z0 P.
  destruct (perm_map_inv _ _ _ _ _ P) as (p & E & Q). subst exacts.
  assert (In' : forall t, In t p -> In t picked) by (intros t T; eapply Permutation_in; eauto).
  destruct (compare_fold s (offsets 0 s []) f p 0 0 0) as (mx & F & A & B & C).
  - lra.
  - intros t T. assert (Ts : In t s) by (apply I, In', T).
    destruct (find_last (index t) s 0 []) as (j & u & Fj & Nj & K & _); [apply in_map; exact Ts|].
    exists (0 + Z.of_nat j)%Z. split; [exact Fj|]. apply nth_resZ_ok. split; [lia|].
    replace (Z.to_nat (0 + Z.of_nat j)) with j by lia. rewrite Nj. f_equal.
    apply In_nth_error in Ts. destruct Ts as (j' & Nj'). assert (j = j').
    { apply (proj1 (NoDup_nth_error (map index s)) N).
      - rewrite map_length. apply nth_error_Some. congruence.
      - rewrite !nth_error_map, Nj, Nj'. cbn. congruence. }
    subst. congruence.
  - intros t T. apply Z0, In', T.
  - exists mx. unfold compare_results. rewrite F. cbn [bind].
    rewrite (total_perm _ _ _ _ Q), (total_perm _ (fun t => sq (f (pos t)) zero) _ _ Q), !Rplus_0_l. unfold div.
    assert (D : 0 < total (fun t => sq (f (pos t)) zero) picked).
    { apply total_pos; [exact NE|]. intros t T. pose proof (sq_nonneg (f (pos t)) zero).
      destruct (Req_dec (sq (f (pos t)) zero) 0) as [Q0|Q0]; [|lra]. exfalso. apply (Z0 t T). apply sq_eq0. exact Q0. }
    destruct (Req_EM_T (total (fun t => sq (f (pos t)) zero) picked) 0); [lra|]. cbn [bind]. split; [reflexivity|].
    split; [exact A|]. split.
    + intros t T. apply B. eapply Permutation_in; [apply Permutation_sym; exact Q|exact T].
    + destruct C as [C|(t & T & C)]; [left; exact C|right; exists t; split; [apply In'; exact T|exact C]].
Qed.
Close Scope R_scope.

(** ** The records after the evaluation *)
Lemma same_indices : forall a b, same_records a b -> Permutation (map index a) (map index b).
Proof.
  intros a b P. unfold same_records in P. apply (Permutation_map snd) in P. rewrite !map_map in P. exact P.
Qed.
Lemma same_length : forall a b, same_records a b -> length a = length b.
Proof. intros a b P. apply same_indices, Permutation_length in P. rewrite !map_length in P. exact P. Qed.

Lemma test_count_range : forall c, 1 <= c -> test_count 0 c = Z.min 400 c.
Proof. intros c H. unfold test_count. cbn. rewrite Z.gtb_ltb. destruct (Z.ltb_spec c 400); lia. Qed.

(** ** Positions and charges *)
Open Scope R_scope.
Lemma around_dist : forall r u v, unit_draw u -> dist2 (around r u v) = r ^ 2.
Proof.
  intros r u v [U0 U1]. unfold around, dist2. set (c := 2 * u - 1). set (p := 2 * decimal_pi * v).
  assert (C : 0 <= 1 - c * c) by (unfold c; nra). pose proof (sqrt_sqrt _ C) as S. pose proof (sin2_cos2 p) as T. unfold Rsqr in T.
  set (w := sqrt (1 - c * c)) in *. replace ((r * w * cos p) ^ 2 + (r * w * sin p) ^ 2 + (r * c) ^ 2) with (r ^ 2 * (w * w * (sin p * sin p + cos p * cos p) + c * c)) by ring.
  rewrite T, S. ring.
Qed.
Lemma plummer_power : forall u, 0 < u -> u ^ 2 * Rpower u (-2 / 3) ^ 3 = 1.
Proof.
  intros u H. rewrite <- (Rpower_pow 3 (Rpower u (-2 / 3))) by apply exp_pos. rewrite Rpower_mult.
  rewrite <- (Rpower_pow 2 u) by exact H. rewrite <- Rpower_plus. replace (INR 2 + -2 / 3 * INR 3) with 0 by (cbn; lra). apply Rpower_O. exact H.
Qed.
Lemma plummer_gt1 : forall u, 0 < u < 1 -> 1 < Rpower u (-2 / 3).
Proof.
  intros u [H0 H1]. unfold Rpower. rewrite <- exp_0. apply exp_increasing.
  assert (ln u < 0) by (rewrite <- ln_1; apply ln_increasing; lra). nra.
Qed.
Lemma plummer_ok : forall u, unit_draw u -> u <> 1 -> exists r, plummer_radius u = Ok r /\ 0 <= r /\ (r ^ 2) ^ 3 = u ^ 2 * (1 + r ^ 2) ^ 3.
Proof.
  intros u [H0 H1] N. unfold plummer_radius. destruct (Req_EM_T u 0) as [E|E].
  - exists 0. split; [reflexivity|]. split; [lra|]. subst. ring.
  - assert (U : 0 < u < 1) by lra. pose proof (plummer_gt1 u U) as G. pose proof (plummer_power u (proj1 U)) as P. set (X := Rpower u (-2 / 3)) in *.
    assert (S : 0 < sqrt (X - 1)) by (apply sqrt_lt_R0; lra). unfold div. destruct (Req_EM_T (sqrt (X - 1)) 0); [lra|].
    exists (1 / sqrt (X - 1)). split; [reflexivity|]. split; [apply Rlt_le, Rdiv_lt_0_compat; lra|].
    assert (R2 : (1 / sqrt (X - 1)) ^ 2 = / (X - 1)).
    { pose proof (sqrt_sqrt (X - 1) ltac:(lra)) as Q. replace ((1 / sqrt (X - 1)) ^ 2) with (/ (sqrt (X - 1) * sqrt (X - 1))) by (field; lra). rewrite Q. reflexivity. }
    rewrite R2. replace (1 + / (X - 1)) with (X * / (X - 1)) by (field; lra). 
    replace (u ^ 2 * (X * / (X - 1)) ^ 3) with (u ^ 2 * X ^ 3 * (/ (X - 1)) ^ 3) by ring. rewrite P. ring.
Qed.
Lemma plummer_one : plummer_radius 1 = Fail DivZero.
Proof.
  unfold plummer_radius, div. destruct (Req_EM_T 1 0); [lra|]. unfold Rpower. rewrite ln_1, Rmult_0_r, exp_0. replace (1 - 1) with 0 by ring. rewrite sqrt_0.
  destruct (Req_EM_T 0 0); [reflexivity|lra].
Qed.
Lemma charge_range : forall neg u odd, unit_draw u -> (1 <= pick_charge neg u odd <= 2) \/ (neg = true /\ -2 <= pick_charge neg u odd <= -1).
Proof. intros neg u odd [H0 H1]. unfold pick_charge. destruct neg, odd; cbn [andb]; [right|left|left|left]; lra. Qed.

Lemma mapM_total : forall (g : draws -> res source) q ds, (forall d, In d ds -> forall s, g d = Ok s -> charge s = q) ->
  forall l, mapM g ds = Ok l -> total charge l = INR (length ds) * q.
Proof.
  intros g q ds. induction ds as [|d ds IH]; intros H l E; cbn [mapM] in E.
  - injection E as <-. cbn. ring.
  - destruct (g d) as [s|] eqn:G; [|discriminate]. cbn [bind] in E. destruct (mapM g ds) as [r|] eqn:M; [|discriminate]. cbn [bind] in E. injection E as <-.
    cbn [total]. rewrite (IH (fun d I => H d (or_intror I)) r eq_refl), (H d (or_introl eq_refl) s G).
    change (length (d :: ds)) with (S (length ds)). rewrite S_INR. ring.
Qed.
Lemma plummer_mass : forall method ds l, ds <> [] -> set_sources "plummer" method ds = Ok l -> total charge l = 100.
Proof.
  intros method ds l N E. unfold set_sources in E.
  assert (P : INR (length ds) <> 0) by (apply not_0_INR; destruct ds; [contradiction|discriminate]).
  rewrite (mapM_total (set_source (Z.of_nat (length ds)) "plummer" method) (100 / INR (length ds)) ds); [field; exact P| |exact E].
  intros d _ s H. unfold set_source in H. cbn [String.eqb Ascii.eqb Bool.eqb] in H.
  destruct (pick_plummer_position (d1 d) (d2 d) (d3 d)) as [p|]; [|discriminate]. cbn [bind] in H.
  unfold pick_plummer_charge, div in H. rewrite <- INR_IZR_INZ in H. destruct (Req_EM_T (INR (length ds)) 0); [contradiction|]. cbn [bind] in H.
  injection H as <-. reflexivity.
Qed.
Lemma good_picked : forall method u odd, unit_draw u -> good_charge method (pick_charge (negb (method =? "bh")%string) u odd).
Proof.
  intros method u odd H. destruct (charge_range (negb (method =? "bh")%string) u odd H) as [Q|(N & Q)]; [left; exact Q|right].
  split; [|exact Q]. intros E. subst. discriminate N.
Qed.
Close Scope R_scope.

(** ** The command line *)
(** What the loop over the options leaves. *)
Lemma options_set : forall l a b, read_options a l = Some b ->
  ~ In OHelp l /\ ~ In OUnknown l /\
  source_count b = setting nsources (source_count a) l /\ source_type b = setting sourcedata (source_type a) l /\
  target_count b = setting ntargets (target_count a) l /\ target_type b = setting targetdata (target_type a) l /\
  refinement_limit b = setting threshold (refinement_limit a) l /\ method b = setting methodname (method a) l /\
  kernel b = setting kernelname (kernel a) l /\ accuracy b = setting digits (accuracy a) l /\
  forall v, verify a = (v =? "yes")%string -> verify b = (setting verifying v l =? "yes")%string.
Proof.
  induction l as [|o l IH]; intros a b H; cbn [read_options] in H.
  - injection H as <-. cbn. repeat split; auto.
  - destruct (read_option a o) as [c|] eqn:E; [|discriminate]. destruct (IH c b H) as (H0 & H1 & I1 & I2 & I3 & I4 & I5 & I6 & I7 & I8 & I9).
    destruct a as [sc st tc gt rl m k v ac]. cbn [source_count source_type target_count target_type refinement_limit method kernel accuracy verify].
    destruct o; cbn [read_option] in E; try discriminate E; injection E as <-;
      cbn [source_count source_type target_count target_type refinement_limit method kernel accuracy verify] in *;
      cbn [setting nsources ntargets sourcedata targetdata threshold methodname kernelname verifying digits In];
      (repeat split; auto; try (intros [Q|Q]; [discriminate Q|auto])).
Qed.
Lemma options_stop : forall l a, In OHelp l \/ In OUnknown l -> read_options a l = None.
Proof.
  intros l a H. destruct (read_options a l) as [b|] eqn:E; [|reflexivity]. destruct (options_set l a b E) as (A & B & _). tauto.
Qed.
Lemma options_go : forall l a, ~ In OHelp l -> ~ In OUnknown l -> exists b, read_options a l = Some b.
Proof.
  induction l as [|o l IH]; intros a H U; cbn [read_options]; [eauto|].
  destruct (read_option a o) as [c|] eqn:E.
  - apply IH; [intros Q; apply H; right; exact Q|intros Q; apply U; right; exact Q].
  - exfalso. destruct a. destruct o; cbn in E; try discriminate E; [apply H|apply U]; left; reflexivity.
Qed.
Lemma one_of_three : forall x a b c : string, negb (x =? a)%string && negb (x =? b)%string && negb (x =? c)%string = false -> In x [a; b; c].
Proof.
  intros x a b c H. cbn [In]. destruct (String.eqb_spec x a); [subst; auto|]. destruct (String.eqb_spec x b); [subst; auto|].
  destruct (String.eqb_spec x c); [subst; auto|]. discriminate H.
Qed.
Lemma accepted_facts : forall ranks rank l a, read_arguments ranks rank l = Some a ->
  1 <= setting nsources 10000 l /\ 1 <= setting ntargets 10000 l /\
  In (method a) ["bh"; "fmm"; "fmm97"]%string /\ In (source_type a) ["cube"; "sphere"; "plummer"]%string /\ In (target_type a) ["cube"; "sphere"; "plummer"]%string /\
  (In (kernel a) ["yukawa"; "helmholtz"]%string -> method a = "fmm97"%string) /\
  (In (kernel a) ["laplace"; "yukawa"; "helmholtz"]%string -> method a = "fmm97"%string -> accuracy a = 3 \/ accuracy a = 6).
Proof.
  intros ranks rank l a H. unfold read_arguments in H.
  destruct (read_options defaults l) as [b|] eqn:RO; [|discriminate]. destruct (accepted b) eqn:A; [|discriminate]. injection H as H. subst a.
  destruct (options_set l defaults b RO) as (_ & _ & NS & _ & NT & _). cbn [source_count target_count defaults] in NS, NT. rewrite <- NS, <- NT. clear NS NT RO.
  cbn [source_count target_count method source_type target_type kernel accuracy]. unfold accepted in A.
  destruct (Z.ltb_spec (source_count b) 1); [discriminate|]. destruct (Z.ltb_spec (target_count b) 1); [discriminate|].
  destruct (negb (method b =? "bh")%string && negb (method b =? "fmm")%string && negb (method b =? "fmm97")%string) eqn:M; [discriminate|].
  destruct (negb (source_type b =? "cube")%string && negb (source_type b =? "sphere")%string && negb (source_type b =? "plummer")%string) eqn:S; [discriminate|].
  destruct (negb (target_type b =? "cube")%string && negb (target_type b =? "sphere")%string && negb (target_type b =? "plummer")%string) eqn:T; [discriminate|].
  split; [assumption|]. split; [assumption|]. split; [apply one_of_three; exact M|]. split; [apply one_of_three; exact S|]. split; [apply one_of_three; exact T|].
  clear M S T. split.
  - intros K. destruct (String.eqb_spec (method b) "fmm97") as [|N]; [assumption|exfalso]. cbn [In] in K.
    destruct K as [K|[K|[]]]; rewrite <- K in A; cbn in A; discriminate A.
  - intros K N. rewrite N in A. destruct (Z.eqb_spec (accuracy b) 3); [auto|]. destruct (Z.eqb_spec (accuracy b) 6); [auto|]. exfalso.
    cbn [In] in K. destruct K as [K|[K|[K|[]]]]; rewrite <- K in A; cbn in A; discriminate A.
Qed.
Lemma arguments_evaluators : forall ranks rank l a, read_arguments ranks rank l = Some a -> In (kernel a) ["laplace"; "yukawa"; "helmholtz"]%string ->
  exists e d, fast a = Some e /\ slow a = Some d /\ asked (kernel a) (method a) e /\ interaction_of e = interaction_of d /\ summation d = true.
Proof.
  intros ranks rank l a H K. destruct (accepted_facts _ _ _ _ H) as (_ & _ & M & _ & _ & F & _). unfold fast, slow.
  cbn [In] in K, M, F. destruct K as [K|[K|[K|[]]]].
  - rewrite <- K. destruct M as [M|[M|[M|[]]]]; rewrite <- M; cbn; eexists; eexists; repeat split; cbn; auto.
  - rewrite F by auto. rewrite <- K. cbn. eexists; eexists; repeat split; cbn; auto.
  - rewrite F by auto. rewrite <- K. cbn. eexists; eexists; repeat split; cbn; auto.
Qed.
Lemma accepted_if : forall a, 1 <= source_count a -> 1 <= target_count a -> In (method a) ["bh"; "fmm"; "fmm97"]%string ->
  In (source_type a) ["cube"; "sphere"; "plummer"]%string -> In (target_type a) ["cube"; "sphere"; "plummer"]%string ->
  (In (kernel a) ["yukawa"; "helmholtz"]%string -> method a = "fmm97"%string) ->
  (In (kernel a) ["laplace"; "yukawa"; "helmholtz"]%string -> method a = "fmm97"%string -> accuracy a = 3 \/ accuracy a = 6) -> accepted a = true.
Proof.
  intros a C1 C2 C3 C4 C5 C6 C7. unfold accepted.
  assert (T : forall x u v w : string, In x [u; v; w] -> negb (x =? u)%string && negb (x =? v)%string && negb (x =? w)%string = false).
  { intros x u v w [Q|[Q|[Q|[]]]]; subst; rewrite String.eqb_refl; cbn; [reflexivity|apply andb_false_iff; left; apply andb_false_r|apply andb_false_r]. }
  destruct (Z.ltb_spec (source_count a) 1); [lia|]. destruct (Z.ltb_spec (target_count a) 1); [lia|].
  rewrite (T _ _ _ _ C3), (T _ _ _ _ C4), (T _ _ _ _ C5). clear C3 C4 C5.
  assert (D : In (kernel a) ["laplace"; "yukawa"; "helmholtz"]%string -> method a = "fmm97"%string -> (accuracy a =? 3) || (accuracy a =? 6) = true).
  { intros K M. destruct (C7 K M) as [Q|Q]; rewrite Q; reflexivity. }
  destruct (String.eqb_spec (kernel a) "laplace") as [K|K].
  - destruct (String.eqb_spec (method a) "fmm97") as [M|M]; [rewrite D by (cbn; auto)|]; rewrite K; cbn; reflexivity.
  - destruct (String.eqb_spec (kernel a) "yukawa") as [K1|K1].
    + assert (M : method a = "fmm97"%string) by (apply C6; cbn; auto). rewrite D by (cbn; auto). rewrite M, K1. cbn. reflexivity.
    + destruct (String.eqb_spec (kernel a) "helmholtz") as [K2|K2]; [|reflexivity].
      assert (M : method a = "fmm97"%string) by (apply C6; cbn; auto). rewrite D by (cbn; auto). rewrite M. cbn. reflexivity.
Qed.
