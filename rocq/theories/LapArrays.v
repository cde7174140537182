(** The arrays of the Laplace expansions: indices, loops, and what each array holds. *)
From Coq Require Import Reals List Lia Lra Psatz.
From Coquelicot Require Import Coquelicot.
From Verif Require Import Base ListFacts LegSpec LegProofs LegAdd LapModel.
Import ListNotations.
Open Scope R_scope.

Definition tri (n : nat) : nat := (n * (n + 1) / 2)%nat.
Lemma tri_S n : tri (S n) = (tri n + S n)%nat.
Proof. unfold tri. replace (S n * (S n + 1))%nat with (n * (n + 1) + S n * 2)%nat by lia. apply Nat.div_add. lia. Qed.
Lemma tri_mono a b : (a <= b)%nat -> (tri a <= tri b)%nat.
Proof. induction 1 as [|b H IH]; [lia|]. rewrite tri_S. lia. Qed.
Lemma midx_tri n m : midx n m = (tri n + m)%nat.
Proof. reflexivity. Qed.
Lemma size_tri p : ((p + 1) * (p + 2) / 2)%nat = tri (S p).
Proof. unfold tri. f_equal. lia. Qed.
Lemma size_tri2 p : ((p + 2) * (p + 3) / 2)%nat = tri (S (S p)).
Proof. unfold tri. f_equal. lia. Qed.
Lemma midx_lt n m p : (m <= n)%nat -> (n <= p)%nat -> (midx n m < tri (S p))%nat.
Proof. intros H K. rewrite midx_tri. pose proof (tri_mono (S n) (S p) ltac:(lia)). rewrite tri_S in H0. lia. Qed.
Lemma midx_inj n m n' m' : (m <= n)%nat -> (m' <= n')%nat -> midx n m = midx n' m' -> n = n' /\ m = m'.
Proof.
  rewrite !midx_tri. intros H H' E. destruct (Nat.lt_trichotomy n n') as [L|[->|L]]; [|lia|].
  - pose proof (tri_mono (S n) n' L) as T. rewrite tri_S in T. lia.
  - pose proof (tri_mono (S n') n L) as T. rewrite tri_S in T. lia.
Qed.
(** every index is one [midx n m] *)
Lemma midx_onto p k : (k < tri (S p))%nat -> exists n m, (m <= n <= p)%nat /\ k = midx n m.
Proof.
  induction p as [|p IH]; intros H.
  - exists 0%nat, 0%nat. change (tri 1) with 1%nat in H. change (midx 0 0) with 0%nat. lia.
  - destruct (Nat.lt_ge_cases k (tri (S p))) as [L|L].
    + destruct (IH L) as (n & m & B & E). exists n, m. split; [lia|exact E].
    + exists (S p), (k - tri (S p))%nat. rewrite tri_S in H. rewrite midx_tri. lia.
Qed.

(** a counted loop, by an invariant after [k] iterations *)
Lemma loop_ind T (f : T -> nat -> res T) (P : nat -> T -> Prop) a n s :
  P 0%nat s -> (forall k s, (k < n)%nat -> P k s -> exists s', f s (a + k)%nat = Ok s' /\ P (S k) s') ->
  exists s', foldM f (seq a n) s = Ok s' /\ P n s'.
Proof.
  intros H0 HS. destruct (foldM_ind nat T f P (seq a n) s H0) as (s' & E & H).
  - intros j i s1 Hj Hp. assert (Lj : (j < n)%nat) by (apply nth_error_bound in Hj; rewrite seq_length in Hj; exact Hj).
    rewrite nth_error_seq in Hj by exact Lj. injection Hj as <-. apply HS; assumption.
  - rewrite seq_length in H. eauto.
Qed.

Lemma rdiv_ok a b : b <> 0 -> rdiv a b = Ok (a / b).
Proof. intros H. unfold rdiv. destruct (Req_EM_T b 0); [contradiction|reflexivity]. Qed.
Lemma cdivr_ok u b : b <> 0 -> cdivr u b = Ok (fst u / b, snd u / b).
Proof. intros H. unfold cdivr. destruct (Req_EM_T b 0); [contradiction|reflexivity]. Qed.
Lemma nth_ok A (l : list A) i a : nth_error l i = Some a -> nth_res l i = Ok a.
Proof. intros H. apply nth_res_ok, H. Qed.

(** ** legendre_Plm *)
Section Plm.
Variables (n : nat) (x : R).
Hypothesis Hx : -1 <= x <= 1.
Let u := - sqrt (1 - x * x).
Definition Q (i m : nat) : R := u ^ m * D i m x.

Variable P0 : list R.
Definition sized (P : list R) : Prop := (tri (S n) <= length P)%nat /\ forall k, (tri (S n) <= k)%nat -> nth_error P k = nth_error P0 k.
Definition known (K : nat -> nat -> Prop) (P : list R) : Prop :=
  sized P /\ forall i m, (m <= i <= n)%nat -> K i m -> nth_error P (midx i m) = Some (Q i m).

Lemma known_set (K K' : nat -> nat -> Prop) P l m v : known K P -> (m <= l <= n)%nat -> v = Q l m ->
  (forall i j, (j <= i <= n)%nat -> K' i j -> K i j \/ (i = l /\ j = m)) -> set_res P (midx l m) v = Ok (upd P (midx l m) v) /\ known K' (upd P (midx l m) v) /\ length (upd P (midx l m) v) = length P.
Proof.
  intros [HL HK] Hm -> HK'. pose proof (midx_lt l m n ltac:(lia) ltac:(lia)) as B. pose proof (proj1 HL) as HL'. split; [apply set_res_ok; lia|]. split; [|apply upd_length].
  split; [split; [rewrite upd_length; exact HL'|intros k Hk; rewrite upd_other by lia; apply (proj2 HL), Hk]|]. intros i j Hij Kij. destruct (Nat.eq_dec (midx l m) (midx i j)) as [E|E].
  - destruct (midx_inj l m i j ltac:(lia) ltac:(lia) E) as [-> ->]. apply upd_same. lia.
  - rewrite upd_other by exact E. destruct (HK' i j Hij Kij) as [K1|[-> ->]]; [apply HK; assumption|contradiction].
Qed.

Lemma known_get K P i m : known K P -> (m <= i <= n)%nat -> K i m -> nth_res P (midx i m) = Ok (Q i m).
Proof. intros [_ H] B K1. apply nth_ok. apply H; assumption. Qed.

Lemma diag_ok P : known (fun i m => i = 0%nat) P -> exists P', plm_diag n u P = Ok P' /\ known (fun i m => i = m) P' /\ length P' = length P.
Proof.
  intros H. unfold plm_diag.
  destruct (loop_ind _ (fun P i => do v <- nth_res P (midx (i - 1) (i - 1)); set_res P (midx i i) (v * u * (2 * INR i - 1)))
    (fun k P' => known (fun i m => i = m /\ (i <= k)%nat) P' /\ length P' = length P) 1 n P) as (P' & E & K & L).
  - split; [|reflexivity]. destruct H as [HL H]. split; [exact HL|]. intros i m B [-> K]. apply H; lia.
  - intros k P1 Hk [K L]. replace (1 + k - 1)%nat with k by lia. rewrite (known_get _ _ k k K) by lia. cbn [bind]. change (1 + k)%nat with (S k).
    destruct (known_set _ (fun i m => i = m /\ (i <= S k)%nat) P1 (S k) (S k) (Q k k * u * (2 * INR (S k) - 1)) K) as (E & K' & L').
    + lia.
    + unfold Q. rewrite (D_diag k x), S_INR. simpl pow. ring.
    + intros i j B [-> C]. destruct (Nat.eq_dec j (S k)); [right; lia|left; lia].
    + eexists. split; [exact E|]. split; [exact K'|lia].
  - exists P'. split; [exact E|]. split; [|exact L]. destruct K as [HL' K]. split; [exact HL'|]. intros i m B ->. apply K; lia.
Qed.

Lemma sub_ok P : known (fun i m => i = m) P -> exists P', plm_sub n x P = Ok P' /\ known (fun i m => (i <= S m)%nat) P' /\ length P' = length P.
Proof.
  intros H. unfold plm_sub.
  destruct (loop_ind _ (fun P i => do v <- nth_res P (midx i i); set_res P (midx (i + 1) i) (v * x * (2 * INR i + 1)))
    (fun k P' => known (fun i m => i = m \/ (i = S m /\ (m < k)%nat)) P' /\ length P' = length P) 0 n P) as (P' & E & K & L).
  - split; [|reflexivity]. destruct H as [HL H]. split; [exact HL|]. intros i m B [->|[-> K]]; [apply H; lia|lia].
  - intros k P1 Hk [K L]. cbn [Nat.add]. rewrite (known_get _ _ k k K) by (try left; lia). cbn [bind]. rewrite Nat.add_1_r.
    destruct (known_set _ (fun i m => i = m \/ (i = S m /\ (m < S k)%nat)) P1 (S k) k (Q k k * x * (2 * INR k + 1)) K) as (E & K' & L').
    + lia.
    + unfold Q. rewrite (D_sub k x). ring.
    + intros i j B [->|[-> C]]; [left; left; reflexivity|]. destruct (Nat.eq_dec j k); [right; lia|left; right; lia].
    + eexists. split; [exact E|]. split; [exact K'|lia].
  - exists P'. split; [exact E|]. split; [|exact L]. destruct K as [HL' K]. split; [exact HL'|]. intros i m B C. apply K; lia.
Qed.

Lemma column_ok m P : (m <= n)%nat -> known (fun i j => (i <= S j)%nat \/ (j < m)%nat) P ->
  exists P', plm_column n m x P = Ok P' /\ known (fun i j => (i <= S j)%nat \/ (j < S m)%nat) P' /\ length P' = length P.
Proof.
  intros Hm H. unfold plm_column.
  match goal with |- context [foldM ?F _ _] => set (f := F) end.
  destruct (loop_ind _ f (fun k P' => known (fun i j => (i <= S j)%nat \/ (j < m)%nat \/ (j = m /\ (i < m + 2 + k)%nat)) P' /\ length P' = length P) (m + 2) (n - m - 1) P) as (P' & E & K & L).
  - split; [|reflexivity]. destruct H as [HL H]. split; [exact HL|]. intros i j B [C|[C|[-> C]]]; apply H; lia.
  - intros k P1 Hk [K L]. unfold f. replace (m + 2 + k - 1)%nat with (S (m + k)) by lia. replace (m + 2 + k - 2)%nat with (m + k)%nat by lia. replace (m + 2 + k)%nat with (S (S (m + k))) by lia.
    rewrite (known_get _ _ (S (m + k)) m K), (known_get _ _ (m + k) m K) by lia. cbn [bind].
    assert (Dm : INR (S (S (m + k))) - INR m = INR k + 2) by (rewrite !S_INR, plus_INR; ring). pose proof (pos_INR k). pose proof (pos_INR m).
    rewrite rdiv_ok by lra. cbn [bind].
    match goal with |- context [set_res P1 _ ?V] => destruct (known_set _ (fun i j => (i <= S j)%nat \/ (j < m)%nat \/ (j = m /\ (i < m + 2 + S k)%nat)) P1 (S (S (m + k))) m V K) as (E & K' & L') end.
    + lia.
    + rewrite Dm. unfold Q. pose proof (D_rec (m + k) m x) as R. rewrite !S_INR, plus_INR in *.
      apply Rmult_eq_reg_l with (INR k + 2); [|lra].
      replace ((INR k + 2) * (((2 * (INR m + INR k + 1 + 1) - 1) * x * (u ^ m * D (S (m + k)) m x) - (INR m + INR k + 1 + 1 + INR m - 1) * (u ^ m * D (m + k) m x)) / (INR k + 2)))
        with (u ^ m * ((2 * (INR m + INR k) + 3) * x * D (S (m + k)) m x - (INR m + INR k + 1 + INR m) * D (m + k) m x)) by (field; lra).
      rewrite R. ring.
    + intros i j B [C|[C|[-> C]]]; [left; lia|left; lia|]. destruct (Nat.eq_dec i (S (S (m + k)))); [right; lia|left; lia].
    + eexists. split; [exact E|]. split; [exact K'|lia].
  - exists P'. split; [exact E|]. split; [|exact L]. destruct K as [HL' K]. split; [exact HL'|]. intros i j B C. apply K; lia.
Qed.

Lemma plm_frame P : sized P -> exists P', legendre_Plm n x P = Ok P' /\ length P' = length P /\ sized P' /\
  forall i m, (m <= i <= n)%nat -> nth_error P' (midx i m) = Some (Q i m).
Proof.
  intros HL. unfold legendre_Plm, rsqrt. destruct (Rlt_dec (1 - x * x) 0) as [C|C]; [nra|]. cbn [bind]. change (- sqrt (1 - x * x)) with u.
  assert (K0 : known (fun _ _ => False) P) by (split; [exact HL|tauto]).
  destruct (known_set _ (fun i m => i = 0%nat) P 0 0 1 K0) as (E & K1 & L1); [lia| |intros i j B ->; right; lia|].
  { unfold Q. rewrite D_0_0. simpl. ring. }
  rewrite E. cbn [bind]. destruct (diag_ok _ K1) as (P2 & E2 & K2 & L2). rewrite E2. cbn [bind]. destruct (sub_ok _ K2) as (P3 & E3 & K3 & L3). rewrite E3. cbn [bind].
  destruct (loop_ind _ (fun P m => plm_column n m x P) (fun k P' => known (fun i j => (i <= S j)%nat \/ (j < k)%nat) P' /\ length P' = length P) 0 (S n) P3) as (P' & E' & K' & L').
  - split; [|lia]. destruct K3 as [A B]. split; [exact A|]. intros i m H [C'|C']; [apply B; assumption|lia].
  - intros k P4 Hk [K L]. cbn [Nat.add]. destruct (column_ok k P4 ltac:(lia) K) as (P5 & E5 & K5 & L5). exists P5. split; [exact E5|]. split; [exact K5|lia].
  - exists P'. split; [exact E'|]. split; [exact L'|]. split; [apply K'|]. intros i m B. apply K'; lia.
Qed.
End Plm.

Lemma plm_ok n x : -1 <= x <= 1 -> forall P, (tri (S n) <= length P)%nat -> exists P', legendre_Plm n x P = Ok P' /\ length P' = length P /\
  forall i m, (m <= i <= n)%nat -> nth_error P' (midx i m) = Some (Q x i m).
Proof.
  intros Hx P HL. destruct (plm_frame n x Hx P P) as (P' & E & L & _ & H); [split; [exact HL|reflexivity]|]. eauto.
Qed.

Lemma Q_assoc x i m : Q x i m = assoc_legendre i m x.
Proof.
  unfold Q, assoc_legendre. rewrite D_derive_n. f_equal. rewrite <- Rpow_mult_distr. f_equal. ring.
Qed.

(** ** generate_sqf *)
Lemma sqrt_fact i : sqrt (INR (fact (S i))) = sqrt (INR (fact i)) * sqrt (INR (S i)).
Proof. rewrite fact_S_INR, <- S_INR, sqrt_mult by (try apply pos_INR). ring. Qed.

Lemma sqf_ok p : exists a, generate_sqf p = Ok a /\ length a = (2 * p + 3)%nat /\ forall i, (i < 2 * p + 3)%nat -> nth_error a i = Some (sqrt (INR (fact i))).
Proof.
  unfold generate_sqf. rewrite set_res_ok by (rewrite repeat_length; lia). cbn [bind].
  match goal with |- context [foldM ?F _ ?s] => destruct (loop_ind _ F (fun k a => length a = (2 * p + 3)%nat /\ forall i, (i <= k)%nat -> nth_error a i = Some (sqrt (INR (fact i)))) 1 (2 * p + 2) s) as (a & E & L & H) end.
  - split; [rewrite upd_length, repeat_length; reflexivity|]. intros i Hi. replace i with 0%nat by lia. rewrite upd_same by (rewrite repeat_length; lia). simpl. rewrite sqrt_1. reflexivity.
  - intros k s Hk [L H]. replace (1 + k - 1)%nat with k by lia. rewrite (nth_ok _ _ _ _ (H k ltac:(lia))). cbn [bind]. rewrite set_res_ok by lia. eexists. split; [reflexivity|].
    split; [rewrite upd_length; exact L|]. intros i Hi. change (1 + k)%nat with (S k). destruct (Nat.eq_dec i (S k)) as [->|Ne].
    + rewrite upd_same by lia. rewrite sqrt_fact. reflexivity.
    + rewrite upd_other by lia. apply H. lia.
  - exists a. split; [exact E|]. split; [exact L|]. intros i Hi. apply H. lia.
Qed.

(** ** fill *)
Lemma fill_ok A (f : A -> res A) (g : nat -> A) n a : (n < length a)%nat -> nth_error a 0 = Some (g 0%nat) ->
  (forall j, (j < n)%nat -> f (g j) = Ok (g (S j))) ->
  exists a', fill f n a = Ok a' /\ forall j, (j <= n)%nat -> nth_error a' j = Some (g j).
Proof.
  intros L H0 HS. unfold fill.
  match goal with |- context [foldM ?F _ ?s] => destruct (loop_ind _ F (fun k a' => length a' = length a /\ forall i, (i <= k)%nat -> nth_error a' i = Some (g i)) 1 n s) as (a' & E & L' & H) end.
  - split; [reflexivity|]. intros i Hi. replace i with 0%nat by lia. exact H0.
  - intros k s Hk [L' H]. replace (1 + k - 1)%nat with k by lia. rewrite (nth_ok _ _ _ _ (H k ltac:(lia))). cbn [bind]. rewrite HS by exact Hk. cbn [bind]. rewrite set_res_ok by lia. eexists. split; [reflexivity|].
    split; [rewrite upd_length; exact L'|]. intros i Hi. change (1 + k)%nat with (S k). destruct (Nat.eq_dec i (S k)) as [->|Ne]; [apply upd_same; lia|]. rewrite upd_other by lia. apply H. lia.
  - exists a'. split; [exact E|]. intros j Hj. apply H, Hj.
Qed.

Fixpoint cpow (e : cplx) (m : nat) : cplx := match m with O => (1, 0) | S k => cmul (cpow e k) e end.

(** ** add_terms *)
Definition term (q : R) (pr : nat -> R) (pe : nat -> cplx) (leg : nat -> nat -> R) (n m : nat) : cplx :=
  cscale (pe m) (q * pr n * leg n m * (sqrt (INR (fact (n - m))) / sqrt (INR (fact (n + m))))).

Definition coefs (p : nat) (c : nat -> nat -> cplx) (M : list cplx) : Prop :=
  length M = tri (S p) /\ forall n m, (m <= n <= p)%nat -> nth_error M (midx n m) = Some (c n m).

Lemma coefs_unique p c M M' : coefs p c M -> coefs p c M' -> M = M'.
Proof.
  intros [L H] [L' H']. apply list_ext; [lia|]. intros i Hi. rewrite L in Hi. destruct (midx_onto p i Hi) as (n & m & B & ->). rewrite H, H' by exact B. reflexivity.
Qed.

Lemma coefs_set p (c : nat -> nat -> cplx) (P : nat -> nat -> bool) (g : nat -> nat -> cplx) M n m v :
  coefs p (fun i j => if P i j then g i j else c i j) M -> (m <= n <= p)%nat -> v = g n m ->
  set_res M (midx n m) v = Ok (upd M (midx n m) v) /\
  coefs p (fun i j => if (P i j || (Nat.eqb i n && Nat.eqb j m))%bool then g i j else c i j) (upd M (midx n m) v).
Proof.
  intros [L H] B ->. pose proof (midx_lt n m p ltac:(lia) ltac:(lia)) as Bm. split; [apply set_res_ok; lia|]. split; [rewrite upd_length; exact L|].
  intros i j Bij. destruct (Nat.eq_dec (midx n m) (midx i j)) as [E|E].
  - destruct (midx_inj n m i j ltac:(lia) ltac:(lia) E) as [-> ->]. rewrite upd_same by lia. rewrite !Nat.eqb_refl. rewrite Bool.orb_true_r. reflexivity.
  - rewrite upd_other by exact E. rewrite H by exact Bij. replace (Nat.eqb i n && Nat.eqb j m)%bool with false; [rewrite Bool.orb_false_r; reflexivity|].
    symmetry. apply Bool.andb_false_iff. destruct (Nat.eqb_spec i n) as [->|]; [|left; reflexivity]. destruct (Nat.eqb_spec j m) as [->|]; [contradiction|right; reflexivity].
Qed.

Lemma coefs_ext p c c' M : (forall n m, (m <= n <= p)%nat -> c n m = c' n m) -> coefs p c M -> coefs p c' M.
Proof. intros E [L H]. split; [exact L|]. intros n m B. rewrite H, E by exact B. reflexivity. Qed.

Lemma sqrt_fact_pos i : 0 < sqrt (INR (fact i)).
Proof. apply sqrt_lt_R0, INR_fact_lt_0. Qed.

Lemma add_terms_ok p sqf q pr pe leg fr fe fl c M : 
  (forall i, (i <= 2 * p)%nat -> nth_error sqf i = Some (sqrt (INR (fact i)))) ->
  (forall j, (j <= p)%nat -> nth_error pr j = Some (fr j)) -> (forall j, (j <= p)%nat -> nth_error pe j = Some (fe j)) ->
  (forall i m, (m <= i <= p)%nat -> nth_error leg (midx i m) = Some (fl i m)) -> coefs p c M ->
  exists M', add_terms p sqf q pr pe leg M = Ok M' /\ coefs p (fun n m => cadd (c n m) (term q fr fe fl n m)) M'.
Proof.
  intros Hs Hr He Hl HM. unfold add_terms. set (g := fun n m => cadd (c n m) (term q fr fe fl n m)).
  match goal with |- context [foldM ?F _ M] => destruct (loop_ind _ F (fun k M' => coefs p (fun i j => if (i <? k)%nat then g i j else c i j) M') 0 (S p) M) as (M' & E & H) end.
  - exact HM.
  - intros n M1 Hn H1. cbn [Nat.add]. 
    match goal with |- context [foldM ?F _ M1] => destruct (loop_ind _ F (fun k M' => coefs p (fun i j => if ((i <? n) || ((i =? n) && (j <? k)))%nat%bool then g i j else c i j) M') 0 (S n) M1) as (M2 & E2 & H2) end.
    + apply (coefs_ext p (fun i j => if (i <? n)%nat then g i j else c i j)); [|exact H1]. intros i j B. replace (j <? 0)%nat with false by reflexivity. rewrite Bool.andb_false_r, Bool.orb_false_r. reflexivity.
    + intros m M2 Hm H2. cbn [Nat.add]. rewrite (nth_ok _ _ _ _ (Hr n ltac:(lia))), (nth_ok _ _ _ _ (He m ltac:(lia))), (nth_ok _ _ _ _ (Hl n m ltac:(lia))), (nth_ok _ _ _ _ (Hs (n - m)%nat ltac:(lia))), (nth_ok _ _ _ _ (Hs (n + m)%nat ltac:(lia))). cbn [bind].
      pose proof (sqrt_fact_pos (n + m)). rewrite cdivr_ok by lra. cbn [bind].
      pose proof (proj2 H2 n m ltac:(lia)) as Hold. cbn beta in Hold. rewrite Nat.ltb_irrefl, Nat.eqb_refl, Nat.ltb_irrefl in Hold. cbn [orb andb] in Hold. rewrite (nth_ok _ _ _ _ Hold). cbn [bind].
      match goal with |- context [set_res M2 _ ?V] => destruct (coefs_set p c _ g M2 n m V H2) as [E3 H3] end.
      * lia.
      * unfold g, term, cadd, cscale. cbn [fst snd]. f_equal; field; lra.
      * eexists. split; [exact E3|]. apply (coefs_ext p _ _ _) with (2 := H3). intros i j B. cbn beta.
        replace ((i <? n)%nat || (i =? n)%nat && (j <? S m)%nat)%bool with (((i <? n)%nat || (i =? n)%nat && (j <? m)%nat) || (i =? n)%nat && (j =? m)%nat)%bool; [reflexivity|].
        rewrite <- Bool.orb_assoc, <- Bool.andb_orb_distrib_r. f_equal. f_equal. destruct (Nat.ltb_spec j m), (Nat.eqb_spec j m), (Nat.ltb_spec j (S m)); cbn; try reflexivity; lia.
    + exists M2. split; [exact E2|]. apply (coefs_ext p _ _ _) with (2 := H2). intros i j B. cbn beta.
      replace ((i <? n)%nat || (i =? n)%nat && (j <? S n)%nat)%bool with (i <? S n)%nat; [reflexivity|].
      destruct (Nat.ltb_spec i n), (Nat.eqb_spec i n), (Nat.ltb_spec i (S n)), (Nat.ltb_spec j (S n)); cbn; try reflexivity; lia.
  - exists M'. split; [exact E|]. apply (coefs_ext p _ _ _) with (2 := H). intros i j B. cbn beta. destruct (Nat.ltb_spec i (S p)); [reflexivity|lia].
Qed.
