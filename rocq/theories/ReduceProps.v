(** C44: reduction operators are order independent. *)
From Coq Require Import ZArith List Bool Lia Permutation.
From Verif Require Import Base ListFacts ArrayRefModel ReduceModel ReduceSpec ReduceProofs.
Import ListNotations.
Open Scope Z_scope.

Lemma cols_eq : forall n (a b : list Z), length a = n -> length b = n -> (forall i, (i < n)%nat -> nth i a 0 = nth i b 0) -> a = b.
Proof. intros n a b La Lb H. apply (nth_ext a b 0 0); [congruence|]. intros i Hi. apply H. congruence. Qed.

(** Counts (non-negative [int]s whose total fits in [int]): every grouping,
    with identities anywhere, gives the column sums without overflow. *)
Theorem C44_int_sum : forall n t,
  (forall v, In v (contribs t) -> length v = n) ->
  (forall v i, In v (contribs t) -> 0 <= nth i v 0) ->
  (forall i, (i < n)%nat -> col_sum i (contribs t) <= int_max) ->
  exists r, reduce int_sum_op (int_sum_ident n) t = Ok r /\ length r = n /\
    forall i, (i < n)%nat -> nth i r 0 = col_sum i (contribs t).
Proof. exact reduce_int_sum. Qed.
Print Assumptions C44_int_sum.

(** [size_t] sums, wrap-around included. *)
Theorem C44_size_sum : forall n t,
  (forall v, In v (contribs t) -> length v = n) ->
  (forall v i, In v (contribs t) -> 0 <= nth i v 0 < 2 ^ 64) ->
  exists r, reduce size_sum_op (size_sum_ident n) t = Ok r /\ length r = n /\
    forall i, (i < n)%nat -> nth i r 0 = col_sum i (contribs t) mod 2 ^ 64.
Proof. exact reduce_size_sum. Qed.
Print Assumptions C44_size_sum.

Theorem C44_int_max : forall n t,
  (forall v, In v (contribs t) -> length v = n) ->
  (forall v i, In v (contribs t) -> (i < n)%nat -> int_min <= nth i v 0) ->
  exists r, reduce int_max_op (int_max_ident n) t = Ok r /\ length r = n /\
    forall i, (i < n)%nat -> nth i r 0 = col_max int_min i (contribs t).
Proof. exact reduce_int_max. Qed.
Print Assumptions C44_int_max.

(** Any two ways of combining the same contributions, in any order and with
    identities mixed in, agree. *)
Theorem C44_order_independent : forall n t1 t2, Permutation (contribs t1) (contribs t2) ->
  (forall v, In v (contribs t1) -> length v = n) ->
  ((forall v i, In v (contribs t1) -> 0 <= nth i v 0) -> (forall i, (i < n)%nat -> col_sum i (contribs t1) <= int_max) ->
     reduce int_sum_op (int_sum_ident n) t1 = reduce int_sum_op (int_sum_ident n) t2) /\
  ((forall v i, In v (contribs t1) -> 0 <= nth i v 0 < 2 ^ 64) ->
     reduce size_sum_op (size_sum_ident n) t1 = reduce size_sum_op (size_sum_ident n) t2) /\
  ((forall v i, In v (contribs t1) -> (i < n)%nat -> int_min <= nth i v 0) ->
     reduce int_max_op (int_max_ident n) t1 = reduce int_max_op (int_max_ident n) t2).
Proof.
  intros n t1 t2 HP HL.
  assert (HI : forall v, In v (contribs t2) -> In v (contribs t1)) by (intros v Hv; eapply Permutation_in; [symmetry; exact HP|exact Hv]).
  split; [|split].
  - intros H1 H2. destruct (reduce_int_sum n t1) as (r1 & E1 & L1 & N1); auto.
    destruct (reduce_int_sum n t2) as (r2 & E2 & L2 & N2); auto.
    { intros i Hi. rewrite <- (col_sum_perm i _ _ HP). auto. }
    rewrite E1, E2. f_equal. apply (cols_eq n); auto. intros i Hi. rewrite N1, N2 by assumption. apply col_sum_perm. assumption.
  - intros H1. destruct (reduce_size_sum n t1) as (r1 & E1 & L1 & N1); auto.
    destruct (reduce_size_sum n t2) as (r2 & E2 & L2 & N2); auto.
    rewrite E1, E2. f_equal. apply (cols_eq n); auto. intros i Hi. rewrite N1, N2 by assumption. rewrite (col_sum_perm i _ _ HP). reflexivity.
  - intros H1. destruct (reduce_int_max n t1) as (r1 & E1 & L1 & N1); auto.
    destruct (reduce_int_max n t2) as (r2 & E2 & L2 & N2); auto.
    rewrite E1, E2. f_equal. apply (cols_eq n); auto. intros i Hi. rewrite N1, N2 by assumption. apply col_max_perm. assumption.
Qed.
Print Assumptions C44_order_independent.

(** Return codes (0 is kSuccess, types.h:38-46, all others positive): the
    reduced code is kSuccess iff every contribution is. *)
Theorem C44_return_code : forall t, contribs t <> [] ->
  (forall v, In v (contribs t) -> length v = 1%nat /\ 0 <= nth 0 v 0) ->
  exists c, reduce int_max_op (int_max_ident 1) t = Ok [c] /\
    (c = 0 <-> forall v, In v (contribs t) -> v = [0]).
Proof.
  intros t Hne H. destruct (reduce_int_max 1 t) as (r & E & L & N).
  { intros v Hv. apply H. assumption. }
  { intros v i Hv Hi. replace i with O by lia. destruct (H v Hv). unfold int_min. lia. }
  destruct r as [|c [|? ?]]; try discriminate. exists c. split; [exact E|].
  specialize (N O ltac:(lia)). cbn [nth] in N. rewrite N, col_max_zero_iff; [|assumption|intros v Hv; apply H; assumption].
  split; intros A v Hv; specialize (A v Hv); destruct (H v Hv) as [Lv _].
  - destruct v as [|x [|? ?]]; try discriminate. cbn in A. subst. reflexivity.
  - subst v. reflexivity.
Qed.
Print Assumptions C44_return_code.

(** Mixed signs: for [int] sums with negative contributions the order matters,
    since a partial sum may overflow although the total fits. *)
Theorem C44_int_sum_mixed_signs_refuted :
  exists t1 t2, Permutation (contribs t1) (contribs t2) /\ reduce int_sum_op (int_sum_ident 1) t1 = Ok [int_max] /\
    reduce int_sum_op (int_sum_ident 1) t2 = Fail Overflow.
Proof.
  exists (RNode (RNode (RLeaf [int_max]) (RLeaf [-1])) (RLeaf [1])), (RNode (RNode (RLeaf [int_max]) (RLeaf [1])) (RLeaf [-1])).
  split; [|split; reflexivity]. cbn. apply perm_skip. apply perm_swap.
Qed.
Print Assumptions C44_int_sum_mixed_signs_refuted.

Example C44_nonvacuous :
  reduce int_sum_op (int_sum_ident 2) (RNode (RNode (RLeaf [1;2]) RIdent) (RNode (RLeaf [3;4]) (RLeaf [10;20]))) = Ok [14; 26] /\
  reduce size_sum_op (size_sum_ident 1) (RNode (RLeaf [2 ^ 64 - 1]) (RLeaf [3])) = Ok [2] /\
  reduce int_max_op (int_max_ident 1) (RNode RIdent (RNode (RLeaf [0]) (RLeaf [3]))) = Ok [3].
Proof. repeat split. Qed.
