From Coq Require Import ZArith List Bool Lia Permutation.
From Verif Require Import Base ListFacts ArrayRefModel ReduceModel ReduceSpec.
Import ListNotations.
Open Scope Z_scope.

Lemma zip_res_spec : forall f g lhs rhs, length lhs = length rhs ->
  (forall i, (i < length lhs)%nat -> f (nth i lhs 0) (nth i rhs 0) = Ok (g (nth i lhs 0) (nth i rhs 0))) ->
  exists v, zip_res f lhs rhs = Ok v /\ length v = length lhs /\ (forall i, (i < length lhs)%nat -> nth i v 0 = g (nth i lhs 0) (nth i rhs 0)).
Proof.
  induction lhs as [|a lhs IH]; intros [|b rhs] L H; try discriminate; cbn [zip_res].
  - exists []. repeat split. intros i Hi. cbn in Hi. lia.
  - cbn [length] in *. pose proof (H O ltac:(lia)) as H0. cbn [nth] in H0. rewrite H0. cbn [bind].
    destruct (IH rhs) as (v & E & L' & N); [lia|intros i Hi; apply (H (S i)); lia|].
    rewrite E. cbn [bind]. exists (g a b :: v). split; [reflexivity|]. split; [cbn [length]; lia|].
    intros [|i] Hi; [reflexivity|]. cbn [nth]. apply N. lia.
Qed.

Lemma col_sum_app : forall i a b, col_sum i (a ++ b) = col_sum i a + col_sum i b.
Proof. intros. unfold col_sum, column. induction a; cbn [app map fold_right]; lia. Qed.

Lemma col_sum_perm : forall i a b, Permutation a b -> col_sum i a = col_sum i b.
Proof. intros i a b H. unfold col_sum, column. induction H; cbn [map fold_right]; lia. Qed.

Lemma col_max_perm : forall lo i a b, Permutation a b -> col_max lo i a = col_max lo i b.
Proof. intros lo i a b H. unfold col_max, column. induction H; cbn [map fold_right]; lia. Qed.

Lemma col_max_ge : forall lo i a, lo <= col_max lo i a.
Proof. intros. unfold col_max, column. induction a; cbn [map fold_right]; lia. Qed.

Lemma col_max_app : forall lo i a b, col_max lo i (a ++ b) = Z.max (col_max lo i a) (col_max lo i b).
Proof.
  intros. pose proof (col_max_ge lo i b). induction a as [|x a IH]; cbn [app].
  - unfold col_max at 2. cbn. lia.
  - unfold col_max, column in *. cbn [map fold_right]. lia.
Qed.

Lemma col_sum_nonneg : forall i vs, (forall v, In v vs -> 0 <= nth i v 0) -> 0 <= col_sum i vs.
Proof.
  intros i vs H. unfold col_sum, column. induction vs as [|v vs IH]; cbn [map fold_right]; [lia|].
  specialize (IH (fun w Hw => H w (or_intror Hw))). specialize (H v (or_introl eq_refl)). lia.
Qed.

Lemma nth_repeat_lt : forall (c : Z) n i, (i < n)%nat -> nth i (repeat c n) 0 = c.
Proof. induction n; intros [|i] H; cbn; try lia; auto. apply IHn. lia. Qed.

Section One.
Variable n : nat.

Lemma reduce_int_sum : forall t,
  (forall v, In v (contribs t) -> length v = n) ->
  (forall v i, In v (contribs t) -> 0 <= nth i v 0) ->
  (forall i, (i < n)%nat -> col_sum i (contribs t) <= int_max) ->
  exists r, reduce int_sum_op (int_sum_ident n) t = Ok r /\ length r = n /\
    forall i, (i < n)%nat -> nth i r 0 = col_sum i (contribs t).
Proof.
  induction t as [v| |l IHl r IHr]; intros HL HN HB; cbn [reduce contribs] in *.
  - exists v. split; [reflexivity|]. split; [apply HL; left; reflexivity|]. intros i Hi. unfold col_sum, column. cbn. lia.
  - exists (int_sum_ident n). split; [reflexivity|]. split; [apply repeat_length|]. intros i Hi. unfold int_sum_ident. rewrite nth_repeat_lt by assumption. reflexivity.
  - assert (Hnl : forall i, 0 <= col_sum i (contribs l)) by (intros; apply col_sum_nonneg; intros v Hv; apply HN; apply in_or_app; left; assumption).
    assert (Hnr : forall i, 0 <= col_sum i (contribs r)) by (intros; apply col_sum_nonneg; intros v Hv; apply HN; apply in_or_app; right; assumption).
    destruct IHl as (a & Ea & La & Na).
    { intros. apply HL. apply in_or_app. left. assumption. }
    { intros. apply HN. apply in_or_app. left. assumption. }
    { intros i Hi. specialize (HB i Hi). rewrite col_sum_app in HB. specialize (Hnr i). lia. }
    destruct IHr as (b & Eb & Lb & Nb).
    { intros. apply HL. apply in_or_app. right. assumption. }
    { intros. apply HN. apply in_or_app. right. assumption. }
    { intros i Hi. specialize (HB i Hi). rewrite col_sum_app in HB. specialize (Hnl i). lia. }
    rewrite Ea, Eb. cbn [bind].
    destruct (zip_res_spec int_add Z.add a b) as (v & E & L & N); [congruence| |].
    { intros i Hi. rewrite La in Hi. rewrite Na, Nb by assumption. specialize (HB i Hi). rewrite col_sum_app in HB.
      specialize (Hnl i). specialize (Hnr i). unfold int_add, int_min in *.
      destruct (Z.leb_spec (- 2 ^ 31) (col_sum i (contribs l) + col_sum i (contribs r))); [|lia].
      destruct (Z.leb_spec (col_sum i (contribs l) + col_sum i (contribs r)) int_max); [reflexivity|lia]. }
    exists v. split; [exact E|]. split; [congruence|]. intros i Hi. rewrite N by congruence. rewrite Na, Nb, col_sum_app by assumption. reflexivity.
Qed.

Lemma reduce_size_sum : forall t,
  (forall v, In v (contribs t) -> length v = n) ->
  (forall v i, In v (contribs t) -> 0 <= nth i v 0 < 2 ^ 64) ->
  exists r, reduce size_sum_op (size_sum_ident n) t = Ok r /\ length r = n /\
    forall i, (i < n)%nat -> nth i r 0 = col_sum i (contribs t) mod 2 ^ 64.
Proof.
  induction t as [v| |l IHl r IHr]; intros HL HN; cbn [reduce contribs] in *.
  - exists v. split; [reflexivity|]. split; [apply HL; left; reflexivity|]. intros i Hi. unfold col_sum, column. cbn [map fold_right].
    rewrite Z.add_0_r, Z.mod_small; [reflexivity|]. apply HN. left. reflexivity.
  - exists (size_sum_ident n). split; [reflexivity|]. split; [apply repeat_length|]. intros i Hi. unfold size_sum_ident. rewrite nth_repeat_lt by assumption. reflexivity.
  - destruct IHl as (a & Ea & La & Na).
    { intros. apply HL. apply in_or_app. left. assumption. }
    { intros. apply HN. apply in_or_app. left. assumption. }
    destruct IHr as (b & Eb & Lb & Nb).
    { intros. apply HL. apply in_or_app. right. assumption. }
    { intros. apply HN. apply in_or_app. right. assumption. }
    rewrite Ea, Eb. cbn [bind].
    destruct (zip_res_spec (fun a b => Ok (u64 (a + b))) (fun a b => u64 (a + b)) a b) as (v & E & L & N); [congruence|reflexivity|].
    exists v. split; [exact E|]. split; [congruence|]. intros i Hi. rewrite N by congruence. rewrite Na, Nb, col_sum_app by assumption.
    unfold u64. rewrite <- Z.add_mod by lia. reflexivity.
Qed.

Lemma reduce_int_max : forall t,
  (forall v, In v (contribs t) -> length v = n) ->
  (forall v i, In v (contribs t) -> (i < n)%nat -> int_min <= nth i v 0) ->
  exists r, reduce int_max_op (int_max_ident n) t = Ok r /\ length r = n /\
    forall i, (i < n)%nat -> nth i r 0 = col_max int_min i (contribs t).
Proof.
  induction t as [v| |l IHl r IHr]; intros HL HN; cbn [reduce contribs] in *.
  - exists v. split; [reflexivity|]. split; [apply HL; left; reflexivity|]. intros i Hi. unfold col_max, column. cbn [map fold_right].
    specialize (HN v i (or_introl eq_refl) Hi). lia.
  - exists (int_max_ident n). split; [reflexivity|]. split; [apply repeat_length|]. intros i Hi. unfold int_max_ident. rewrite nth_repeat_lt by assumption. reflexivity.
  - destruct IHl as (a & Ea & La & Na).
    { intros. apply HL. apply in_or_app. left. assumption. }
    { intros v i Hv Hi. apply HN; [apply in_or_app; left|]; assumption. }
    destruct IHr as (b & Eb & Lb & Nb).
    { intros. apply HL. apply in_or_app. right. assumption. }
    { intros v i Hv Hi. apply HN; [apply in_or_app; right|]; assumption. }
    rewrite Ea, Eb. cbn [bind].
    destruct (zip_res_spec (fun a b => Ok (Z.max a b)) Z.max a b) as (v & E & L & N); [congruence|reflexivity|].
    exists v. split; [exact E|]. split; [congruence|]. intros i Hi. rewrite N by congruence. rewrite Na, Nb, col_max_app by assumption. reflexivity.
Qed.
End One.

Lemma col_max_zero_iff : forall vs, vs <> [] -> (forall v, In v vs -> 0 <= nth 0 v 0) ->
  (col_max int_min 0 vs = 0 <-> forall v, In v vs -> nth 0 v 0 = 0).
Proof.
  intros vs Hne H. unfold col_max, column. split.
  - intros E v Hv. assert (X : forall l, In v l -> nth 0 v 0 <= fold_right Z.max int_min (map (fun v => nth 0 v 0) l)).
    { induction l as [|w l IH]; intros Hin; [contradiction|]. cbn [map fold_right]. destruct Hin as [->|Hin]; [lia|]. specialize (IH Hin). lia. }
    specialize (X vs Hv). specialize (H v Hv). lia.
  - intros E. destruct vs as [|v vs]; [contradiction|]. cbn [map fold_right].
    assert (X : fold_right Z.max int_min (map (fun v => nth 0 v 0) vs) <= 0).
    { assert (E' : forall w, In w vs -> nth 0 w 0 = 0) by (intros; apply E; right; assumption). clear - E'.
      induction vs as [|w vs IH]; cbn [map fold_right]; [unfold int_min; lia|]. rewrite (E' w (or_introl eq_refl)).
      specialize (IH (fun u Hu => E' u (or_intror Hu))). lia. }
    rewrite (E v (or_introl eq_refl)). lia.
Qed.
