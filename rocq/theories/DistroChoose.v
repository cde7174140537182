(** The choice of the heaviest rank, and the loops that make it. *)
From Coq Require Import ZArith List Bool Arith Lia Permutation Sorted.
From Verif Require Import Base ListFacts DagModel LinkModel DistroModel DistroSpec.
Import ListNotations.
Open Scope Z_scope.

Section Choose.
Context (n : nat) (weight : edge -> Z).
Hypothesis Hn : (0 < n)%nat.

Lemma nth_okZ : forall (b : list Z) i, 0 <= i < Z.of_nat (length b) -> nth_resZ b i = Ok (nth (Z.to_nat i) b 0).
Proof.
  intros b i H. unfold nth_resZ, nth_res. destruct (i <? 0) eqn:E; [lia|]. rewrite (nth_error_nth' b 0) by lia. reflexivity.
Qed.
Lemma set_ok : forall (b : list Z) k v, (k < length b)%nat ->
  exists b', set_res b k v = Ok b' /\ length b' = length b /\ forall j, nth j b' 0 = if (j =? k)%nat then v else nth j b 0.
Proof.
  induction b as [|x b IH]; intros k v H; [cbn in H; lia|]. destruct k as [|k]; cbn [set_res].
  - eexists; split; [reflexivity|]. split; [reflexivity|]. intros [|j]; reflexivity.
  - destruct (IH k v) as (b' & -> & L & N); [cbn in H; lia|]. cbn [bind]. eexists; split; [reflexivity|]. split; [cbn; lia|]. intros [|j]; [reflexivity|]. cbn. apply N.
Qed.

Lemma set_okZ : forall (b : list Z) k v, 0 <= k < Z.of_nat (length b) -> set_resZ b k v = set_res b (Z.to_nat k) v.
Proof. intros b k v H. unfold set_resZ. destruct (k <? 0) eqn:E; [lia|reflexivity]. Qed.

(** The loop over the out-edges. *)
Lemma bins_spec : forall s es b, length b = n -> (forall e, In e es -> in_range n (loc s (eto e))) ->
  exists b', foldM (fun b e =>
    let l := loc s (eto e) in
    do _ <- assert_ ((0 <=? l) && (l <? Z.of_nat n))%Z;
    do v <- nth_resZ b l;
    set_resZ b l (v + weight e)%Z) es b = Ok b' /\ length b' = n /\
  forall r, in_range n r -> nth (Z.to_nat r) b' 0 = nth (Z.to_nat r) b 0 + weight_to (loc s) weight es r.
Proof.
  intros s. induction es as [|e es IH]; intros b L H; cbn [foldM].
  - exists b. split; [reflexivity|]. split; [assumption|]. intros r _. cbn. lia.
  - pose proof (H e (or_introl eq_refl)) as R. unfold in_range in R. cbv zeta.
    replace ((0 <=? loc s (eto e)) && (loc s (eto e) <? Z.of_nat n)) with true by (symmetry; apply andb_true_iff; split; [apply Z.leb_le|apply Z.ltb_lt]; lia).
    cbn [assert_ bind]. rewrite nth_okZ by lia. cbn [bind]. rewrite set_okZ by lia.
    destruct (set_ok b (Z.to_nat (loc s (eto e))) (nth (Z.to_nat (loc s (eto e))) b 0 + weight e)) as (b1 & -> & L1 & N1); [lia|]. cbn [bind].
    destruct (IH b1) as (b' & Eb & L' & N'); [lia|intros; apply H; right; assumption|]. cbv zeta in Eb. rewrite Eb. exists b'. split; [reflexivity|]. split; [assumption|].
    intros r Hr. rewrite N', N1 by assumption. cbn [weight_to fold_right]. fold (weight_to (loc s) weight es r). unfold in_range in Hr.
    destruct (Nat.eqb_spec (Z.to_nat r) (Z.to_nat (loc s (eto e)))) as [Q|Q]; destruct (Z.eqb_spec (loc s (eto e)) r) as [Q'|Q']; try lia. rewrite Q. lia.
Qed.

(** The loop over the bins. *)
Definition best_upto (b : list Z) (k v r : Z) : Prop :=
  0 <= r < k /\ v = nth (Z.to_nat r) b 0 /\ forall r', 0 <= r' < k -> nth (Z.to_nat r') b 0 <= v /\ (r' < r -> nth (Z.to_nat r') b 0 < v).
Lemma arg_max_spec : forall b, length b = n -> exists r, arg_max n b = Ok r /\ in_range n r /\
  forall r', in_range n r' -> nth (Z.to_nat r') b 0 <= nth (Z.to_nat r) b 0 /\ (r' < r -> nth (Z.to_nat r') b 0 < nth (Z.to_nat r) b 0).
Proof.
  intros b L. unfold arg_max. rewrite nth_okZ by lia. cbn [bind].
  assert (G : forall k a v r, best_upto b (Z.of_nat a) v r -> (a + k <= n)%nat ->
    exists v' r', foldM (fun '(maxval, maxidx) i => do v <- nth_resZ b i; Ok (if (maxval <? v)%Z then (v, i) else (maxval, maxidx))) (zseq (Z.of_nat a) k) (v, r) = Ok (v', r') /\ best_upto b (Z.of_nat (a + k)) v' r').
  { induction k as [|k IH]; intros a v r B H.
    - exists v, r. rewrite Nat.add_0_r. split; [reflexivity|assumption].
    - unfold zseq. cbn [seq map foldM]. rewrite Z.add_0_r. rewrite nth_okZ by lia. cbn [bind].
      replace (map (fun k0 : nat => Z.of_nat a + Z.of_nat k0) (seq 1 k)) with (zseq (Z.of_nat (Datatypes.S a)) k).
      2: { unfold zseq. rewrite <- seq_shift, map_map. apply map_ext. intros; lia. }
      replace (a + Datatypes.S k)%nat with (Datatypes.S a + k)%nat by lia.
      destruct B as (Hr & Hv & Hb).
      destruct (v <? nth (Z.to_nat (Z.of_nat a)) b 0) eqn:E; apply IH; try lia; (split; [lia|]; split; [auto|]); intros r' Hr'; (destruct (Z.eq_dec r' (Z.of_nat a)) as [->|Q]; [split; intros; lia|]).
      + destruct (Hb r' ltac:(lia)). split; intros; lia.
      + apply Hb. lia. }
  destruct (G (n - 1)%nat 1%nat (nth (Z.to_nat 0) b 0) 0) as (v & r & E & B).
  { split; [lia|]. split; [reflexivity|]. intros r' Hr'. assert (r' = 0) by lia. subst. split; [lia|]. intros; lia. }
  { lia. }
  change (Z.of_nat 1) with 1 in E. rewrite E. cbn [bind snd]. exists r. split; [reflexivity|]. destruct B as (Hr & -> & Hb).
  split; [unfold in_range; lia|]. intros r' Hr'. apply Hb. unfold in_range in Hr'. lia.
Qed.

Context (outs : dnode -> list edge).
Lemma compute_spec : forall s x, loc s x < 0 -> (forall e, In e (outs x) -> in_range n (loc s (eto e))) ->
  exists r, compute_locality n outs weight s x = Ok (mkMarks (upd dnode_dec (loc s) x r) (col s)) /\ heaviest n (loc s) weight (outs x) r.
Proof.
  intros s x Hx He. unfold compute_locality. destruct (0 <=? loc s x) eqn:E; [lia|].
  destruct (bins_spec s (outs x) (repeat 0 n)) as (b & Eb & L & N); [apply repeat_length|assumption|].
  change (bins n outs weight s x = Ok b) in Eb. rewrite Eb. cbn [bind].
  destruct (arg_max_spec b L) as (r & -> & Hr & Hm). cbn [bind]. exists r. split; [reflexivity|]. split; [assumption|].
  assert (Z0 : forall k, nth k (repeat 0 n) 0 = 0) by (intros k; destruct (Nat.lt_ge_cases k n); [apply nth_repeat|apply nth_overflow; rewrite repeat_length; assumption]).
  intros r' Hr'. destruct (Hm r' Hr') as [M1 M2]. rewrite !N, !Z0, !Z.add_0_l in M1, M2 by assumption. auto.
Qed.

Lemma weight_ext : forall L L' es r, (forall e, In e es -> L (eto e) = L' (eto e)) -> weight_to L weight es r = weight_to L' weight es r.
Proof.
  intros L L' es r H. induction es as [|e es IH]; [reflexivity|]. cbn. rewrite (H e (or_introl eq_refl)). f_equal. apply IH. intros; apply H; right; assumption.
Qed.
Lemma heaviest_ext : forall L L' es r, (forall e, In e es -> L (eto e) = L' (eto e)) -> heaviest n L weight es r -> heaviest n L' weight es r.
Proof.
  intros L L' es r H [R M]. split; [assumption|]. intros r' Hr'. rewrite <- !(weight_ext L L' es) by assumption. auto.
Qed.

(** The loop over the nodes: every node finds its destinations placed. *)
Lemma loop_spec : forall l s,
  (forall l1 x l2, l = l1 ++ x :: l2 -> loc s x < 0 -> forall e, In e (outs x) -> in_range n (loc s (eto e)) \/ In (eto e) l1) ->
  (forall x, In x l -> 0 <= loc s x -> in_range n (loc s x)) ->
  exists s', foldM (compute_locality n outs weight) l s = Ok s' /\ col s' = col s /\
    (forall x, 0 <= loc s x -> loc s' x = loc s x) /\ (forall x, ~ In x l -> loc s' x = loc s x) /\
    (forall x, In x l -> in_range n (loc s' x)) /\
    (forall x, In x l -> loc s x < 0 -> heaviest n (loc s') weight (outs x) (loc s' x)).
Proof.
  induction l as [|x l IH]; intros s Hp Hr; cbn [foldM].
  - exists s. split; [reflexivity|]. split; [reflexivity|]. split; [auto|]. split; [auto|]. split; intros x [].
  - destruct (Z_lt_le_dec (loc s x) 0) as [Hx|Hx].
    + assert (He : forall e, In e (outs x) -> in_range n (loc s (eto e))).
      { intros e Ie. destruct (Hp [] x l eq_refl Hx e Ie) as [H|[]]. exact H. }
      destruct (compute_spec s x Hx He) as (r & -> & Hh). cbn [bind]. set (s1 := mkMarks (upd dnode_dec (loc s) x r) (col s)).
      assert (L1 : forall y, loc s1 y = if dnode_dec y x then r else loc s y) by reflexivity.
      assert (Rr : in_range n r) by apply Hh.
      destruct (IH s1) as (s' & E & C & K1 & K2 & K3 & K4).
      * intros l1 y l2 -> Hy e Ie. rewrite L1 in Hy. destruct (dnode_dec y x) as [|Ny]; [unfold in_range in Rr; lia|].
        rewrite L1. destruct (dnode_dec (eto e) x) as [Q|Q]; [left; assumption|].
        destruct (Hp (x :: l1) y l2 eq_refl Hy e Ie) as [H|[H|H]]; [left; assumption|congruence|right; assumption].
      * intros y Iy Hy. rewrite L1 in *. destruct (dnode_dec y x); [assumption|]. apply Hr; [right; assumption|assumption].
      * exists s'. split; [exact E|]. split; [exact C|]. split; [|split; [|split]].
        -- intros y Hy. rewrite K1; rewrite L1; destruct (dnode_dec y x) as [->|]; try reflexivity; lia.
        -- intros y Ny. destruct (dnode_dec y x) as [->|Q]; [exfalso; apply Ny; left; reflexivity|].
           rewrite K2 by (intros I; apply Ny; right; assumption). rewrite L1. destruct (dnode_dec y x); [contradiction|reflexivity].
        -- intros y [<-|Iy]; [|apply K3; assumption]. assert (X : loc s' x = r) by (rewrite K1; rewrite L1; destruct (dnode_dec x x); [reflexivity|contradiction|unfold in_range in Rr; lia|contradiction]). rewrite X. exact Rr.
        -- intros y Iy Hy. destruct (dnode_dec y x) as [->|Q].
           ++ assert (X : loc s' x = r) by (rewrite K1; rewrite L1; destruct (dnode_dec x x); [reflexivity|contradiction|unfold in_range in Rr; lia|contradiction]). rewrite X.
              apply (heaviest_ext (loc s)); [|exact Hh]. intros e Ie. specialize (He e Ie). unfold in_range in He.
              assert (Ne : eto e <> x) by (intros Q; rewrite Q in He; lia).
              rewrite K1; rewrite L1; destruct (dnode_dec (eto e) x); try contradiction; try reflexivity; lia.
           ++ destruct Iy as [|Iy]; [congruence|]. apply K4; [assumption|]. rewrite L1. destruct (dnode_dec y x); [contradiction|assumption].
    + replace (compute_locality n outs weight s x) with (@Ok marks s) by (unfold compute_locality; destruct (0 <=? loc s x) eqn:E; [reflexivity|lia]). cbn [bind].
      destruct (IH s) as (s' & Es & C & K1 & K2 & K3 & K4).
      * intros l1 y l2 -> Hy e Ie. destruct (Hp (x :: l1) y l2 eq_refl Hy e Ie) as [H|[H|H]]; [left; assumption| |right; assumption].
        left. rewrite <- H. apply Hr; [left; reflexivity|assumption].
      * intros y Iy. apply Hr. right; assumption.
      * exists s'. split; [exact Es|]. split; [exact C|]. split; [exact K1|]. split; [|split].
        -- intros y Ny. apply K2. intros I. apply Ny. right; assumption.
        -- intros y [<-|Iy]; [|apply K3; assumption]. rewrite K1 by assumption. apply Hr; [left; reflexivity|assumption].
        -- intros y [<-|Iy] Hy; [lia|]. apply K4; assumption.
Qed.
End Choose.

Lemma sorted_before : forall (c : dnode -> Z) l x y, StronglySorted (fun a b => c b <= c a) l -> In y l -> c x < c y ->
  forall l1 l2, l = l1 ++ x :: l2 -> In y l1.
Proof.
  intros c l x y S I C l1 l2 ->. apply in_app_or in I. destruct I as [I|I]; [assumption|]. exfalso.
  assert (F : StronglySorted (fun a b => c b <= c a) (x :: l2)).
  { clear I C. induction l1 as [|z l1 IH]; [assumption|]. cbn in S. inversion S; subst. auto. }
  inversion F as [|? ? _ Fa]; subst. destruct I as [->|I]; [lia|]. rewrite Forall_forall in Fa. specialize (Fa y I). cbn in Fa. lia.
Qed.

Lemma foldM_filter : forall (f : marks -> dnode -> res marks) (p : dnode -> bool) l s,
  foldM (fun s x => if p x then f s x else Ok s) l s = foldM f (filter p l) s.
Proof.
  intros f p. induction l as [|x l IH]; intros s; [reflexivity|]. cbn [foldM filter]. destruct (p x); cbn [foldM].
  - destruct (f s x); [cbn [bind]; apply IH|reflexivity].
  - cbn [bind]. apply IH.
Qed.
