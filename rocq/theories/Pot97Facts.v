(** The values of the nodes with intermediate expansions, and their sums. *)
From Coq Require Import Reals ZArith List Bool Arith Lia Lra.
From Verif Require Import Base ListFacts IndexModel LapModel LapArrays TranModel WaveModel PotModel EvalSpec PotFacts Pot97Model.
Import ListNotations.
Open Scope R_scope.

Lemma vadd_nil a : vadd a [] = a.
Proof. destruct a; reflexivity. Qed.
Lemma vadd_comm a : forall b, vadd a b = vadd b a.
Proof. induction a as [|x a IH]; intros [|y b]; cbn [vadd]; try reflexivity. rewrite padd_comm, IH. reflexivity. Qed.
Lemma vadd_assoc a : forall b c, vadd a (vadd b c) = vadd (vadd a b) c.
Proof. induction a as [|x a IH]; intros [|y b] [|z c]; cbn [vadd]; try reflexivity. rewrite padd_assoc, IH. reflexivity. Qed.
Definition empty (v : value) : bool := match v with Array [] => true | _ => false end.
Lemma empty_zero v : empty v = true -> v = value_zero.
Proof. destruct v as [|[|]|]; try discriminate. reflexivity. Qed.
Lemma add97_pv u a : add97 (Plain u) (Views a) = if empty u then Views a else Plain Broken.
Proof. destruct u as [|[|]|]; reflexivity. Qed.
Lemma add97_vp u a : add97 (Views a) (Plain u) = if empty u then Views a else Plain Broken.
Proof. destruct u as [|[|]|]; reflexivity. Qed.
Lemma empty_add u v : empty (value_add u v) = empty u && empty v.
Proof. destruct u as [|[|]|], v as [|[|]|]; reflexivity. Qed.
Lemma add97_pp u v : add97 (Plain u) (Plain v) = Plain (value_add u v).
Proof. destruct u as [|[|]|]; reflexivity. Qed.
Lemma add97_vv a b : add97 (Views a) (Views b) = Views (vadd a b).
Proof. reflexivity. Qed.
Lemma broken_add u : value_add Broken u = Broken.
Proof. destruct u as [|[|]|]; reflexivity. Qed.
Lemma add_broken u : value_add u Broken = Broken.
Proof. destruct u as [|[|]|]; reflexivity. Qed.
Lemma monoid97 : monoid zero97 add97.
Proof.
  destruct value_monoid as (C & A & Z). split; [|split].
  - intros [u|a] [v|b]; rewrite ?add97_pv, ?add97_vp, ?add97_pp, ?add97_vv; try reflexivity; [rewrite C|rewrite vadd_comm]; reflexivity.
  - assert (B : empty Broken = false) by reflexivity.
    intros [u|a] [v|b] [w|c]; try (destruct (empty u) eqn:Eu); try (destruct (empty v) eqn:Ev); try (destruct (empty w) eqn:Ew);
      repeat progress (rewrite ?add97_pv, ?add97_vp, ?add97_pp, ?add97_vv, ?empty_add, ?Eu, ?Ev, ?Ew, ?B, ?A, ?broken_add, ?add_broken, ?vadd_assoc; cbn [andb]); try reflexivity.
    all: try (apply empty_zero in Eu; subst); try (apply empty_zero in Ev; subst); try (apply empty_zero in Ew; subst); try reflexivity.
  - intros [v|b]; [unfold zero97; rewrite add97_pp, Z; reflexivity|reflexivity].
Qed.
Lemma sum_plain {X} (f : X -> value) l : sum zero97 add97 (map (fun x => Plain (f x)) l) = Plain (sum value_zero value_add (map f l)).
Proof. induction l as [|x l IH]; [reflexivity|]. cbn [map]. change (add97 (Plain (f x)) (sum zero97 add97 (map (fun x => Plain (f x)) l)) = Plain (value_add (f x) (sum value_zero value_add (map f l)))). rewrite IH. apply add97_pp. Qed.
Lemma zero_right u : add97 u zero97 = u.
Proof. destruct monoid97 as (C & _ & Z). rewrite C. apply Z. Qed.

(** ** the views *)
Definition shaped (n : nat) (V : list (list cplx)) : Prop := length V = 28%nat /\ forall i x, nth_error V i = Some x -> length x = n.
Definition new_ok (n : nat) (new : list (Z * list cplx)) : Prop := List.Forall (fun x => (0 <= fst x < 28)%Z /\ length (snd x) = n) new.
Lemma vadd_nth a : forall b i x y, length a = length b -> nth_error a i = Some x -> nth_error b i = Some y -> nth_error (vadd a b) i = Some (padd x y).
Proof. induction a as [|u a IH]; intros [|v b] [|i] x y L Hx Hy; try discriminate; cbn in *; [congruence|]. apply IH; auto. Qed.
Lemma vadd_length a : forall b, length a = length b -> length (vadd a b) = length a.
Proof. induction a as [|u a IH]; intros [|v b] L; try discriminate; [reflexivity|]. cbn in *. rewrite IH by lia. reflexivity. Qed.
Lemma padd_zeros n : forall a, length a = n -> padd (repeat (0, 0) n) a = a.
Proof. induction n as [|n IH]; intros [|x a] L; try discriminate; [reflexivity|]. cbn. rewrite IH by (cbn in L; lia). f_equal. destruct x. unfold cadd. cbn. f_equal; ring. Qed.
Lemma vadd_zeros n V : shaped n V -> vadd (repeat (repeat (0, 0) n) 28) V = V.
Proof.
  intros [L H]. rewrite <- L. clear L. induction V as [|x V IH]; [reflexivity|]. cbn [length repeat vadd]. rewrite (padd_zeros n x) by (apply (H 0%nat); reflexivity). f_equal. apply IH. intros i y E. apply (H (Datatypes.S i)). exact E.
Qed.
Lemma no_views_shaped n : shaped n (repeat (repeat (0, 0) n) 28).
Proof. split; [apply repeat_length|]. intros i x E. apply nth_error_In, repeat_spec in E. subst x. apply repeat_length. Qed.
Lemma nth_shaped n V i : shaped n V -> (0 <= i < 28)%Z -> exists x, nth_error V (Z.to_nat i) = Some x /\ nth_resZ V i = Ok x /\ length x = n.
Proof.
  intros [L H] Hi. destruct (nth_error V (Z.to_nat i)) as [x|] eqn:E; [|apply nth_error_None in E; lia]. exists x. split; [reflexivity|]. split; [|eapply H, E]. unfold nth_resZ, nth_res. destruct (Z.ltb_spec i 0); [lia|]. rewrite E. reflexivity.
Qed.
Lemma set_shaped n V i x : shaped n V -> (0 <= i < 28)%Z -> length x = n -> set_resZ V i x = Ok (upd V (Z.to_nat i) x) /\ shaped n (upd V (Z.to_nat i) x).
Proof.
  intros [L H] Hi Lx. split; [unfold set_resZ; destruct (Z.ltb_spec i 0); [lia|]; apply set_res_ok; lia|]. split; [rewrite upd_length; exact L|]. intros j y E. destruct (Nat.eq_dec j (Z.to_nat i)) as [->|N].
  - rewrite upd_same in E by lia. injection E as <-. exact Lx.
  - rewrite upd_other in E by lia. eapply H, E.
Qed.
Lemma vadd_upd A : forall B i x y, length A = length B -> nth_error A i = Some x -> vadd A (upd B i y) = upd (vadd A B) i (padd x y).
Proof.
  induction A as [|a A IH]; intros [|b B] [|i] x y L E; try discriminate; cbn in *; [injection E as <-; reflexivity|]. rewrite (IH B i x y) by (auto; lia). reflexivity.
Qed.
(** Adding to views [A + B] is adding to [B] first. *)
Lemma add_views_later n new : new_ok n new -> forall A B, shaped n A -> shaped n B ->
  exists B', add_views B new = Ok B' /\ shaped n B' /\ add_views (vadd A B) new = Ok (vadd A B').
Proof.
  induction 1 as [|[t T] new [Ht HT] _ IH]; intros A B HA HB; [exists B; split; [reflexivity|]; split; [exact HB|reflexivity]|]. cbn [fst snd] in Ht, HT.
  destruct (nth_shaped n A t HA Ht) as (a & Ea & _ & La). destruct (nth_shaped n B t HB Ht) as (b & Eb & Eb' & Lb).
  assert (HAB : shaped n (vadd A B)) by (destruct HA as [L1 H1], HB as [L2 H2]; split; [rewrite vadd_length by lia; exact L1|]; intros i x E; destruct (nth_error A i) as [u|] eqn:Eu; [|apply nth_error_None in Eu; assert (X : nth_error (vadd A B) i <> None) by congruence; apply nth_error_Some in X; rewrite vadd_length in X by lia; lia];
    destruct (nth_error B i) as [w|] eqn:Ew; [|apply nth_error_None in Ew; assert (X : nth_error A i <> None) by congruence; apply nth_error_Some in X; lia]; rewrite (vadd_nth A B i u w) in E by (auto; lia); injection E as <-; rewrite padd_length; [eapply H2, Ew|]; transitivity n; [eapply H1, Eu|symmetry; eapply H2, Ew]).
  destruct (nth_shaped n _ t HAB Ht) as (c & Ec & Ec' & Lc). assert (Cc : c = padd a b) by (rewrite (vadd_nth A B _ a b) in Ec; [congruence| |exact Ea|exact Eb]; destruct HA, HB; lia).
  destruct (set_shaped n B t (padd b T) HB Ht) as [S1 H1]; [rewrite padd_length; lia|]. destruct (set_shaped n _ t (padd c T) HAB Ht) as [S2 _]; [rewrite padd_length; lia|].
  destruct (IH A _ HA H1) as (B' & E1 & HB' & E2). exists B'. unfold add_views in *. cbn [foldM]. cbn [fst snd]. rewrite Eb', Ec'. cbn [bind]. rewrite !add_padd by lia. cbn [bind]. rewrite S1, S2. cbn [bind]. split; [exact E1|]. split; [exact HB'|].
  rewrite <- E2. f_equal. rewrite (vadd_upd A B _ a _) by (auto; destruct HA, HB; lia). f_equal. rewrite Cc. symmetry. apply padd_assoc.
Qed.
