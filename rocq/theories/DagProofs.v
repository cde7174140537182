(** Generic facts about the construction of DAGs. *)
From Coq Require Import ZArith List Bool Arith Lia Permutation.
From Verif Require Import Base ListFacts IndexModel IndexSpec IndexProofs TreeModel TreeFacts LookupModel GeomModel DagModel DagSpec.
Import ListNotations.
Open Scope nat_scope.

(** ** Trees and children *)
Lemma kid_lt8 : forall X (t : tree X) w c, length (kids t) = 8 -> kid t w = Some c -> w < 8.
Proof. intros X t w c L K. unfold kid in K. destruct (nth_error (kids t) w) eqn:E; [|discriminate]. apply nth_error_bound in E. lia. Qed.

Lemma children_in : forall X (n : path * tree X) q c, In (q, c) (children n) <-> exists w, w < 8 /\ kid (snd n) w = Some c /\ q = fst n ++ [w].
Proof.
  intros X n q c. unfold children. rewrite in_flat_map. split.
  - intros (w & Hw & H). apply in_seq in Hw. destruct (kid (snd n) w) as [d|] eqn:K; [|destruct H]. destruct H as [E|[]]. inversion E; subst. exists w. repeat split; [lia|assumption].
  - intros (w & Hw & K & ->). exists w. split; [apply in_seq; lia|]. rewrite K. left. reflexivity.
Qed.

Lemma children_nodup : forall X (n : path * tree X), NoDup (map fst (children n)).
Proof.
  intros X n. unfold children. generalize (seq_NoDup 8 0). generalize (seq 0 8). intros l. induction l as [|w l IH]; intros H; [constructor|]. inversion H as [|? ? Hn Hd]; subst.
  cbn [flat_map]. destruct (kid (snd n) w) as [c|]; [|apply IH; assumption]. cbn [app map]. constructor; [|apply IH; assumption].
  intros I. apply in_map_iff in I. destruct I as ([q d] & E & I). cbn [fst] in E. apply in_flat_map in I. destruct I as (v & Hv & I). destruct (kid (snd n) v); [|destruct I]. destruct I as [I|[]]. inversion I; subst. apply app_inj_tail in H1. destruct H1 as [_ ->]. contradiction.
Qed.

Lemma n_children_0 : forall X (t : tree X), length (kids t) = 8 -> (n_children t = 0 <-> forall w, kid t w = None).
Proof.
  intros X t L. unfold n_children. split.
  - intros H w. destruct (kid t w) as [c|] eqn:K; [|reflexivity]. apply kid_in in K. apply length_zero_iff_nil in H. pose proof (proj1 (filter_none _ _ _) H _ K) as H'. discriminate H'.
  - intros H. apply length_zero_iff_nil. apply filter_none. intros [c|] I; [|reflexivity]. apply in_kid in I. destruct I as [w K]. rewrite H in K. discriminate.
Qed.

Lemma children_nil : forall X (n : path * tree X), length (kids (snd n)) = 8 -> (children n = [] <-> is_leaf (snd n) = true).
Proof.
  intros X n L. unfold is_leaf. rewrite Nat.eqb_eq, (n_children_0 _ _ L). split.
  - intros E w. destruct (kid (snd n) w) as [c|] eqn:K; [|reflexivity]. assert (I : In (fst n ++ [w], c) (children n)) by (apply children_in; exists w; split; [eapply kid_lt8; eassumption|auto]). rewrite E in I. destruct I.
  - intros H. destruct (children n) as [|[q c] l] eqn:E; [reflexivity|]. assert (I : In (q, c) (children n)) by (rewrite E; left; reflexivity). apply children_in in I. destruct I as (w & _ & K & _). rewrite H in K. discriminate.
Qed.

Lemma sub_snoc : forall X (t : tree X) p w, sub t (p ++ [w]) = match sub t p with Some n => kid n w | None => None end.
Proof. intros. rewrite sub_app. destruct (sub t p); [|reflexivity]. cbn. destruct (kid t0 w); reflexivity. Qed.

Lemma leaf_iff : forall X (t : tree X) p n, eight t -> sub t p = Some n -> (leaf_at t p <-> is_leaf n = true).
Proof.
  intros X t p n E S. unfold is_leaf. rewrite Nat.eqb_eq, (n_children_0 _ _ (E p n S)). unfold leaf_at. split; [intros (n' & S' & H); congruence|]. intros H. exists n. auto.
Qed.

Lemma lower_sub : forall X h (t : tree X) p n, lower h t -> sub t p = Some n -> forall p' n', sub n p' = Some n' -> length p + length p' < h.
Proof. intros X h t p n L S p' n' S'. rewrite <- app_length. apply (L _ n'). rewrite sub_app, S. assumption. Qed.

Lemma leaf_below : forall X h (t : tree X), lower h t -> exists r, leaf_at t r.
Proof.
  intros X h. induction h as [|h IH]; intros t L; [specialize (L [] t eq_refl); cbn in L; lia|].
  destruct (existsb (fun o => match o with Some _ => true | None => false end) (kids t)) eqn:Ex.
  - apply existsb_exists in Ex. destruct Ex as ([c|] & I & Ic); [|discriminate Ic]. apply in_kid in I. destruct I as [w K].
    destruct (IH c) as (r & n & S & F). { intros p n S. assert (X1 : sub t (w :: p) = Some n) by (cbn; rewrite K; assumption). specialize (L _ _ X1). cbn in L. lia. }
    exists (w :: r), n. cbn. rewrite K. auto.
  - exists [], t. split; [reflexivity|]. intros w. destruct (kid t w) as [c|] eqn:K; [|reflexivity]. apply kid_in in K.
    assert (existsb (fun o => match o with Some _ => true | None => false end) (kids t) = true) by (apply existsb_exists; exists (Some c); auto). congruence.
Qed.

(** ** Prefixes *)
Fixpoint prefixb (p q : path) : bool :=
  match p, q with
  | [], _ => true
  | a :: p', b :: q' => (a =? b) && prefixb p' q'
  | _ :: _, [] => false
  end.
Lemma prefixb_iff : forall p q, prefixb p q = true <-> prefix p q.
Proof.
  induction p as [|a p IH]; intros q; cbn; [split; [exists q; reflexivity|reflexivity]|]. destruct q as [|b q].
  - split; [discriminate|]. intros [r H]. discriminate.
  - rewrite andb_true_iff, Nat.eqb_eq, IH. split.
    + intros [-> [r ->]]. exists r. reflexivity.
    + intros [r H]. injection H as -> ->. split; [reflexivity|exists r; reflexivity].
Qed.
Lemma prefix_refl : forall p, prefix p p. Proof. intros; exists []; rewrite app_nil_r; reflexivity. Qed.
Lemma prefix_trans : forall p q r, prefix p q -> prefix q r -> prefix p r.
Proof. intros p q r [a ->] [b ->]. exists (a ++ b). rewrite app_assoc. reflexivity. Qed.
Lemma prefix_len : forall p q, prefix p q -> length p <= length q.
Proof. intros p q [r ->]. rewrite app_length. lia. Qed.
Lemma prefix_eq : forall p q, prefix p q -> length p = length q -> p = q.
Proof. intros p q [r ->] H. rewrite app_length in H. assert (r = []) by (apply length_zero_iff_nil; lia). subst. rewrite app_nil_r. reflexivity. Qed.
Lemma prefix_firstn : forall p q, prefix p q <-> p = firstn (length p) q /\ length p <= length q.
Proof.
  intros p q. split.
  - intros H. split; [|apply prefix_len; assumption]. destruct H as [r ->]. rewrite firstn_app, firstn_all, Nat.sub_diag. cbn. rewrite app_nil_r. reflexivity.
  - intros [E L]. exists (skipn (length p) q). rewrite E at 1. symmetry. apply firstn_skipn.
Qed.
Lemma prefix_snoc : forall p q w, prefix (p ++ [w]) q -> prefix p q /\ p <> q.
Proof. intros p q w [r ->]. split; [exists (w :: r); rewrite <- app_assoc; reflexivity|]. intros E. rewrite <- app_assoc in E. rewrite <- (app_nil_r p) in E at 1. apply app_inv_head in E. discriminate. Qed.
Lemma prefix_of_snoc : forall p q w, prefix p (q ++ [w]) <-> prefix p q \/ p = q ++ [w].
Proof.
  intros p q w. split.
  - intros [r E]. destruct r as [|x r] using rev_ind; [right; rewrite app_nil_r in E; auto|]. clear IHr. rewrite app_assoc in E. apply app_inj_tail in E. destruct E as [-> _]. left. exists r. reflexivity.
  - intros [[r ->]| ->]; [exists (r ++ [w]); rewrite app_assoc; reflexivity|apply prefix_refl].
Qed.
Lemma prefix_comparable : forall p q r, prefix p r -> prefix q r -> length p <= length q -> prefix p q.
Proof.
  intros p q r Hp Hq L. apply prefix_firstn in Hp. apply prefix_firstn in Hq. destruct Hp as [Ep _], Hq as [Eq _]. apply prefix_firstn. split; [|assumption].
  rewrite Eq. rewrite firstn_firstn. rewrite Nat.min_l by assumption. assumption.
Qed.

Lemma follow_level : forall p i, ilevel (follow i p) = (ilevel i + Z.of_nat (length p))%Z.
Proof. unfold follow. induction p as [|w p IH]; intros i; cbn [fold_left length]; [lia|]. rewrite IH. cbn [child ilevel]. lia. Qed.
Lemma idx_level : forall p, ilevel (idx_of p) = Z.of_nat (length p).
Proof. intros. unfold idx_of. rewrite follow_level. reflexivity. Qed.
Lemma idx_snoc : forall p w, idx_of (p ++ [w]) = child (Z.of_nat w) (idx_of p).
Proof. intros. unfold idx_of, follow. rewrite fold_left_app. reflexivity. Qed.

(** ** The traversals *)
Section Traverse.
Context {A B : Type} (m : method A B) (unif : nat) (same : bool).

Lemma mapM_concat_in : forall X Y (f : X -> res (list Y)) l r, mapM f l = Ok r -> forall y, In y (concat r) <-> exists x ys, In x l /\ f x = Ok ys /\ In y ys.
Proof.
  intros X Y f. induction l as [|x l IH]; intros r H y; cbn in H.
  - injection H as <-. cbn. split; [tauto|]. intros (? & ? & [] & _).
  - destruct (f x) as [ys|] eqn:E; [|discriminate]. cbn in H. destruct (mapM f l) as [rs|] eqn:M; [|discriminate]. cbn in H. injection H as <-. cbn [concat]. rewrite in_app_iff, (IH rs eq_refl). split.
    + intros [I|(x' & ys' & I & E' & I')]; [exists x, ys|exists x', ys']; repeat split; auto; [left; reflexivity|right; assumption].
    + intros (x' & ys' & [<-|I] & E' & I'); [left; congruence|right; eauto].
Qed.
Lemma mapM_each : forall X Y (f : X -> res Y) l r x, mapM f l = Ok r -> In x l -> exists y, f x = Ok y.
Proof.
  intros X Y f. induction l as [|a l IH]; intros r x M I; [destruct I|]. cbn in M. destruct (f a) as [y|] eqn:E; [|discriminate]. cbn in M. destruct (mapM f l) as [r'|] eqn:M'; [|discriminate].
  destruct I as [->|I]; [eauto|]. eapply IH; [reflexivity|assumption].
Qed.
Lemma mapM_total : forall X Y (f : X -> res Y) l, (forall x, In x l -> exists y, f x = Ok y) -> exists r, mapM f l = Ok r.
Proof.
  intros X Y f. induction l as [|x l IH]; intros H; [exists []; reflexivity|]. cbn. destruct (H x (or_introl eq_refl)) as [y ->]. destruct IH as [r ->]; [intros; apply H; right; assumption|]. exists (y :: r). reflexivity.
Qed.

Definition source_acts (n : path * tree A) : list act := if n_children (snd n) =? 0 then generate m n else aggregate m n.

Lemma source_apply_in : forall fuel n ts, source_apply m unif fuel n = Ok ts -> eight (snd n) ->
  forall o acts, In (o, acts) ts <-> exists p c, sub (snd n) p = Some c /\ o = (SrcTree, fst n ++ p) /\ acts = source_acts (fst n ++ p, c).
Proof.
  induction fuel as [|fuel IH]; intros [q t] ts H E o acts; [discriminate|]. cbn [source_apply fst snd] in *. pose proof (E [] t eq_refl) as L. unfold source_acts.
  destruct (n_children t =? 0) eqn:Z.
  - destruct (unif <=? length q); [|discriminate]. cbn in H. injection H as <-. assert (N : forall w, kid t w = None) by (apply n_children_0; [assumption|apply Nat.eqb_eq; assumption]). split.
    + intros [X|[]]. injection X as <- <-. exists [], t. rewrite app_nil_r. cbn [snd]. rewrite Z. auto.
    + intros (p & c & S & -> & ->). destruct p as [|w p]; [|cbn in S; rewrite N in S; discriminate]. cbn in S. injection S as <-. rewrite app_nil_r. cbn [snd]. rewrite Z. left. reflexivity.
  - destruct (mapM _ _) as [l|] eqn:M; [|discriminate]. cbn in H. injection H as <-. rewrite in_app_iff, (mapM_concat_in _ _ _ _ _ M). split.
    + intros [([q' c] & ys & I & Ey & Iy)|[X|[]]].
      * apply children_in in I. destruct I as (w & Hw & K & ->). cbn [fst snd] in *. apply (IH _ _ Ey) in Iy; [|intros p' n' S'; apply (E (w :: p')); cbn; rewrite K; assumption].
        destruct Iy as (p & d & S & -> & ->). cbn [fst snd] in *. exists (w :: p), d. cbn. rewrite K. rewrite <- app_assoc. auto.
      * injection X as <- <-. exists [], t. rewrite app_nil_r. cbn [snd]. rewrite Z. auto.
    + intros (p & d & S & -> & ->). destruct p as [|w p].
      * cbn in S. injection S as <-. right. left. rewrite app_nil_r. cbn [snd]. rewrite Z. reflexivity.
      * cbn in S. destruct (kid t w) as [c|] eqn:K; [|discriminate]. left.
        assert (I : In (q ++ [w], c) (children (q, t))) by (apply children_in; exists w; cbn; split; [eapply kid_lt8; eassumption|auto]).
        assert (Ex : exists ys, source_apply m unif fuel (q ++ [w], c) = Ok ys).
        { exact (mapM_each _ _ _ _ _ _ M I). }
        destruct Ex as [ys Ey]. exists (q ++ [w], c), ys. split; [assumption|]. split; [assumption|]. apply (IH _ _ Ey); [intros p' n' S'; apply (E (w :: p')); cbn; rewrite K; assumption|].
        exists p, d. cbn [fst snd]. rewrite <- app_assoc. auto.
Qed.

Lemma source_apply_ok : forall fuel n, eight (snd n) -> lower fuel (snd n) -> (forall p, leaf_at (snd n) p -> unif <= length (fst n ++ p)) -> exists ts, source_apply m unif fuel n = Ok ts.
Proof.
  induction fuel as [|fuel IH]; intros [q t] E L D; cbn [fst snd] in *; [specialize (L [] t eq_refl); cbn in L; lia|]. cbn [source_apply fst snd].
  destruct (n_children t =? 0) eqn:Z.
  - assert (F : leaf_at t []) by (exists t; split; [reflexivity|]; apply n_children_0; [exact (E [] t eq_refl)|apply Nat.eqb_eq; assumption]). specialize (D [] F). rewrite app_nil_r in D.
    destruct (Nat.leb_spec unif (length q)); [|lia]. cbn. eauto.
  - destruct (mapM_total _ _ (source_apply m unif fuel) (children (q, t))) as [l ->]; [|cbn; eauto]. intros [q' c] I. apply children_in in I. destruct I as (w & Hw & K & ->). cbn [fst snd] in *. apply IH; cbn [fst snd].
    + intros p n S. apply (E (w :: p)). cbn. rewrite K. assumption.
    + intros p n S. assert (X : sub t (w :: p) = Some n) by (cbn; rewrite K; assumption). specialize (L _ _ X). cbn in L. lia.
    + intros p (n & S & F). rewrite <- app_assoc. apply D. exists n. cbn. rewrite K. auto.
Qed.

Lemma NoDup_app_intro' : forall X (a b : list X), NoDup a -> NoDup b -> (forall x, In x a -> In x b -> False) -> NoDup (a ++ b).
Proof. induction a as [|x a IH]; intros b Ha Hb D; [assumption|]. inversion Ha; subst. cbn. constructor; [rewrite in_app_iff; intros [I|I]; [contradiction|eapply D; [left; reflexivity|eassumption]]|]. apply IH; auto. intros y I J. eapply D; [right; exact I|exact J]. Qed.

Lemma mapM_nodup_owners : forall X (f : X -> res (list task)) l r, mapM f l = Ok r ->
  (forall x ys, In x l -> f x = Ok ys -> NoDup (map fst ys)) -> NoDup l ->
  (forall x x' ys ys' o, In x l -> In x' l -> f x = Ok ys -> f x' = Ok ys' -> In o (map fst ys) -> In o (map fst ys') -> x = x') ->
  NoDup (map fst (concat r)).
Proof.
  intros X f. induction l as [|x l IH]; intros r M H1 N H2; cbn in M; [injection M as <-; constructor|].
  destruct (f x) as [ys|] eqn:E; [|discriminate]. cbn in M. destruct (mapM f l) as [rs|] eqn:M'; [|discriminate]. cbn in M. injection M as <-. cbn [concat]. rewrite map_app. inversion N; subst. apply NoDup_app_intro'.
  - eapply H1; [left; reflexivity|assumption].
  - eapply IH; [reflexivity| |assumption|]; [intros; eapply H1; [right; eassumption|eassumption]|intros; eapply H2; try eassumption; right; assumption].
  - intros o I J. apply in_map_iff in J. destruct J as (y & <- & J). apply (mapM_concat_in _ _ _ _ _ M') in J. destruct J as (x' & ys' & I' & E' & J).
    assert (x = x') by (eapply H2; [left; reflexivity|right; exact I'|exact E|exact E'|exact I|apply in_map; exact J]). subst. contradiction.
Qed.

Lemma children_nodup' : forall X (n : path * tree X), NoDup (children n).
Proof. intros. eapply NoDup_map_inv. apply children_nodup. Qed.

Lemma source_apply_nodup : forall fuel n ts, source_apply m unif fuel n = Ok ts -> eight (snd n) -> NoDup (map fst ts).
Proof.
  induction fuel as [|fuel IH]; intros [q t] ts H E; [discriminate|]. pose proof (source_apply_in _ _ _ H E) as Hin. cbn [source_apply fst snd] in *. destruct (n_children t =? 0) eqn:Z.
  - destruct (unif <=? length q); [|discriminate]. cbn in H. injection H as <-. repeat constructor. intros [].
  - destruct (mapM _ _) as [l|] eqn:M; [|discriminate]. cbn in H. injection H as <-. rewrite map_app. 
    assert (E' : forall q' c, In (q', c) (children (q, t)) -> eight c) by (intros q' c I; apply children_in in I; destruct I as (w & _ & K & _); cbn in K; intros p n S; apply (E (w :: p)); cbn; rewrite K; assumption).
    apply NoDup_app_intro'.
    + eapply mapM_nodup_owners; [exact M| | |].
      * intros [q' c] ys I Ey. eapply IH; [exact Ey|]. eapply E'; exact I.
      * apply children_nodup'.
      * intros [q1 c1] [q2 c2] ys ys' o I1 I2 E1 E2 O1 O2. apply in_map_iff in O1. destruct O1 as ([o1 a1] & <- & O1). apply in_map_iff in O2. destruct O2 as ([o2 a2] & Eo & O2). cbn [fst] in Eo. subst o2.
        apply (source_apply_in _ _ _ E1 (E' _ _ I1)) in O1. apply (source_apply_in _ _ _ E2 (E' _ _ I2)) in O2. cbn [fst snd] in *. destruct O1 as (p1 & d1 & _ & -> & _), O2 as (p2 & d2 & _ & Eo & _). injection Eo as Eo.
        apply children_in in I1. apply children_in in I2. destruct I1 as (w1 & _ & K1 & ->), I2 as (w2 & _ & K2 & ->). cbn [fst snd] in *. rewrite <- !app_assoc in Eo. apply app_inv_head in Eo. injection Eo as -> _. congruence.
    + repeat constructor. intros [].
    + intros o I [<-|[]]. apply in_map_iff in I. destruct I as ([o a] & Eo & I). cbn in Eo. subst o. apply (mapM_concat_in _ _ _ _ _ M) in I. destruct I as ([q' c] & ys & I & Ey & J).
      pose proof (E' _ _ I) as Ec. apply (source_apply_in _ _ _ Ey Ec) in J. destruct J as (p & d & _ & Eo & _). injection Eo as Eo. apply children_in in I. destruct I as (w & _ & _ & ->). cbn [fst] in Eo. rewrite <- app_assoc in Eo. rewrite <- (app_nil_r q) in Eo at 1. apply app_inv_head in Eo. discriminate.
Qed.

(** Target tasks reached, with what they get and the tasks of the nodes above. *)
Definition target_acts (n : path * tree B) (pi : bool) (cons : list (path * tree A)) (a2 : list act) : list act :=
  inherit m n pi (negb (refines m unif same n cons)) ++ a2.

Inductive visited (r : path * tree B) (pi0 : bool) (cons0 : list (path * tree A)) : path * tree B -> bool -> list (path * tree A) -> list (path * list act) -> Prop :=
| V_root : visited r pi0 cons0 r pi0 cons0 []
| V_kid : forall n pi cons acc a2 cons' c, visited r pi0 cons0 n pi cons acc -> refines m unif same n cons = true ->
    process m n cons false = Ok (a2, cons') -> In c (children n) ->
    visited r pi0 cons0 c (existsb (is_add_interm (fst n)) (target_acts n pi cons a2)) cons' (acc ++ [(fst n, target_acts n pi cons a2)]).

Lemma visited_trans : forall r pi0 cons0 n pi cons acc n2 pi2 cons2 acc2, visited r pi0 cons0 n pi cons acc -> visited n pi cons n2 pi2 cons2 acc2 -> visited r pi0 cons0 n2 pi2 cons2 (acc ++ acc2).
Proof.
  intros r pi0 cons0 n pi cons acc n2 pi2 cons2 acc2 H1 H2. induction H2 as [|n2 pi2 cons2 acc2 a2 cons' c H2 IH R P I]; [rewrite app_nil_r; assumption|]. rewrite app_assoc. econstructor; eassumption.
Qed.

Lemma visited_head : forall r pi0 cons0 n pi cons acc, visited r pi0 cons0 n pi cons acc ->
  (n = r /\ pi = pi0 /\ cons = cons0 /\ acc = []) \/
  (exists a2 cons' c acc', refines m unif same r cons0 = true /\ process m r cons0 false = Ok (a2, cons') /\ In c (children r) /\
     visited c (existsb (is_add_interm (fst r)) (target_acts r pi0 cons0 a2)) cons' n pi cons acc' /\ acc = (fst r, target_acts r pi0 cons0 a2) :: acc').
Proof.
  intros r pi0 cons0 n pi cons acc H. induction H as [|n pi cons acc a2 cons' c H IH R P I]; [left; auto|]. right. destruct IH as [(-> & -> & -> & ->)|(b2 & cons1 & c1 & acc' & R1 & P1 & I1 & V1 & ->)].
  - exists a2, cons', c, []. repeat split; auto. constructor.
  - exists b2, cons1, c1, (acc' ++ [(fst n, target_acts n pi cons a2)]). repeat split; auto. econstructor; eassumption.
Qed.

Lemma target_apply_in : forall fuel r pi0 cons0 ts, target_apply m unif same fuel r pi0 cons0 = Ok ts ->
  forall o acts, In (o, acts) ts <-> exists n pi cons acc a2 cons', visited r pi0 cons0 n pi cons acc /\ o = (TgtTree, fst n) /\
    process m n cons (negb (refines m unif same n cons)) = Ok (a2, cons') /\ acts = target_acts n pi cons a2.
Proof.
  induction fuel as [|fuel IH]; intros r pi0 cons0 ts H o acts; [discriminate|]. cbn [target_apply] in H. fold (target_acts r pi0 cons0) in H.
  destruct (process m r cons0 (negb (refines m unif same r cons0))) as [[a2 cons']|] eqn:P; [|discriminate]. cbn [bind] in H. change (inherit m r pi0 (negb (refines m unif same r cons0)) ++ a2) with (target_acts r pi0 cons0 a2) in H.
  destruct (refines m unif same r cons0) eqn:R.
  - destruct (mapM _ _) as [l|] eqn:M; [|discriminate]. cbn in H. injection H as <-. cbn [In]. rewrite (mapM_concat_in _ _ _ _ _ M). split.
    + intros [X|(c & ys & I & Ey & Iy)].
      * injection X as <- <-. exists r, pi0, cons0, [], a2, cons'. rewrite R. repeat split; auto. constructor.
      * apply (IH _ _ _ _ Ey) in Iy. destruct Iy as (n & pi & cons & acc & b2 & cons2 & V & -> & P2 & ->).
        exists n, pi, cons, ([(fst r, target_acts r pi0 cons0 a2)] ++ acc), b2, cons2. repeat split; auto. eapply visited_trans; [|exact V].
        exact (V_kid _ _ _ _ _ _ _ _ _ _ (V_root r pi0 cons0) R P I).
    + intros (n & pi & cons & acc & b2 & cons2 & V & -> & P2 & ->). apply visited_head in V. destruct V as [(-> & -> & -> & ->)|(b3 & cons3 & c & acc' & _ & P3 & I & V & ->)].
      * left. rewrite R in P2. cbn [negb] in P, P2. rewrite P in P2. injection P2 as <- <-. reflexivity.
      * right. cbn [negb] in P. rewrite P in P3. injection P3 as <- <-.
        assert (Ex : exists ys, target_apply m unif same fuel c (existsb (is_add_interm (fst r)) (target_acts r pi0 cons0 a2)) cons' = Ok ys).
        { exact (mapM_each _ _ _ _ _ _ M I). }
        destruct Ex as [ys Ey]. exists c, ys. split; [assumption|]. split; [assumption|]. apply (IH _ _ _ _ Ey). exists n, pi, cons, acc', b2, cons2. auto.
  - injection H as <-. split.
    + intros [X|[]]. injection X as <- <-. exists r, pi0, cons0, [], a2, cons'. rewrite R. repeat split; auto. constructor.
    + intros (n & pi & cons & acc & b2 & cons2 & V & -> & P2 & ->). apply visited_head in V. destruct V as [(-> & -> & -> & ->)|(b3 & cons3 & c & acc' & R' & _)]; [|congruence]. left. rewrite R in P2. rewrite P in P2. injection P2 as <- <-. reflexivity.
Qed.

Lemma target_apply_ok : forall fuel r pi0 cons0, eight (snd r) -> lower fuel (snd r) ->
  (forall n pi cons acc, visited r pi0 cons0 n pi cons acc -> exists x, process m n cons (negb (refines m unif same n cons)) = Ok x) ->
  exists ts, target_apply m unif same fuel r pi0 cons0 = Ok ts.
Proof.
  induction fuel as [|fuel IH]; intros [q t] pi0 cons0 E L H; cbn [fst snd] in *; [specialize (L [] t eq_refl); cbn in L; lia|]. cbn [target_apply].
  destruct (H _ _ _ _ (V_root (q, t) pi0 cons0)) as [[a2 cons'] P]. rewrite P. cbn [bind]. change (inherit m (q, t) pi0 (negb (refines m unif same (q, t) cons0)) ++ a2) with (target_acts (q, t) pi0 cons0 a2). destruct (refines m unif same (q, t) cons0) eqn:R; [|eauto]. cbn [negb] in P.
  destruct (mapM_total _ _ (fun c => target_apply m unif same fuel c (existsb (is_add_interm (fst (q, t))) (target_acts (q, t) pi0 cons0 a2)) cons') (children (q, t))) as [l ->]; [|cbn; eauto].
  intros c I. pose proof I as I'. destruct c as [q' c]. apply children_in in I. destruct I as (w & Hw & K & ->). cbn [fst snd] in *. apply IH; cbn [fst snd].
  - intros p n S. apply (E (w :: p)). cbn. rewrite K. assumption.
  - intros p n S. assert (X : sub t (w :: p) = Some n) by (cbn; rewrite K; assumption). specialize (L _ _ X). cbn in L. lia.
  - intros n pi cons acc V. eapply (H n pi cons ([(q, target_acts (q, t) pi0 cons0 a2)] ++ acc)). eapply visited_trans; [|exact V]. exact (V_kid _ _ _ _ _ _ _ _ _ _ (V_root (q, t) pi0 cons0) R P I').
Qed.

Lemma visited_sub : forall r pi0 cons0 n pi cons acc, visited r pi0 cons0 n pi cons acc -> exists p, fst n = fst r ++ p /\ sub (snd r) p = Some (snd n).
Proof.
  intros r pi0 cons0 n pi cons acc H. induction H as [|n pi cons acc a2 cons' c H (p & Ep & Sp) R P I]; [exists []; rewrite app_nil_r; auto|]. destruct c as [q c]. apply children_in in I. destruct I as (w & _ & K & ->). cbn [fst snd].
  exists (p ++ [w]). rewrite Ep, app_assoc. split; [reflexivity|]. rewrite sub_snoc, Sp. assumption.
Qed.

Lemma children_same : forall X (n : path * tree X) c c', In c (children n) -> In c' (children n) -> fst c = fst c' -> c = c'.
Proof. intros X n [q c] [q' c'] I I' E. cbn in E. subst q'. apply children_in in I. apply children_in in I'. destruct I as (w & _ & K & ->), I' as (w' & _ & K' & E). apply app_inj_tail in E. destruct E as [_ ->]. congruence. Qed.

Lemma visited_len : forall r pi0 cons0 n pi cons acc, visited r pi0 cons0 n pi cons acc -> length (fst n) = length (fst r) + length acc.
Proof.
  intros r pi0 cons0 n pi cons acc H. induction H as [|n pi cons acc a2 cons' c H IH R P I]; [cbn; lia|]. destruct c as [q c]. apply children_in in I. destruct I as (w & _ & _ & ->). cbn [fst]. rewrite !app_length. cbn. lia.
Qed.

(** What a node gets depends on its path only. *)
Lemma visited_det : forall r pi0 cons0 n pi cons acc, visited r pi0 cons0 n pi cons acc -> forall n' pi' cons' acc', visited r pi0 cons0 n' pi' cons' acc' -> fst n = fst n' -> n = n' /\ pi = pi' /\ cons = cons' /\ acc = acc'.
Proof.
  intros r pi0 cons0 n pi cons acc H. induction H as [|n pi cons acc a2 cons1 c H IH R P I]; intros n' pi' cons' acc' H' E.
  - pose proof (visited_len _ _ _ _ _ _ _ H') as L. rewrite <- E in L. destruct acc'; [|cbn in L; lia]. inversion H'; subst; auto. destruct acc; discriminate.
  - inversion H' as [|n2 pi2 cons2 acc2 b2 cons3 c2 H2 R2 P2 I2]; subst.
    + pose proof (visited_len _ _ _ _ _ _ _ H) as L. destruct c as [q c]. apply children_in in I. destruct I as (w & _ & _ & ->). cbn [fst] in *. rewrite <- E, app_length in L. cbn in L. lia.
    + assert (En : fst n = fst n2). { destruct c as [q c], n' as [q' c']. pose proof I as I0. pose proof I2 as I3. apply children_in in I0. apply children_in in I3. destruct I0 as (w & _ & _ & ->), I3 as (w' & _ & _ & ->). cbn [fst] in E. apply app_inj_tail in E. tauto. }
      destruct (IH _ _ _ _ H2 En) as (-> & -> & -> & ->). rewrite P in P2. injection P2 as <- <-. pose proof (children_same _ _ _ _ I I2 E). subst. auto.
Qed.

Lemma target_apply_nodup : forall fuel r pi0 cons0 ts, target_apply m unif same fuel r pi0 cons0 = Ok ts -> NoDup (map fst ts).
Proof.
  induction fuel as [|fuel IH]; intros r pi0 cons0 ts H; [discriminate|]. cbn [target_apply] in H.
  destruct (process m r cons0 (negb (refines m unif same r cons0))) as [[a2 cons']|] eqn:P; [|discriminate]. cbn [bind] in H.
  destruct (refines m unif same r cons0) eqn:R; [|injection H as <-; repeat constructor; intros []].
  destruct (mapM _ _) as [l|] eqn:M; [|discriminate]. cbn in H. injection H as <-. cbn [map fst]. 
  assert (Low : forall c ys o, In c (children r) -> target_apply m unif same fuel c (existsb (is_add_interm (fst r)) (inherit m r pi0 (negb true) ++ a2)) cons' = Ok ys -> In o (map fst ys) -> exists p, o = (TgtTree, fst c ++ p)).
  { intros c ys o I Ey O. apply in_map_iff in O. destruct O as ([o' a'] & <- & O). apply (target_apply_in _ _ _ _ _ Ey) in O. destruct O as (n & pi & cons & acc & b2 & cons2 & V & -> & _). apply visited_sub in V. destruct V as (p & E & _). exists p. cbn. rewrite E. reflexivity. }
  constructor.
  - intros I. apply in_map_iff in I. destruct I as ([o a] & Eo & I). cbn in Eo. subst o. apply (mapM_concat_in _ _ _ _ _ M) in I. destruct I as (c & ys & I & Ey & J).
    destruct (Low c ys _ I Ey (in_map fst _ _ J)) as (p & Eo). cbn in Eo. injection Eo as Eo. destruct c as [q c]. apply children_in in I. destruct I as (w & _ & _ & ->). cbn [fst] in Eo. rewrite <- app_assoc in Eo. rewrite <- (app_nil_r (fst r)) in Eo at 1. apply app_inv_head in Eo. discriminate.
  - eapply mapM_nodup_owners; [exact M| |apply children_nodup'|].
    + intros c ys I Ey. eapply IH; exact Ey.
    + intros c c' ys ys' o I I' Ey Ey' O O'. destruct (Low _ _ _ I Ey O) as (p & ->). destruct (Low _ _ _ I' Ey' O') as (p' & E). injection E as E. apply (children_same _ r); try assumption.
      destruct c as [q c], c' as [q' c']. apply children_in in I. apply children_in in I'. destruct I as (w & _ & _ & ->), I' as (w' & _ & _ & ->). cbn [fst] in *. rewrite <- !app_assoc in E. apply app_inv_head in E. injection E as -> _. reflexivity.
Qed.
Lemma target_apply_process : forall f r pi0 cons0 ts, target_apply m unif same f r pi0 cons0 = Ok ts -> forall n pi cons acc, visited r pi0 cons0 n pi cons acc -> exists a2 c', process m n cons (negb (refines m unif same n cons)) = Ok (a2, c').
Proof.
  induction f as [|f IH]; intros r pi0 cons0 ts H n pi cons acc V; [discriminate|]. cbn [target_apply] in H. destruct (process m r cons0 (negb (refines m unif same r cons0))) as [[a2 cons']|] eqn:P; [|discriminate]. cbn [bind] in H. apply visited_head in V. destruct V as [(-> & -> & -> & ->)|(b2 & cons1 & c & acc' & R & P1 & I & V & ->)]; [eauto|].
  unfold target_acts in V. rewrite R in *. cbn [negb] in *. rewrite P in P1. injection P1 as <- <-. match type of H with context [mapM ?g ?l] => destruct (mapM g l) as [l'|] eqn:M end; [|discriminate]. destruct (mapM_each _ _ _ _ _ _ M I) as [y Ey]. exact (IH _ _ _ _ Ey _ _ _ _ V).
Qed.
End Traverse.
