(** Proofs about the trace reader. *)
From Coq Require Import ZArith List Bool Lia Sorting.Sorted.
From Verif Require Import Base ListFacts TraceModel TraceSpec.
Import ListNotations.
Open Scope Z_scope.

(** ** Windows *)
Lemma sorted_split : forall l t, StronglySorted Z.le l ->
  exists a b, l = a ++ b /\ (forall x, In x a -> x < t) /\ (forall x, In x b -> t <= x) /\ a = filter (fun x => x <? t) l /\ b = filter (fun x => negb (x <? t)) l.
Proof.
  induction l as [|x l IH]; intros t H; [exists [], []; cbn; intuition|]. inversion H as [|? ? Hs Hf]; subst.
  destruct (IH t Hs) as (a & b & E & Ha & Hb & Ea & Eb). destruct (Z.ltb_spec x t) as [L|L].
  - exists (x :: a), b. cbn [filter]. destruct (Z.ltb_spec x t); [|lia]. cbn [negb]. repeat split; cbn; try congruence; auto. intros y [<-|Y]; auto.
  - rewrite Forall_forall in Hf. assert (N : filter (fun x => x <? t) l = []).
    { apply filter_none. intros y Hy. specialize (Hf y Hy). destruct (Z.ltb_spec y t); [lia|reflexivity]. }
    exists [], (x :: l). cbn [filter]. destruct (Z.ltb_spec x t); [lia|]. cbn [negb]. rewrite N. repeat split; auto.
    + intros y []. 
    + intros y [<-|Y]; [lia|]. specialize (Hf y Y). lia.
    + f_equal. symmetry. apply filter_all. intros y Hy. specialize (Hf y Hy). destruct (Z.ltb_spec y t); [lia|reflexivity].
Qed.

Lemma pp_sorted : forall pp l t, point_contract pp -> StronglySorted Z.le l -> pp (fun x => x <? t) l = length (filter (fun x => x <? t) l).
Proof.
  intros pp l t Hp H. destruct (sorted_split l t H) as (a & b & E & Ha & Hb & Ea & _). rewrite E at 1. rewrite <- Ea. apply Hp; intros x Hx; [specialize (Ha x Hx)|specialize (Hb x Hx)]; lia.
Qed.

Lemma filter_filter' : forall A (f g : A -> bool) l, filter f (filter g l) = filter (fun x => g x && f x) l.
Proof. intros. induction l as [|x l IH]; [reflexivity|]. cbn. destruct (g x); cbn; [destruct (f x)|]; rewrite ?IH; reflexivity. Qed.
Lemma sorted_filter : forall (f : Z -> bool) l, StronglySorted Z.le l -> StronglySorted Z.le (filter f l).
Proof.
  intros f l H. induction H as [|x l Hs IH Hf]; [constructor|]. cbn. destruct (f x); [|assumption]. constructor; [assumption|]. rewrite Forall_forall in *. intros y Hy. apply filter_In in Hy. apply Hf. tauto.
Qed.

Lemma slice_sorted : forall l s e, StronglySorted Z.le l -> s <= e ->
  slice_of l (length (filter (fun x => x <? s) l)) (length (filter (fun x => x <? e) l)) = filter (fun x => (s <=? x) && (x <? e)) l.
Proof.
  intros l s e H Hse. destruct (sorted_split l e H) as (a & b & E & Ha & Hb & Ea & Eb). unfold slice_of. rewrite <- Ea.
  assert (Sa : StronglySorted Z.le a) by (rewrite Ea; apply sorted_filter; assumption).
  destruct (sorted_split a s Sa) as (a1 & a2 & E1 & Ha1 & Ha2 & Ea1 & Ea2).
  assert (F : filter (fun x => x <? s) l = a1).
  { rewrite Ea1, Ea, filter_filter'. apply filter_ext. intros x. destruct (Z.ltb_spec x s), (Z.ltb_spec x e); try reflexivity. lia. }
  assert (G : filter (fun x => (s <=? x) && (x <? e)) l = a2).
  { rewrite Ea2, Ea, filter_filter'. apply filter_ext. intros x. destruct (Z.ltb_spec x s), (Z.ltb_spec x e), (Z.leb_spec s x); cbn; try reflexivity; lia. }
  rewrite F, G, E, E1, <- app_assoc. rewrite skipn_app, skipn_all, Nat.sub_diag. cbn [app skipn]. rewrite app_length. replace (length a1 + length a2 - length a1)%nat with (length a2) by lia.
  rewrite firstn_app, firstn_all, Nat.sub_diag. cbn [firstn]. apply app_nil_r.
Qed.

Lemma sorted_high : forall l h, StronglySorted Z.le l -> nth_error l (length l - 1) = Some h -> forall x, In x l -> x <= h.
Proof.
  intros l h H. induction H as [|y l Hs IH Hf]; intros E x Hx; [destruct Hx|]. rewrite Forall_forall in Hf. cbn [length] in E. destruct l as [|z l].
  - cbn in E. destruct Hx as [<-|[]]. injection E as <-. lia.
  - replace (S (length (z :: l)) - 1)%nat with (S (length (z :: l) - 1)) in E by (cbn; lia). cbn [nth_error] in E.
    destruct Hx as [<-|Hx]; [|apply IH; assumption]. specialize (Hf z (or_introl eq_refl)). specialize (IH E z (or_introl eq_refl)). lia.
Qed.

Lemma range_ok : forall pp l start end_ low high, point_contract pp -> StronglySorted Z.le l -> start <= end_ ->
  nth_error l 0 = Some low -> nth_error l (length l - 1) = Some high ->
  exists a b, range pp l start end_ = Ok (a, b) /\ (a <= b <= length l)%nat /\ slice_of l a b = filter (fun s => (start <=? s) && (s <? Z.min end_ high)) l.
Proof.
  intros pp l start end_ low high Hp Hs Hse El Eh. unfold range. destruct (Z.ltb_spec end_ start); [lia|]. unfold nth_res. rewrite El, Eh. cbn [bind].
  pose proof (sorted_high l high Hs Eh) as Hh. pose proof (Hh low (nth_error_In _ _ El)) as Hlh.
  assert (Hl : forall x, In x l -> low <= x).
  { destruct l as [|y l]; [discriminate|]. cbn in El. injection El as ->. inversion Hs as [|? ? ? Hf]; subst. rewrite Forall_forall in Hf. intros x [<-|Hx]; [lia|auto]. }
  destruct (Z.ltb_spec end_ low); [|destruct (Z.leb_spec high start)].
  - exists O, O. split; [reflexivity|]. split; [lia|]. cbn. symmetry. apply filter_none. intros x Hx. specialize (Hl x Hx). destruct (Z.ltb_spec x (Z.min end_ high)); [lia|]. apply andb_false_r.
  - exists (length l), (length l). split; [reflexivity|]. split; [lia|]. unfold slice_of. rewrite Nat.sub_diag. cbn [firstn]. symmetry. apply filter_none. intros x Hx. specialize (Hh x Hx). destruct (Z.leb_spec start x), (Z.ltb_spec x (Z.min end_ high)); try reflexivity. lia.
  - eexists _, _. split; [reflexivity|]. rewrite !pp_sorted by assumption. split.
    + assert (X : forall s e, s <= e -> (length (filter (fun x => (x <? s)%Z) l) <= length (filter (fun x => (x <? e)%Z) l))%nat).
      { intros s e Q. clear - Q. induction l as [|x l IH]; [cbn; lia|]. cbn. destruct (Z.ltb_spec x s), (Z.ltb_spec x e); cbn; lia. }
      split; [apply X; lia|]. clear. induction l as [|x l IH]; [cbn; lia|]. cbn [filter]. match goal with |- context [if ?b then _ else _] => destruct b end; cbn [length]; lia.
    + rewrite slice_sorted by (try assumption; lia). apply filter_ext_in. intros x Hx. specialize (Hl x Hx). destruct (Z.leb_spec (Z.max start low) x), (Z.leb_spec start x); try reflexivity; lia.
Qed.

(** ** Coverage *)
Fixpoint cover_from (b : bool) (cur end_ : Z) (l : list event) : Z :=
  match l with
  | [] => if b then end_ - cur else 0
  | e :: l' => (if b then stamp e - cur else 0) + cover_from (estart e) (stamp e) end_ l'
  end.

Lemma zseq_app : forall a n m, zseq a (n + m) = zseq a n ++ zseq (a + Z.of_nat n) m.
Proof.
  intros. revert a. induction n as [|n IH]; intros a; [cbn [Nat.add zseq app]; rewrite Z.add_0_r; reflexivity|].
  cbn [Nat.add]. rewrite !zseq_S, IH. cbn [app]. do 2 f_equal. f_equal; lia.
Qed.

Lemma busy_past : forall l b t, (forall e, In e l -> t < stamp e) -> busy b l t = b.
Proof.
  induction l as [|e l IH]; intros b t H; [reflexivity|]. unfold busy. cbn [fold_left]. destruct (Z.leb_spec (stamp e) t); [specialize (H e (or_introl eq_refl)); lia|]. apply IH. intros; apply H; right; assumption.
Qed.

Definition in_order (l : list event) : Prop := StronglySorted Z.le (map stamp l).

Lemma busy_sum : forall l b cur end_, in_order l -> (forall e, In e l -> cur <= stamp e <= end_) -> cur <= end_ -> busy_time b l cur end_ = cover_from b cur end_ l.
Proof.
  induction l as [|e l IH]; intros b cur end_ Hs Hr Hc.
  - unfold busy_time. cbn [cover_from]. destruct b.
    + rewrite filter_all; [rewrite zseq_len; lia|]. intros; reflexivity.
    + rewrite (proj2 (filter_none _ _ _)); [reflexivity|]. intros; reflexivity.
  - inversion Hs as [|? ? Hs' Hf]; subst. rewrite Forall_forall in Hf. pose proof (Hr e (or_introl eq_refl)) as He.
    cbn [cover_from]. rewrite <- IH; [|assumption| |lia].
    + unfold busy_time. replace (Z.to_nat (end_ - cur)) with (Z.to_nat (stamp e - cur) + Z.to_nat (end_ - stamp e))%nat by lia.
      rewrite zseq_app, filter_app, app_length. replace (cur + Z.of_nat (Z.to_nat (stamp e - cur))) with (stamp e) by lia.
      assert (E1 : length (filter (busy b (e :: l)) (zseq cur (Z.to_nat (stamp e - cur)))) = if b then Z.to_nat (stamp e - cur) else O).
      { assert (P : forall t, In t (zseq cur (Z.to_nat (stamp e - cur))) -> busy b (e :: l) t = b).
        { intros t Ht. apply zseq_in in Ht. apply busy_past. intros f [<-|Hf']; [lia|]. specialize (Hf (stamp f) (in_map stamp _ _ Hf')). lia. }
        destruct b; [rewrite filter_all by assumption; apply zseq_len|rewrite (proj2 (filter_none _ _ _)) by assumption; reflexivity]. }
      assert (E2 : filter (busy b (e :: l)) (zseq (stamp e) (Z.to_nat (end_ - stamp e))) = filter (busy (estart e) l) (zseq (stamp e) (Z.to_nat (end_ - stamp e)))).
      { apply filter_ext_in. intros t Ht. apply zseq_in in Ht. unfold busy. cbn [fold_left]. destruct (Z.leb_spec (stamp e) t); [reflexivity|lia]. }
      rewrite E1, E2. destruct b; lia.
    + intros f Hf'. specialize (Hf (stamp f) (in_map stamp _ _ Hf')). specialize (Hr f (or_intror Hf')). lia.
Qed.

Lemma foldM_of_type : forall ty l st, foldM (cover_step ty) l st = foldM (cover_step ty) (of_type ty l) st.
Proof.
  intros ty l. induction l as [|e l IH]; intros [[[c ps] pe] n]; [reflexivity|]. cbn [foldM of_type filter]. destruct (Z.eqb_spec (sty e) ty) as [E|E].
  - cbn [foldM]. destruct (cover_step ty (c, ps, pe, n) e); [|reflexivity]. cbn [bind]. apply IH.
  - unfold cover_step at 1. destruct (Z.eqb_spec (sty e) ty); [contradiction|]. cbn [bind]. apply IH.
Qed.

Fixpoint separated_from (b : bool) (cur : Z) (l : list event) : Prop :=
  match l with [] => True | e :: l' => (b = false -> cur < stamp e) /\ separated_from (negb b) (stamp e) l' end.

Definition finish (end_ : Z) (st : Z * Z * Z * Z) : Z := let '(cover, ps, pe, n) := st in if negb (n =? 0) && (pe <? ps) then cover + (end_ - ps) else cover.

Lemma cover_run : forall ty l b c ps pe n end_, Forall (fun e => sty e = ty) l -> alternate b l -> in_order l ->
  (forall e, In e l -> (if b then ps else pe) <= stamp e) -> (if b then pe < ps else ps <= pe) -> 0 <= n -> (n = 0 -> b = true -> l <> []) ->
  (separated_from b pe l -> exists st, foldM (cover_step ty) l (c, ps, pe, n) = Ok st /\ finish end_ st = c + cover_from b (if b then ps else pe) end_ l) /\
  (~ separated_from b pe l -> foldM (cover_step ty) l (c, ps, pe, n) = Fail AssertFail).
Proof.
  intros ty l. induction l as [|e l IH]; intros b c ps pe n end_ Ht Ha Hs Hr Hb Hn Hz.
  - split; [|intros X; exfalso; apply X; exact I]. intros _. exists (c, ps, pe, n). split; [reflexivity|]. cbn [finish cover_from]. destruct b.
    + destruct (Z.eqb_spec n 0); [exfalso; apply (Hz e eq_refl); reflexivity|]. destruct (Z.ltb_spec pe ps); [reflexivity|lia].
    + destruct (Z.ltb_spec pe ps); [lia|]. rewrite andb_false_r. lia.
  - inversion Ht as [|? ? T1 T2]; subst. inversion Hs as [|? ? Hs' Hf]; subst. rewrite Forall_forall in Hf. destruct Ha as (A1 & A2 & A3). pose proof (Hr e (or_introl eq_refl)) as He.
    assert (Hr' : forall f, In f l -> stamp e <= stamp f) by (intros f F; apply Hf; apply in_map; assumption).
    cbn [foldM separated_from cover_from]. unfold cover_step at 1 3. rewrite Z.eqb_refl, A1, A2. destruct b; cbv iota in Hb, He, Hr; cbn [negb assert_ bind].
    + destruct (Z.leb_spec ps (stamp e)); [|lia]. cbn [assert_ bind].
      destruct (IH false (c + (stamp e - ps)) ps (stamp e) (n + 1) end_ T2 A3 Hs' Hr' ltac:(cbv iota; lia) ltac:(lia)) as [I1 I2]; [intros; discriminate|]. split.
      * intros [_ X]. destruct (I1 X) as (st & E & F). exists st. split; [exact E|]. rewrite F. cbn [negb]. lia.
      * intros X. apply I2. intros Y. apply X. split; [discriminate|assumption].
    + destruct (Z.ltb_spec pe (stamp e)) as [L|L]; cbn [assert_ bind].
      * destruct (IH true c (stamp e) pe (n + 1) end_ T2 A3 Hs' Hr' L ltac:(lia)) as [I1 I2]; [lia|]. cbn [negb] in *.
        assert (SP : separated_from true pe l <-> separated_from true (stamp e) l) by (destruct l; cbn; [tauto|]; split; intros [_ Z]; (split; [discriminate|assumption])).
        split.
        -- intros [_ X]. destruct (I1 (proj2 SP X)) as (st & E & F). exists st. split; [exact E|]. rewrite F. lia.
        -- intros X. apply I2. intros Y. apply X. split; [intros _; assumption|apply SP; assumption].
      * split; [intros [X _]; specialize (X eq_refl); lia|reflexivity].
Qed.

Lemma separated_iff : forall l b cur, alternate b l ->
  (separated_from b cur l <-> separated l /\ (b = false -> forall e, nth_error l 0 = Some e -> cur < stamp e)).
Proof.
  induction l as [|e l IH]; intros b cur A.
  - cbn. split; [intros _; split; [intros k e f N; destruct k; discriminate|intros; discriminate]|tauto].
  - destruct A as (A1 & A2 & A3). cbn [separated_from]. rewrite (IH _ _ A3). split.
    + intros (H0 & Hs & H1). split; [|intros Eb f N; cbn in N; injection N as <-; auto].
      intros k x y Nx Ny Sy. destruct k as [|k]; [|apply (Hs k x y); assumption]. cbn in Nx, Ny. injection Nx as <-. apply H1; [|assumption].
      destruct l as [|z l]; [discriminate|]. cbn in Ny. injection Ny as ->. destruct A3 as (B1 & _). rewrite B1 in Sy. destruct b; [reflexivity|discriminate].
    + intros (Hs & H0). split; [intros Eb; apply (H0 Eb e eq_refl)|]. split.
      * intros k x y Nx Ny Sy. apply (Hs (S k) x y); assumption.
      * intros Eb f N. apply (Hs O e f); [reflexivity|exact N|]. destruct l as [|z l]; [discriminate|]. cbn in N. injection N as ->. destruct A3 as (B1 & _). rewrite B1, Eb. reflexivity.
Qed.

Lemma coverage_ok : forall ty start end_ evs b, in_order evs -> (forall e, In e evs -> start <= stamp e <= end_) -> start <= end_ ->
  alternate b (of_type ty evs) -> (of_type ty evs = [] -> b = false) ->
  (separated (of_type ty evs) -> coverage ty start end_ evs = Ok (busy_time b (of_type ty evs) start end_)) /\
  (~ separated (of_type ty evs) -> coverage ty start end_ evs = Fail AssertFail).
Proof.
  intros ty start end_ evs b Ho Hr Hse Ha Hb. set (l := of_type ty evs) in *.
  assert (Hol : in_order l).
  { unfold in_order, l, of_type. clear - Ho. unfold in_order in Ho. induction evs as [|e evs IH]; [constructor|]. cbn [map] in Ho. inversion Ho as [|? ? Hs Hf]; subst. cbn [filter]. destruct (sty e =? ty); [|auto]. cbn [map]. constructor; [auto|].
    rewrite Forall_forall in *. intros x Hx. apply in_map_iff in Hx. destruct Hx as (f & <- & Hx). apply filter_In in Hx. apply Hf. apply in_map. tauto. }
  assert (Hrl : forall e, In e l -> start <= stamp e <= end_) by (intros e He; apply filter_In in He; apply Hr; tauto).
  assert (Htl : Forall (fun e => sty e = ty) l) by (apply Forall_forall; intros e He; apply filter_In in He; destruct He as [_ He]; apply Z.eqb_eq; assumption).
  rewrite (busy_sum l b start end_ Hol Hrl Hse).
  assert (E : coverage ty start end_ evs = do st <- foldM (cover_step ty) l (0, start, start - 1, 0); Ok (finish end_ st)).
  { unfold coverage, l. rewrite <- foldM_of_type. destruct evs; [reflexivity|]. destruct (foldM _ _ _) as [[[[? ?] ?] ?]|]; reflexivity. }
  rewrite E. clear E. destruct l as [|e l'] eqn:El.
  { cbn [foldM bind finish cover_from]. rewrite Hb by reflexivity. split; [reflexivity|]. intros X. exfalso. apply X. intros k x y N. destruct k; discriminate. }
  pose proof (Hrl e (or_introl eq_refl)) as He. destruct b.
  - destruct (cover_run ty (e :: l') true 0 start (start - 1) 0 end_) as [I1 I2]; try assumption; try lia.
    { cbv iota. intros f Hf. apply Hrl. assumption. } { intros; discriminate. }
    assert (S : separated_from true (start - 1) (e :: l') <-> separated (e :: l')) by (rewrite (separated_iff _ _ _ Ha); split; [tauto|intros X; split; [assumption|discriminate]]).
    split; intros X.
    + destruct (I1 (proj2 S X)) as (st & Es & F). rewrite Es. cbn [bind]. rewrite F. reflexivity.
    + rewrite I2; [reflexivity|]. intros Y. apply X, S, Y.
  - inversion Htl as [|? ? T1 T2]; subst. inversion Hol as [|? ? Hs' Hf]; subst. rewrite Forall_forall in Hf. pose proof (separated_iff _ _ (start - 1) Ha) as S. destruct Ha as (A1 & A2 & A3).
    cbn [foldM]. unfold cover_step at 1 3. rewrite Z.eqb_refl, A1. cbn [negb]. destruct (Z.ltb_spec (start - 1) (stamp e)); [|lia]. cbn [assert_ bind].
    destruct (cover_run (sty e) l' true 0 (stamp e) (start - 1) (0 + 1) end_) as [I1 I2]; try assumption; try lia.
    { cbv iota. intros f F. apply Hf. apply in_map. assumption. }
    cbn [separated_from negb] in S. assert (SP : separated_from true (start - 1) l' <-> separated_from true (stamp e) l') by (destruct l'; cbn; [tauto|]; split; intros [_ Z]; (split; [discriminate|assumption])).
    assert (S2 : separated_from true (start - 1) l' <-> separated (e :: l')).
    { rewrite SP. split; [intros X; apply S; split; [intros _; lia|assumption]|]. intros X. apply S. split; [assumption|]. intros _ f N. cbn in N. injection N as <-. lia. }
    split; intros X.
    + destruct (I1 (proj2 S2 X)) as (st & Es & F). rewrite Es. cbn [bind]. rewrite F. cbn [cover_from]. rewrite A1. reflexivity.
    + rewrite I2; [reflexivity|]. intros Y. apply X, S2, Y.
Qed.

(** ** Segments *)
Lemma Forall2_weaken : forall A B (P Q : A -> B -> Prop) l m, (forall a b, P a b -> Q a b) -> Forall2 P l m -> Forall2 Q l m.
Proof. induction 2; constructor; auto. Qed.
Section Coll.
Context (base loc w : Z).

Definition seg_open (e : event) (i : nat) : segment := mkSeg (sty e) (base + Z.of_nat i) (-1) loc w (stamp e) 0 true false.
Definition seg_of (ei ej : event) (i j : nat) : segment := mkSeg (sty ej) (base + Z.of_nat i) (base + Z.of_nat j) loc w (stamp ei) (stamp ej) true true.
Definition pairs (evs : list event) (gs : list segment) : Prop :=
  exists js, StronglySorted lt js /\ (forall j, In j js <-> closes evs j) /\
    Forall2 (fun g j => exists i ei ej, nth_error evs i = Some ei /\ nth_error evs j = Some ej /\ just_before evs i j (sty ej) /\ g = seg_of ei ej i j) gs js.
Definition opens (evs : list event) (p : Z -> option segment) : Prop :=
  forall s, s <> 0 -> if Nat.even (earlier evs (length evs) s) then p s = None
    else exists i e, nth_error evs i = Some e /\ just_before evs i (length evs) s /\ p s = Some (seg_open e i).
Definition Inv (evs : list event) (c : collator) : Prop := opens evs (partial c) /\ pairs evs (done c).

Lemma earlier_pre : forall evs tl j s, (j <= length evs)%nat -> earlier (evs ++ tl) j s = earlier evs j s.
Proof. intros. unfold earlier. rewrite firstn_app. replace (j - length evs)%nat with O by lia. cbn [firstn]. rewrite app_nil_r. reflexivity. Qed.
Lemma earlier_all : forall evs s, earlier evs (length evs) s = length (of_type s evs).
Proof. intros. unfold earlier. rewrite firstn_all. reflexivity. Qed.
Lemma earlier_snoc : forall evs e s, earlier (evs ++ [e]) (length (evs ++ [e])) s = ((if (sty e =? s)%Z then 1 else 0) + earlier evs (length evs) s)%nat.
Proof. intros. rewrite !earlier_all. unfold of_type. rewrite filter_app, app_length. cbn. destruct (sty e =? s); cbn; lia. Qed.
Lemma nth_pre : forall (evs tl : list event) i, (i < length evs)%nat -> nth_error (evs ++ tl) i = nth_error evs i.
Proof. intros. apply nth_error_app1. assumption. Qed.
Lemma in_turn_pre : forall evs tl j, (j < length evs)%nat -> (in_turn (evs ++ tl) j <-> in_turn evs j).
Proof. intros. unfold in_turn. rewrite nth_pre by assumption. split; intros X e N T; specialize (X e N T); rewrite earlier_pre in * by lia; assumption. Qed.
Lemma closes_pre : forall evs tl j, (j < length evs)%nat -> (closes (evs ++ tl) j <-> closes evs j).
Proof. intros. unfold closes. rewrite nth_pre by assumption. split; intros (e & N & T & O); exists e; rewrite earlier_pre in * by lia; auto. Qed.
Lemma jb_pre : forall evs tl i j s, (j <= length evs)%nat -> (just_before (evs ++ tl) i j s <-> just_before evs i j s).
Proof.
  intros evs tl i j s H. unfold just_before. split; intros (L & (e & N & T) & X); (split; [assumption|]); rewrite nth_pre in * by lia; (split; [eauto|]); intros k f Hk Nf; apply (X k f Hk); rewrite nth_pre in * by lia; assumption.
Qed.
Lemma closes_last : forall evs e, closes (evs ++ [e]) (length evs) <-> sty e <> 0 /\ Nat.odd (earlier evs (length evs) (sty e)) = true.
Proof.
  intros. unfold closes. rewrite nth_error_app2, Nat.sub_diag by lia. cbn. split.
  - intros (f & N & T & O). injection N as <-. rewrite earlier_pre in O by lia. auto.
  - intros [T O]. exists e. rewrite earlier_pre by lia. auto.
Qed.
Lemma closes_bound : forall evs j, closes evs j -> (j < length evs)%nat.
Proof. intros evs j (e & N & _). apply nth_error_bound in N. assumption. Qed.

Lemma pairs_mono : forall evs e gs, pairs evs gs -> ~ closes (evs ++ [e]) (length evs) -> pairs (evs ++ [e]) gs.
Proof.
  intros evs e gs (js & S & J & F) N. exists js. split; [assumption|]. split.
  - intros j. rewrite J. split; intros C; [apply closes_pre; [apply closes_bound|]; assumption|].
    pose proof (closes_bound _ _ C) as B. rewrite app_length in B. cbn in B. destruct (Nat.eq_dec j (length evs)) as [->|Ne]; [contradiction|]. apply (proj1 (closes_pre evs [e] j ltac:(lia))); assumption.
  - eapply Forall2_weaken; [|exact F]. intros g j (i & ei & ej & Ni & Nj & B & E). exists i, ei, ej. pose proof (nth_error_bound _ _ _ _ Ni). pose proof (nth_error_bound _ _ _ _ Nj). rewrite !nth_pre by assumption. split; [assumption|]. split; [assumption|]. split; [apply jb_pre; [lia|assumption]|assumption].
Qed.

Lemma pairs_add : forall evs e gs i ei, pairs evs gs -> closes (evs ++ [e]) (length evs) -> nth_error evs i = Some ei -> just_before evs i (length evs) (sty e) ->
  pairs (evs ++ [e]) (gs ++ [seg_of ei e i (length evs)]).
Proof.
  intros evs e gs i ei (js & S & J & F) C N B. exists (js ++ [length evs]). split; [|split].
  - assert (X : forall j, In j js -> (j < length evs)%nat) by (intros j Hj; apply closes_bound, J, Hj). clear - S X. induction S as [|x l S IH Hf]; cbn; [repeat constructor|]. constructor; [apply IH; intros; apply X; right; assumption|].
    apply Forall_app. split; [assumption|]. constructor; [apply X; left; reflexivity|constructor].
  - intros j. rewrite in_app_iff, J. split.
    + intros [Cj|[<-|[]]]; [apply closes_pre; [apply closes_bound|]; assumption|assumption].
    + intros Cj. pose proof (closes_bound _ _ Cj) as Bd. rewrite app_length in Bd. cbn in Bd. destruct (Nat.eq_dec j (length evs)) as [->|Ne]; [right; left; reflexivity|]. left. apply (proj1 (closes_pre evs [e] j ltac:(lia))); assumption.
  - apply Forall2_app.
    + eapply Forall2_weaken; [|exact F]. intros g j (i' & ei' & ej & Ni & Nj & B' & E). exists i', ei', ej. pose proof (nth_error_bound _ _ _ _ Ni). pose proof (nth_error_bound _ _ _ _ Nj). rewrite !nth_pre by assumption. split; [assumption|]. split; [assumption|]. split; [apply jb_pre; [lia|assumption]|assumption].
    + constructor; [|constructor]. exists i, ei, e. pose proof (nth_error_bound _ _ _ _ N). rewrite nth_pre by assumption. split; [assumption|]. split; [rewrite nth_error_app2, Nat.sub_diag by lia; reflexivity|]. split; [apply jb_pre; [lia|assumption]|reflexivity].
Qed.

Lemma jb_skip : forall evs e i s, just_before evs i (length evs) s -> sty e <> s -> just_before (evs ++ [e]) i (length (evs ++ [e])) s.
Proof.
  intros evs e i s (L & (f & N & T) & X) Ne. rewrite app_length. cbn [length]. split; [lia|]. split; [exists f; rewrite nth_pre by assumption; auto|].
  intros k g Hk Ng. destruct (Nat.eq_dec k (length evs)) as [->|D].
  - rewrite nth_error_app2, Nat.sub_diag in Ng by lia. cbn in Ng. injection Ng as <-. assumption.
  - rewrite nth_pre in Ng by lia. apply (X k); [lia|assumption].
Qed.

Lemma opens_other : forall evs e p q, opens evs p -> (forall s, s <> sty e -> q s = p s) ->
  (sty e <> 0 -> if Nat.even (earlier (evs ++ [e]) (length (evs ++ [e])) (sty e)) then q (sty e) = None
    else exists i f, nth_error (evs ++ [e]) i = Some f /\ just_before (evs ++ [e]) i (length (evs ++ [e])) (sty e) /\ q (sty e) = Some (seg_open f i)) ->
  opens (evs ++ [e]) q.
Proof.
  intros evs e p q O Q H s Hs. destruct (Z.eq_dec s (sty e)) as [->|D]; [apply H; assumption|].
  specialize (O s Hs). rewrite earlier_snoc. destruct (Z.eqb_spec (sty e) s); [congruence|]. cbn [Nat.add]. rewrite (Q s D).
  destruct (Nat.even (earlier evs (length evs) s)); [assumption|]. destruct O as (i & f & N & B & E). exists i, f. pose proof (nth_error_bound _ _ _ _ N). rewrite nth_pre by assumption. split; [assumption|]. split; [apply jb_skip; [assumption|congruence]|assumption].
Qed.

Lemma step_ok : forall evs c e, Inv evs c -> let r := collate c e (base + Z.of_nat (length evs)) loc w in
  (in_turn (evs ++ [e]) (length evs) -> fst r = true /\ Inv (evs ++ [e]) (snd r)) /\
  (~ in_turn (evs ++ [e]) (length evs) -> fst r = false /\ done (snd r) = done c).
Proof.
  intros evs c e [O P]. unfold collate. assert (T : in_turn (evs ++ [e]) (length evs) <-> (sty e <> 0 -> if Nat.even (earlier evs (length evs) (sty e)) then estart e = true else eend e = true)).
  { unfold in_turn. rewrite nth_error_app2, Nat.sub_diag by lia. cbn. split.
    - intros X Z. specialize (X e eq_refl Z). rewrite earlier_pre in X by lia. assumption.
    - intros X f N Z. injection N as <-. rewrite earlier_pre by lia. apply X. assumption. }
  rewrite T. destruct (Z.eqb_spec (sty e) 0) as [Z|Z]; cbn [fst snd].
  { split; [|intros X; exfalso; apply X; contradiction]. intros _. split; [reflexivity|]. split.
    - apply (opens_other _ _ _ _ O); [reflexivity|contradiction].
    - apply pairs_mono; [assumption|]. rewrite closes_last. tauto. }
  specialize (O (sty e) Z) as Oe. destruct (Nat.even (earlier evs (length evs) (sty e))) eqn:Ev.
  - rewrite Oe. unfold claim. cbn [full new_segment g_hb g_he andb negb]. destruct (estart e) eqn:Es; cbn [negb fst snd full g_hb g_he andb].
    + split; [|intros X; exfalso; apply X; intros; reflexivity]. intros _. split; [reflexivity|]. split; cbn [partial done].
      * apply (opens_other _ _ _ _ O); [intros s Hs; unfold set_partial; destruct (Z.eqb_spec s (sty e)); congruence|]. intros _. rewrite earlier_snoc, Z.eqb_refl. cbn [Nat.add]. rewrite Nat.even_succ, <- Nat.negb_even, Ev. cbn [negb].
        exists (length evs), e. split; [rewrite nth_error_app2, Nat.sub_diag by lia; reflexivity|]. split; [|unfold set_partial; rewrite Z.eqb_refl; reflexivity].
        rewrite app_length. cbn [length]. split; [lia|]. split; [exists e; rewrite nth_error_app2, Nat.sub_diag by lia; auto|intros; lia].
      * apply pairs_mono; [assumption|]. rewrite closes_last, <- Nat.negb_even, Ev. intros [_ X]. discriminate.
    + split; [intros X; specialize (X Z); congruence|]. intros _. split; reflexivity.
  - destruct Oe as (i & f & Nf & B & E). rewrite E. assert (Tf : sty f = sty e) by (destruct B as (_ & (f' & Nf' & Tf) & _); congruence).
    unfold claim. cbn [full seg_open g_hb g_he andb negb g_id g_loc g_worker]. rewrite Tf, !Z.eqb_refl. cbn [negb orb]. destruct (eend e) eqn:Ee; cbn [negb fst snd full g_hb g_he andb].
    + split; [|intros X; exfalso; apply X; intros; reflexivity]. intros _. split; [reflexivity|]. split; cbn [partial done].
      * apply (opens_other _ _ _ _ O); [intros s Hs; unfold set_partial; destruct (Z.eqb_spec s (sty e)); congruence|]. intros _. rewrite earlier_snoc, Z.eqb_refl. cbn [Nat.add]. rewrite Nat.even_succ, <- Nat.negb_even, Ev. cbn [negb]. unfold set_partial. rewrite Z.eqb_refl. reflexivity.
      * assert (X := pairs_add evs e (done c) i f P). cbn [g_begin g_start seg_open]. unfold seg_of in X. apply X; try assumption. rewrite closes_last, <- Nat.negb_even, Ev. split; [assumption|reflexivity].
    + split; [intros X; specialize (X Z); congruence|]. intros _. split; reflexivity.
Qed.

Lemma in_turn_dec : forall evs j, in_turn evs j \/ ~ in_turn evs j.
Proof.
  intros. unfold in_turn. destruct (nth_error evs j) as [e|]; [|left; discriminate]. destruct (Z.eq_dec (sty e) 0) as [Z|Z]; [left; intros f N; injection N as <-; contradiction|].
  destruct (Nat.even (earlier evs j (sty e))) eqn:Ev; [destruct (estart e) eqn:Es|destruct (eend e) eqn:Es];
  try (left; intros f N _; injection N as <-; rewrite Ev; assumption); right; intros X; specialize (X e eq_refl Z); rewrite Ev in X; congruence.
Qed.

Lemma all_ok : forall evs pre c, Inv pre c -> exists n c', collate_all c (base + Z.of_nat (length pre)) loc w evs = (n, c') /\ (n <= length evs)%nat /\
  (forall j, (j < n)%nat -> in_turn (pre ++ evs) (length pre + j)) /\ ((n < length evs)%nat -> ~ in_turn (pre ++ evs) (length pre + n)) /\
  pairs (pre ++ firstn n evs) (done c') /\ (n = length evs -> opens (pre ++ evs) (partial c')).
Proof.
  induction evs as [|e evs IH]; intros pre c I.
  - exists O, c. cbn. rewrite app_nil_r. destruct I. repeat split; auto; intros; lia.
  - cbn [collate_all]. destruct (step_ok pre c e I) as [S1 S2]. destruct (collate c e (base + Z.of_nat (length pre)) loc w) as [ok c1] eqn:E. cbn [fst snd] in S1, S2.
    assert (Ea : pre ++ e :: evs = (pre ++ [e]) ++ evs) by (rewrite <- app_assoc; reflexivity).
    assert (L1 : length (pre ++ [e]) = S (length pre)) by (rewrite app_length; cbn; lia).
    assert (T : in_turn (pre ++ e :: evs) (length pre) <-> in_turn (pre ++ [e]) (length pre)) by (rewrite Ea; apply in_turn_pre; lia).
    destruct (in_turn_dec (pre ++ [e]) (length pre)) as [Y|N].
    + destruct (S1 Y) as [-> I1]. destruct (IH (pre ++ [e]) c1 I1) as (n & c2 & E2 & Ln & H1 & H2 & H3 & H4). rewrite L1 in E2. replace (base + Z.of_nat (S (length pre))) with (base + Z.of_nat (length pre) + 1) in E2 by lia. rewrite E2.
      exists (S n), c2. split; [reflexivity|]. cbn [length firstn]. split; [lia|]. rewrite L1 in H1, H2. rewrite Ea. split; [|split; [|split]].
      * intros j Hj. destruct j as [|j]; [rewrite Nat.add_0_r, <- Ea; apply T; assumption|]. replace (length pre + S j)%nat with (S (length pre) + j)%nat by lia. apply H1. lia.
      * intros Hn. replace (length pre + S n)%nat with (S (length pre) + n)%nat by lia. apply H2. lia.
      * rewrite <- app_assoc in H3. exact H3.
      * intros En. apply H4. lia.
    + destruct (S2 N) as [-> D]. exists O, c1. split; [reflexivity|]. cbn [firstn length]. split; [lia|]. split; [lia|]. split; [intros _; rewrite Nat.add_0_r, T; assumption|]. split; [rewrite app_nil_r, D; apply I|lia].
Qed.
End Coll.

(** Any calls of one collator. *)
Definition opened (calls : list (event * Z * Z * Z)) (s : Z) (g : segment) : Prop :=
  (g_hb g = false /\ g_he g = false /\ g_end g = -1) \/
  exists i ei a loc w, nth_error calls i = Some (ei, a, loc, w) /\ estart ei = true /\ sty ei = s /\
    g = mkSeg s a (-1) loc w (stamp ei) 0 true false.

Lemma nth_error_keep : forall A (l : list A) x i y, nth_error l i = Some y -> nth_error (l ++ [x]) i = Some y.
Proof. intros. rewrite nth_error_app1; [assumption|]. apply nth_error_Some. congruence. Qed.

Definition fed (calls : list (event * Z * Z * Z)) (c : collator) : Prop :=
  (forall s g, partial c s = Some g -> g_finish g = 0 /\ opened calls s g) /\ (forall g, In g (done c) -> made_of calls g).

Lemma opened_keep : forall l x s g, opened l s g -> opened (l ++ [x]) s g.
Proof.
  intros l x s g [H|(i & ei & a & loc & w & N & H)]; [left; assumption|right].
  exists i, ei, a, loc, w. split; [apply nth_error_keep; assumption|assumption].
Qed.
Lemma made_keep : forall l x g, made_of l g -> made_of (l ++ [x]) g.
Proof.
  intros l x g (i & j & ei & ej & a & b & loc & w & L & N1 & N2 & H). exists i, j, ei, ej, a, b, loc, w.
  split; [assumption|]. split; [apply nth_error_keep; assumption|]. split; [apply nth_error_keep; assumption|assumption].
Qed.

Lemma fed_step : forall l c e eid loc w, fed l c -> fed (l ++ [(e, eid, loc, w)]) (snd (collate c e eid loc w)).
Proof.
  intros l c e eid loc w [HP HD]. unfold collate.
  assert (K : fed (l ++ [(e, eid, loc, w)]) c).
  { split; [intros s g H; destruct (HP s g H); split; [assumption|apply opened_keep; assumption]|intros g H; apply made_keep, HD, H]. }
  destruct (sty e =? 0); [exact K|].
  set (g0 := match partial c (sty e) with Some g => g | None => new_segment end).
  assert (G : g_finish g0 = 0 /\ opened l (sty e) g0).
  { unfold g0. destruct (partial c (sty e)) eqn:E; [apply HP; assumption|]. split; [reflexivity|]. left. auto. }
  assert (SP : forall og d, (forall g, og = Some g -> g_finish g = 0 /\ opened (l ++ [(e, eid, loc, w)]) (sty e) g) ->
            (forall g, In g d -> made_of (l ++ [(e, eid, loc, w)]) g) -> fed (l ++ [(e, eid, loc, w)]) (mkC (set_partial (partial c) (sty e) og) d)).
  { intros og d Hg Hd. split; [|exact Hd]. intros s g. cbn [partial]. unfold set_partial. destruct (Z.eqb_spec s (sty e)) as [->|]; [apply Hg|apply K]. }
  destruct K as [KP KD]. clearbody g0. destruct G as [G0 [(B & F & Ge)|(i & ei & a & loc0 & w0 & N & S1 & S2 & ->)]].
  - unfold claim, full at 1. rewrite B, F. cbn [andb negb]. destruct (estart e) eqn:Es; cbn [negb].
    + unfold full; cbn [g_hb g_he andb snd]. apply SP; [|exact KD]. intros g [= <-]. split; [exact G0|].
      right. exists (length l), e, eid, loc, w. rewrite nth_error_app2, Nat.sub_diag by lia. repeat split; try assumption. rewrite G0, Ge. reflexivity.
    + cbn [snd]. apply SP; [|exact KD]. intros g [= <-]. split; [exact G0|]. left. auto.
  - assert (O : opened (l ++ [(e, eid, loc, w)]) (sty e) (mkSeg (sty e) a (-1) loc0 w0 (stamp ei) 0 true false)).
    { right. exists i, ei, a, loc0, w0. split; [apply nth_error_keep; assumption|auto]. }
    unfold claim, full at 1. cbn [g_hb g_he g_id g_loc g_worker g_begin g_start andb negb].
    rewrite Z.eqb_refl. cbn [negb]. destruct (Z.eqb_spec loc loc0) as [->|]; cbn [negb orb snd].
    2:{ apply SP; [|exact KD]. intros g [= <-]. auto. }
    destruct (Z.eqb_spec w0 w) as [->|]; cbn [negb orb snd].
    2:{ apply SP; [|exact KD]. intros g [= <-]. auto. }
    destruct (eend e) eqn:Ee; cbn [negb snd].
    2:{ apply SP; [|exact KD]. intros g [= <-]. auto. }
    unfold full; cbn [g_hb g_he andb snd]. apply SP; [discriminate|]. intros g H. apply in_app_iff in H. destruct H as [H|[<-|[]]]; [apply KD; assumption|].
    exists i, (length l), ei, e, a, eid, loc0, w. split; [apply nth_error_Some; congruence|]. split; [apply nth_error_keep; assumption|].
    rewrite nth_error_app2, Nat.sub_diag by lia. cbn [nth_error]. rewrite S2. repeat split; auto.
Qed.

Lemma fed_all : forall calls, fed calls (feed calls).
Proof.
  intros calls. unfold feed. induction calls as [|k l IH] using rev_ind.
  - split; [discriminate|intros g []].
  - rewrite fold_left_app. cbn [fold_left]. destruct k as [[[e eid] loc] w]. apply fed_step. exact IH.
Qed.
