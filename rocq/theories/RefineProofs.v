From Coq Require Import ZArith List Bool Arith Lia Permutation.
From Verif Require Import Base ListFacts IndexModel IndexSpec IndexProofs TreeModel TreeFacts RefineModel RefineSpec.
Import ListNotations.
Open Scope nat_scope.

Lemma perm_filter : forall A (f : A -> bool) l l', Permutation l l' -> Permutation (filter f l) (filter f l').
Proof.
  intros A f l l' H. induction H; cbn; [constructor| | |eapply perm_trans; eassumption].
  - destruct (f x); [constructor|]; assumption.
  - destruct (f x), (f y); try apply Permutation_refl. constructor.
Qed.

Lemma filter_filter : forall A (f g : A -> bool) l, filter f (filter g l) = filter (fun x => g x && f x) l.
Proof. intros A f g l. induction l as [|x l IH]; cbn; [reflexivity|]. destruct (g x); cbn; [destruct (f x); cbn; rewrite IH; reflexivity|assumption]. Qed.

Lemma filter_eq : forall A (f g : A -> bool) l, (forall x, In x l -> f x = g x) -> filter f l = filter g l.
Proof. intros A f g l H. induction l as [|x l IH]; cbn; [reflexivity|]. rewrite <- (H x) by (left; reflexivity). rewrite IH by (intros; apply H; right; assumption). reflexivity. Qed.

(** Sorting into numbered classes. *)
Lemma filter_class : forall A (cls : A -> nat) ps w0, (forall k p, nth_error ps k = Some p -> forall r, In r p -> cls r = w0 + k) ->
  forall k p, nth_error ps k = Some p -> filter (fun r => cls r =? w0 + k) (concat ps) = p.
Proof.
  intros A cls. induction ps as [|q ps IH]; intros w0 H k p E; [destruct k; discriminate|]. cbn [concat]. rewrite filter_app.
  assert (Hs : forall k p, nth_error ps k = Some p -> forall r, In r p -> cls r = S w0 + k).
  { intros k' p' E' r Hr. rewrite (H (S k') p' E' r Hr). lia. }
  destruct k as [|k]; cbn [nth_error] in E.
  - inversion E; subst. rewrite (filter_all _ _ p). rewrite (proj2 (filter_none _ _ (concat ps))). apply app_nil_r.
    + intros r Hr. apply in_concat in Hr. destruct Hr as (q & Hq & Hr). apply In_nth_error in Hq. destruct Hq as [j Hj].
      apply Nat.eqb_neq. rewrite (Hs j q Hj r Hr). lia.
    + intros r Hr. apply Nat.eqb_eq. apply (H 0 p eq_refl r Hr).
  - rewrite (proj2 (filter_none _ _ q)). cbn [app]. replace (w0 + S k) with (S w0 + k) by lia. apply IH; assumption.
    intros r Hr. apply Nat.eqb_neq. rewrite (H 0 q eq_refl r Hr). lia.
Qed.

Section Proofs.
Context {R : Type} (low : axis -> index -> R -> bool).
Context (part : index -> nat -> (R -> bool) -> list R -> list R * list R) (Hpart : partition_contract part) (thr : nat).

Lemma octant_lt : forall i r, octant low i r < 8.
Proof. intros i r. unfold octant. destruct (low AX i r), (low AY i r), (low AZ i r); lia. Qed.

Lemma split8_spec : forall i l, length (split8 low part i l) = 8 /\ Permutation l (concat (split8 low part i l)) /\
  forall w p, nth_error (split8 low part i l) w = Some p -> forall r, In r p -> octant low i r = w.
Proof.
  intros i l. unfold split8.
  pose proof (Hpart i 4 (low AZ i) l) as P4. destruct (part i 4 (low AZ i) l) as [z0 z1]. destruct P4 as (P4 & T4 & F4).
  pose proof (Hpart i 2 (low AY i) z0) as P2. destruct (part i 2 (low AY i) z0) as [y0 y1]. destruct P2 as (P2 & T2 & F2).
  pose proof (Hpart i 6 (low AY i) z1) as P6. destruct (part i 6 (low AY i) z1) as [y2 y3]. destruct P6 as (P6 & T6 & F6).
  pose proof (Hpart i 1 (low AX i) y0) as P1. destruct (part i 1 (low AX i) y0) as [x0 x1]. destruct P1 as (P1 & T1 & F1).
  pose proof (Hpart i 3 (low AX i) y1) as P3. destruct (part i 3 (low AX i) y1) as [x2 x3]. destruct P3 as (P3 & T3 & F3).
  pose proof (Hpart i 5 (low AX i) y2) as P5. destruct (part i 5 (low AX i) y2) as [x4 x5]. destruct P5 as (P5 & T5 & F5).
  pose proof (Hpart i 7 (low AX i) y3) as P7. destruct (part i 7 (low AX i) y3) as [x6 x7]. destruct P7 as (P7 & T7 & F7).
  assert (Z0 : forall r, In r y0 \/ In r y1 -> low AZ i r = true) by (intros r Hr; apply T4; eapply Permutation_in; [apply Permutation_sym; exact P2|]; apply in_or_app; assumption).
  assert (Z1 : forall r, In r y2 \/ In r y3 -> low AZ i r = false) by (intros r Hr; apply F4; eapply Permutation_in; [apply Permutation_sym; exact P6|]; apply in_or_app; assumption).
  assert (Q0 : forall r, In r x0 \/ In r x1 -> In r y0) by (intros r Hr; eapply Permutation_in; [apply Permutation_sym; exact P1|]; apply in_or_app; assumption).
  assert (Q1 : forall r, In r x2 \/ In r x3 -> In r y1) by (intros r Hr; eapply Permutation_in; [apply Permutation_sym; exact P3|]; apply in_or_app; assumption).
  assert (Q2 : forall r, In r x4 \/ In r x5 -> In r y2) by (intros r Hr; eapply Permutation_in; [apply Permutation_sym; exact P5|]; apply in_or_app; assumption).
  assert (Q3 : forall r, In r x6 \/ In r x7 -> In r y3) by (intros r Hr; eapply Permutation_in; [apply Permutation_sym; exact P7|]; apply in_or_app; assumption).
  split; [reflexivity|]. split.
  - cbn [concat]. rewrite app_nil_r. rewrite P4, P2, P6, P1, P3, P5, P7. rewrite <- !app_assoc. apply Permutation_refl.
  - intros w p E r Hr. unfold octant.
    destruct w as [|[|[|[|[|[|[|[|w]]]]]]]]; cbn in E; try (destruct w; discriminate); apply some_inj in E; subst p.
    + rewrite (T1 r Hr), (T2 r (Q0 r (or_introl Hr))), (Z0 r (or_introl (Q0 r (or_introl Hr)))). reflexivity.
    + rewrite (F1 r Hr), (T2 r (Q0 r (or_intror Hr))), (Z0 r (or_introl (Q0 r (or_intror Hr)))). reflexivity.
    + rewrite (T3 r Hr), (F2 r (Q1 r (or_introl Hr))), (Z0 r (or_intror (Q1 r (or_introl Hr)))). reflexivity.
    + rewrite (F3 r Hr), (F2 r (Q1 r (or_intror Hr))), (Z0 r (or_intror (Q1 r (or_intror Hr)))). reflexivity.
    + rewrite (T5 r Hr), (T6 r (Q2 r (or_introl Hr))), (Z1 r (or_introl (Q2 r (or_introl Hr)))). reflexivity.
    + rewrite (F5 r Hr), (T6 r (Q2 r (or_intror Hr))), (Z1 r (or_introl (Q2 r (or_intror Hr)))). reflexivity.
    + rewrite (T7 r Hr), (F6 r (Q3 r (or_introl Hr))), (Z1 r (or_intror (Q3 r (or_introl Hr)))). reflexivity.
    + rewrite (F7 r Hr), (F6 r (Q3 r (or_intror Hr))), (Z1 r (or_intror (Q3 r (or_intror Hr)))). reflexivity.
Qed.

Lemma split8_members : forall i l w p, nth_error (split8 low part i l) w = Some p ->
  Permutation p (members low i [w] l).
Proof.
  intros i l w p E. destruct (split8_spec i l) as (_ & P & C).
  pose proof (filter_class _ (octant low i) _ 0 C w p E) as F. cbn [Nat.add] in F. rewrite <- F. unfold members.
  apply Permutation_sym. eapply perm_trans; [apply perm_filter; exact P|]. rewrite (filter_eq _ _ (fun r => octant low i r =? w)); [apply Permutation_refl|].
  intros r _. cbn [in_cell]. apply andb_true_r.
Qed.

Lemma members_cons : forall i w p l, members low i (w :: p) l = members low (child (Z.of_nat w) i) p (members low i [w] l).
Proof.
  intros. unfold members. rewrite filter_filter. apply filter_eq. intros r _. cbn [in_cell]. rewrite andb_true_r. reflexivity.
Qed.

Lemma members_perm : forall i p l l', Permutation l l' -> Permutation (members low i p l) (members low i p l').
Proof. intros. apply perm_filter. assumption. Qed.

Lemma members_nil : forall i l, members low i [] l = l.
Proof. intros. unfold members. cbn [in_cell]. apply filter_all. reflexivity. Qed.

Lemma members_app : forall p q i l, members low i (p ++ q) l = members low (follow i p) q (members low i p l).
Proof.
  induction p as [|w p IH]; intros q i l; cbn [app].
  - rewrite members_nil. reflexivity.
  - rewrite (members_cons i w (p ++ q)), (members_cons i w p), IH. reflexivity.
Qed.

(** The loop over the children. *)
Lemma build_spec : forall (rec : index -> nat -> list R -> res (tree rnode * list R)) i ps w off cs outs,
  build rec i w off ps = Ok (cs, outs) ->
  length cs = length ps /\ exists os, outs = concat os /\ length os = length ps /\
  forall k p, nth_error ps k = Some p -> exists c o, nth_error cs k = Some c /\ nth_error os k = Some o /\
    match c with
    | None => p = [] /\ o = []
    | Some t => p <> [] /\ rec (child (Z.of_nat (w + k)) i) (off + length (concat (firstn k ps))) p = Ok (t, o)
    end.
Proof.
  intros rec i. induction ps as [|p ps IH]; intros w off cs outs H; cbn [build] in H.
  - inversion H; subst. split; [reflexivity|]. exists []. split; [reflexivity|]. split; [reflexivity|]. intros [|k] p E; discriminate.
  - set (A := match p with [] => Ok (None, []) | _ => _ end) in H.
    destruct A as [[c o]|] eqn:EA; [|discriminate]. cbn [bind] in H.
    destruct (build rec i (S w) (off + length p) ps) as [[cs' outs']|] eqn:EB; [|discriminate]. cbn [bind fst snd] in H. inversion H; subst; clear H.
    destruct (IH _ _ _ _ EB) as (L & os & Eo & Lo & K). split; [cbn [length]; lia|]. exists (o :: os). split; [cbn [concat]; rewrite Eo; reflexivity|].
    split; [cbn [length]; lia|]. intros [|k] q E; cbn [nth_error] in *.
    + inversion E; subst q. exists c, o. split; [reflexivity|]. split; [reflexivity|]. subst A. cbn [firstn concat length].
      destruct p as [|r p]; [inversion EA; auto|]. destruct (rec _ _ _) as [[t o']|] eqn:ER in EA; [|discriminate]. cbn [bind fst snd] in EA. inversion EA; subst.
      split; [discriminate|]. rewrite !Nat.add_0_r. assumption.
    + destruct (K k q E) as (c' & o' & H1 & H2 & H3). exists c', o'. split; [assumption|]. split; [assumption|].
      destruct c' as [t|]; [|assumption]. destruct H3 as [H3 H4]. split; [assumption|]. cbn [firstn concat]. rewrite app_length.
      replace (w + S k) with (S w + k) by lia. replace (off + (length p + length (concat (firstn k ps)))) with (off + length p + length (concat (firstn k ps))) by lia. assumption.
Qed.

(** What a finished refinement looks like at one node. *)
Definition node_ok (i : index) (off : nat) (l out : list R) (p : list nat) (n : tree rnode) : Prop :=
  exists pre mid post, out = pre ++ mid ++ post /\
    info n = mkR (follow i p) (off + length pre) (length mid) /\
    Permutation mid (members low i p l) /\ mid <> [] /\ length (kids n) = 8 /\
    (if length mid <=? thr then kids n = no_kids
     else (forall w, w < 8 -> kid n w = None <-> members low i (p ++ [w]) l = []) /\
          consecutive (off + length pre) (child_segments n) (off + length pre + length mid)).

Definition good (i : index) (off : nat) (l : list R) (t : tree rnode) (out : list R) : Prop :=
  Permutation l out /\ info t = mkR i off (length l) /\ (forall p n, sub t p = Some n -> node_ok i off l out p n).

Lemma concat_split : forall A (ls : list (list A)) k x, nth_error ls k = Some x -> concat ls = concat (firstn k ls) ++ x ++ concat (skipn (S k) ls).
Proof.
  intros A. induction ls as [|y ls IH]; intros [|k] x E; cbn [nth_error] in E; try discriminate.
  - inversion E. reflexivity.
  - cbn [concat firstn skipn]. rewrite (IH k x E), <- app_assoc. reflexivity.
Qed.

Lemma concat_len_eq : forall A (ls ms : list (list A)), length ls = length ms ->
  (forall k x y, nth_error ls k = Some x -> nth_error ms k = Some y -> length x = length y) -> length (concat ls) = length (concat ms).
Proof.
  intros A. induction ls as [|x ls IH]; intros [|y ms] L H; try discriminate; [reflexivity|]. cbn [concat]. rewrite !app_length.
  rewrite (H 0 x y eq_refl eq_refl). f_equal. apply IH; [cbn in L; lia|]. intros k. apply (H (S k)).
Qed.

Lemma consecutive_app : forall s1 s2 a b c, consecutive a s1 b -> consecutive b s2 c -> consecutive a (s1 ++ s2) c.
Proof. induction s1 as [|[o n] s IH]; intros s2 a b c H1 H2; cbn in *; [subst; assumption|]. destruct H1. split; [assumption|]. eapply IH; eassumption. Qed.

(** Segments of the children built from [ps] follow each other. *)
Lemma build_segments : forall (rec : index -> nat -> list R -> res (tree rnode * list R)) i ps w off cs outs (segs : tree rnode -> list (nat * nat)),
  (forall j o l t out, rec j o l = Ok (t, out) -> consecutive o (segs t) (o + length l)) ->
  build rec i w off ps = Ok (cs, outs) ->
  consecutive off (flat_map (fun o => match o with Some c => segs c | None => [] end) cs) (off + length (concat ps)).
Proof.
  intros rec i ps w off cs outs segs Hr. revert w off cs outs. induction ps as [|p ps IH]; intros w off cs outs H; cbn [build] in H.
  - inversion H; subst. cbn. lia.
  - set (A := match p with [] => Ok (None, []) | _ => _ end) in H.
    destruct A as [[c o]|] eqn:EA; [|discriminate]. cbn [bind] in H.
    destruct (build rec i (S w) (off + length p) ps) as [[cs' outs']|] eqn:EB; [|discriminate]. cbn [bind fst snd] in H. inversion H; subst; clear H.
    apply IH in EB. cbn [flat_map concat]. rewrite app_length, Nat.add_assoc. eapply consecutive_app; [|exact EB]. subst A.
    destruct p as [|r p]; [inversion EA; cbn; lia|]. destruct (rec _ _ _) as [[t o']|] eqn:ER in EA; [|discriminate]. cbn [bind fst snd] in EA. inversion EA; subst. apply Hr in ER. assumption.
Qed.

Lemma good_nonempty : forall i off l t out, good i off l t out -> l <> [].
Proof.
  intros i off l t out (P & E & N) ->. destruct (N [] t eq_refl) as (pre & mid & post & _ & _ & Pm & Nm & _). cbn in Pm. apply Nm. apply Permutation_nil. apply Permutation_sym. assumption.
Qed.

Lemma refine_good : forall fuel i off l t out, refine low part thr fuel i off l = Ok (t, out) -> good i off l t out.
Proof.
  induction fuel as [|fuel IH]; intros i off l t out H; cbn [refine] in H;
    destruct (1 <=? length l) eqn:E1; cbn [assert_ bind] in H; try discriminate; apply Nat.leb_le in E1;
    destruct (length l <=? thr) eqn:ET; try discriminate.
  1,2: inversion H; subst; split; [apply Permutation_refl|]; split; [reflexivity|]; intros [|w p] n S; cbn [sub] in S;
    [inversion S; subst; exists [], out, []; rewrite app_nil_r, members_nil; cbn [follow fold_left length info kids]; rewrite Nat.add_0_r, ET;
     split; [reflexivity|]; split; [reflexivity|]; split; [apply Permutation_refl|]; split; [destruct out; [cbn in E1; lia|discriminate]|]; split; reflexivity
    |rewrite kid_no_kids in S; discriminate].
  destruct (build _ i 0 off (split8 low part i l)) as [[cs outs]|] eqn:EB; [|discriminate]. cbn [bind fst snd] in H. inversion H; subst; clear H.
  destruct (split8_spec i l) as (L8 & PS & CS).
  destruct (build_spec _ _ _ _ _ _ _ EB) as (Lc & os & Eo & Lo & K). rewrite L8 in *. subst out.
  assert (HP : forall k p o, nth_error (split8 low part i l) k = Some p -> nth_error os k = Some o -> Permutation p o).
  { intros k p o Ep Eo. destruct (K k p Ep) as (c & o' & _ & Eo' & M). rewrite Eo in Eo'. inversion Eo'; subst o'. destruct c as [c|]; [|destruct M; subst; constructor]. destruct M as [_ M]. apply IH in M. apply M. }
  assert (PC : Permutation (concat (split8 low part i l)) (concat os)).
  { clear -HP Lo L8. revert HP. rewrite <- L8 in Lo. clear L8. revert Lo. generalize (split8 low part i l) as ps. intros ps. revert os. induction ps as [|p ps IH]; intros [|o os] L H; try discriminate; [constructor|].
    cbn [concat]. apply Permutation_app; [apply (H 0); reflexivity|]. apply IH; [cbn in L; lia|]. intros k. apply (H (S k)). }
  split; [eapply perm_trans; eassumption|]. split; [reflexivity|].
  assert (Lfst : forall k, length (concat (firstn k os)) = length (concat (firstn k (split8 low part i l)))).
  { intros k. apply concat_len_eq; [rewrite !firstn_length; lia|]. intros j x y Ex Ey.
    assert (Hj : j < k) by (apply nth_error_bound in Ex; rewrite firstn_length in Ex; lia).
    rewrite nth_error_firstn_lt in Ex, Ey by assumption. symmetry. apply Permutation_length. eapply HP; eassumption. }
  intros [|w p] n S; cbn [sub] in S.
  - inversion S; subst n; clear S. exists [], (concat os), []. rewrite app_nil_r, members_nil. cbn [follow fold_left length info kids].
    assert (LL : length (concat os) = length l) by (symmetry; apply Permutation_length; eapply perm_trans; eassumption). rewrite Nat.add_0_r, LL, ET.
    split; [reflexivity|]. split; [reflexivity|]. split; [apply Permutation_sym; eapply perm_trans; eassumption|].
    split; [intros X; rewrite X in LL; cbn in LL; lia|]. split; [assumption|]. split.
    + intros w Hw. cbn [app]. destruct (nth_error (split8 low part i l) w) as [q|] eqn:Eq; [|apply nth_error_None in Eq; lia].
      pose proof (split8_members _ _ _ _ Eq) as Pq. destruct (K w q Eq) as (c & o & Ec & _ & M). unfold kid. cbn [kids]. rewrite Ec.
      destruct c as [c|]; [destruct M as [N _]|destruct M as [-> _]].
      * split; [discriminate|]. intros X. rewrite X in Pq. apply Permutation_sym, Permutation_nil in Pq. contradiction.
      * split; [|reflexivity]. intros _. apply Permutation_nil. assumption.
    + replace (length l) with (length (concat (split8 low part i l))) by (symmetry; apply Permutation_length; assumption).
      unfold child_segments. cbn [kids]. eapply (build_segments _ i _ 0 off _ _ (fun c => [(r_off (info c), r_cnt (info c))])); [|exact EB].
      intros j o l' t' out' X. apply IH in X. destruct X as (_ & -> & _). cbn. auto.
  - destruct (kid (T _ cs) w) as [c|] eqn:Kw; [|discriminate]. unfold kid in Kw. cbn [kids] in Kw. destruct (nth_error cs w) as [[c'|]|] eqn:Ec; inversion Kw; subst c'.
    assert (Hw : w < 8) by (apply nth_error_bound in Ec; lia).
    destruct (nth_error (split8 low part i l) w) as [q|] eqn:Eq; [|apply nth_error_None in Eq; lia].
    destruct (K w q Eq) as (c' & o & Ec' & Eo & M). rewrite Ec in Ec'. inversion Ec'; subst c'. destruct M as [Nq M]. cbn [Nat.add] in M. apply IH in M. destruct M as (Po & _ & M).
    destruct (M p n S) as (pre & mid & post & E & I & Pm & Nm & L & Z).
    pose proof (split8_members _ _ _ _ Eq) as Pq.
    exists (concat (firstn w os) ++ pre), mid, (post ++ concat (skipn (Datatypes.S w) os)). split; [rewrite (concat_split _ os w o Eo), E, <- !app_assoc; reflexivity|].
    rewrite app_length, Lfst. split; [rewrite I; f_equal; lia|].
    split; [rewrite members_cons; eapply perm_trans; [exact Pm|]; apply members_perm; assumption|]. split; [assumption|]. split; [assumption|].
    destruct (length mid <=? thr); [assumption|]. destruct Z as [Z1 Z2]. split.
    + intros v Hv. rewrite (Z1 v Hv). cbn [app]. rewrite (members_cons i w (p ++ [v])).
      pose proof (members_perm (child (Z.of_nat w) i) (p ++ [v]) _ _ Pq) as PP. split; intros X; rewrite X in PP; [apply Permutation_nil; assumption|apply Permutation_nil; apply Permutation_sym; assumption].
    + rewrite !Nat.add_assoc in *. assumption.
Qed.

Lemma refine_leaves : forall fuel i off l t out, refine low part thr fuel i off l = Ok (t, out) -> consecutive off (leaf_segments t) (off + length l).
Proof.
  induction fuel as [|fuel IH]; intros i off l t out H; pose proof (refine_good _ _ _ _ _ _ H) as HG; cbn [refine] in H;
    destruct (1 <=? length l) eqn:E1; cbn [assert_ bind] in H; try discriminate;
    destruct (length l <=? thr) eqn:ET; try discriminate; try (inversion H; subst; cbn; auto; fail).
  destruct (build _ i 0 off (split8 low part i l)) as [[cs outs]|] eqn:EB; [|discriminate]. cbn [bind fst snd] in H. inversion H; subst; clear H.
  destruct (split8_spec i l) as (L8 & PS & CS).
  assert (Elen : length (concat (split8 low part i l)) = length l) by (symmetry; apply Permutation_length; assumption).
  pose proof (build_segments _ i _ 0 off _ _ leaf_segments IH EB) as Q. rewrite Elen in Q.
  unfold leaf_segments. cbn [nodes filter].
  replace (is_leaf (T (mkR i off (length l)) cs)) with false.
  { clear -Q. replace (map (fun n => (r_off (info n), r_cnt (info n))) (filter is_leaf (flat_map (fun o => match o with Some c => nodes c | None => [] end) cs)))
      with (flat_map (fun o => match o with Some c => leaf_segments c | None => [] end) cs); [assumption|].
    clear Q. induction cs as [|[c|] cs IHc]; cbn [flat_map]; [reflexivity| |assumption]. rewrite filter_app, map_app, IHc. reflexivity. }
  symmetry. unfold is_leaf. apply Nat.eqb_neq. unfold n_children. cbn [kids]. intros X.
  destruct (split8 low part i l) as [|q0 qs] eqn:Es; [discriminate|]. apply Nat.leb_le in E1.
  assert (exists w q, nth_error (q0 :: qs) w = Some q /\ q <> []) as (w & q & Eq & Nq).
  { clear -Elen E1. rewrite <- Elen in E1. clear Elen. revert E1. generalize (q0 :: qs) as ls. intros ls. induction ls as [|x ls IH]; cbn [concat]; intros H; [cbn in H; lia|].
    destruct x as [|a x]; [destruct (IH H) as (w & q & A & B); exists (S w), q; auto|]. exists 0, (a :: x). split; [reflexivity|discriminate]. }
  destruct (build_spec _ _ _ _ _ _ _ EB) as (_ & os & _ & _ & K). destruct (K w q Eq) as (c & o & Ec & _ & M).
  destruct c as [c|]; [|destruct M; contradiction]. apply nth_error_In in Ec.
  assert (In (Some c) (filter (fun o => match o with Some _ => true | None => false end) cs)) as Y by (apply filter_In; auto).
  destruct (filter _ cs); [contradiction|discriminate].
Qed.

(** Termination.  [bounded d]: no cell d levels down has more than [thr]. *)
Definition bounded (i : index) (l : list R) (d : nat) : Prop := forall p, length p = d -> length (members low i p l) <= thr.

Lemma build_all : forall (rec : index -> nat -> list R -> res (tree rnode * list R)) i ps w off,
  (forall k p o, nth_error ps k = Some p -> p <> [] -> exists t, rec (child (Z.of_nat (w + k)) i) o p = Ok t) ->
  exists r, build rec i w off ps = Ok r.
Proof.
  intros rec i. induction ps as [|p ps IH]; intros w off H; cbn [build]; [eauto|].
  destruct (IH (S w) (off + length p)) as [b Eb]. { intros k q o E N. destruct (H (S k) q o E N) as [t Et]. exists t. replace (S w + k) with (w + S k) by lia. assumption. }
  destruct p as [|r p].
  - cbn [bind]. rewrite Eb. cbn [bind]. eauto.
  - destruct (H 0 (r :: p) off eq_refl ltac:(discriminate)) as [t Et]. rewrite Nat.add_0_r in Et. rewrite Et. cbn [bind]. rewrite Eb. cbn [bind]. eauto.
Qed.

Lemma refine_terminates : forall d i off l fuel, d <= fuel -> l <> [] -> bounded i l d -> exists r, refine low part thr fuel i off l = Ok r.
Proof.
  induction d as [|d IH]; intros i off l fuel F N B.
  - specialize (B [] eq_refl). rewrite members_nil in B. apply Nat.leb_le in B.
    assert (E : (1 <=? length l) = true) by (apply Nat.leb_le; destruct l; [contradiction|cbn; lia]).
    destruct fuel; cbn [refine]; rewrite E; cbn [assert_ bind]; rewrite B; eauto.
  - destruct fuel as [|fuel]; [lia|]. cbn [refine].
    assert (E : (1 <=? length l) = true) by (apply Nat.leb_le; destruct l; [contradiction|cbn; lia]). rewrite E. cbn [assert_ bind].
    destruct (length l <=? thr); [eauto|].
    destruct (build_all (refine low part thr fuel) i (split8 low part i l) 0 off) as [r Er]; [|rewrite Er; cbn [bind]; eauto].
    intros k p o Ep Np. apply IH; [lia|assumption|]. intros q Lq. cbn [Nat.add].
    pose proof (split8_members _ _ _ _ Ep) as Pp. rewrite (Permutation_length (members_perm _ q _ _ Pp)). rewrite <- members_cons. apply B. cbn. lia.
Qed.

Lemma members_le : forall i p l, length (members low i p l) <= length l.
Proof. intros. apply filter_length_le. Qed.

Lemma refine_bounded : forall fuel i off l r, refine low part thr fuel i off l = Ok r -> bounded i l fuel.
Proof.
  induction fuel as [|fuel IH]; intros i off l r H p Lp; cbn [refine] in H;
    destruct (1 <=? length l); cbn [assert_ bind] in H; try discriminate;
    destruct (length l <=? thr) eqn:E; try discriminate; try (apply Nat.leb_le in E; pose proof (members_le i p l); lia).
  destruct (build _ i 0 off _) as [[cs outs]|] eqn:EB; [|discriminate].
  destruct p as [|w p]; [discriminate|]. injection Lp as Lp. rewrite members_cons.
  destruct (split8_spec i l) as (L8 & _ & _). destruct (nth_error (split8 low part i l) w) as [q|] eqn:Eq.
  - rewrite <- (Permutation_length (members_perm _ p _ _ (split8_members _ _ _ _ Eq))).
    destruct (build_spec _ _ _ _ _ _ _ EB) as (_ & os & _ & _ & K). destruct (K w q Eq) as (c & o & _ & _ & M).
    destruct c as [c|]; [|destruct M as [-> _]; cbn; lia]. destruct M as [_ M]. apply (IH _ _ _ _ M). assumption.
  - apply nth_error_None in Eq. replace (members low i [w] l) with (@nil R); [cbn; lia|]. symmetry. unfold members. apply filter_none.
    intros r' _. cbn [in_cell]. rewrite andb_true_r. apply Nat.eqb_neq. pose proof (octant_lt i r'). lia.
Qed.
End Proofs.
