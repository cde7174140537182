(** Proofs for C102. *)
From Coq Require Import ZArith List Bool Arith Lia Permutation.
From Verif Require Import Base ListFacts IndexModel TreeModel TreeFacts LookupModel GeomModel DagModel DagSpec DagPaths MergeShiftModel MergeShiftSpec MergeShiftProps FitModel FitSpec.
Import ListNotations.
Open Scope nat_scope.

Definition well (h : heap) (l : list ptr) : Prop :=
  NoDup (live h) /\ (forall n, In n (live h) -> n < next h) /\ Permutation (map Block (live h)) l.

Lemma well_perm h l l' : Permutation l l' -> well h l -> well h l'.
Proof. intros P (a & b & c). repeat split; auto. etransitivity; eassumption. Qed.

Lemma nodup_app : forall (a b : list nat), NoDup a -> NoDup b -> (forall x, In x a -> ~ In x b) -> NoDup (a ++ b).
Proof.
  induction a as [|x a IH]; intros b Ha Hb H; [exact Hb|]. inversion Ha as [|? ? X Y]; subst. cbn. constructor.
  - intros I. apply in_app_or in I. destruct I as [I|I]; [contradiction|]. exact (H x (or_introl eq_refl) I).
  - apply IH; auto. intros y I. apply H. right. exact I.
Qed.

Lemma new_well k h l : well h l -> well (fst (new k h)) (snd (new k h) ++ l) /\ length (snd (new k h)) = k.
Proof.
  intros (N & B & P). unfold new. cbn [fst snd]. split; [|rewrite map_length, seq_length; reflexivity]. unfold well. cbn [live next]. split; [|split].
  - apply nodup_app; [apply seq_NoDup|exact N|]. intros n I J. apply in_seq in I. apply B in J. lia.
  - intros n I. apply in_app_or in I. destruct I as [I|I]; [apply in_seq in I; lia|apply B in I; lia].
  - rewrite map_app. apply Permutation_app_head. exact P.
Qed.

Lemma remove_perm : forall l n, NoDup l -> In n l -> Permutation l (n :: remove Nat.eq_dec n l).
Proof.
  induction l as [|m l IH]; intros n N I; [destruct I|]. inversion N as [|? ? X Y]; subst. cbn [remove]. destruct (Nat.eq_dec n m) as [->|D].
  - rewrite notin_remove by exact X. reflexivity.
  - destruct I as [I|I]; [congruence|]. rewrite (IH n Y I) at 1. apply perm_swap.
Qed.

Lemma delete_well h p l : well h (p :: l) -> exists h', delete h p = Ok h' /\ well h' l.
Proof.
  intros (N & B & P). assert (I : In p (map Block (live h))) by (apply (Permutation_in _ (Permutation_sym P)); left; reflexivity).
  apply in_map_iff in I. destruct I as (n & <- & I). cbn [delete]. destruct (in_dec Nat.eq_dec n (live h)) as [J|J]; [|contradiction].
  eexists. split; [reflexivity|]. pose proof (remove_perm _ _ N J) as R. unfold well. cbn [live next]. split; [|split].
  - apply (Permutation_NoDup R) in N. inversion N. assumption.
  - intros m K. apply B. apply (Permutation_in _ (Permutation_sym R)). right. exact K.
  - apply (Permutation_cons_inv (a := Block n)). etransitivity; [|exact P]. symmetry. exact (Permutation_map Block R).
Qed.

Lemma deletes_well : forall ps h l, well h (ps ++ l) -> exists h', foldM delete ps h = Ok h' /\ well h' l.
Proof.
  induction ps as [|p ps IH]; intros h l W; [exists h; auto|]. destruct (delete_well _ _ _ W) as (h' & E & W'). cbn [foldM]. rewrite E. cbn [bind]. apply IH. exact W'.
Qed.
Lemma destroy_well : forall vs h l, well h (map snd vs ++ l) -> exists h', destroy h vs = Ok h' /\ well h' l.
Proof.
  unfold destroy. induction vs as [|v vs IH]; intros h l W; [exists h; auto|]. destruct (delete_well _ _ _ W) as (h' & E & W'). cbn [foldM]. rewrite E. cbn [bind]. apply IH. exact W'.
Qed.

Lemma fst_combine : forall (a : list Z) (b : list ptr), length a = length b -> map fst (combine a b) = a.
Proof. induction a as [|x a IH]; intros [|y b] H; try discriminate H; [reflexivity|]. cbn. f_equal. apply IH. cbn in H. lia. Qed.
Lemma snd_combine : forall (a : list Z) (b : list ptr), length a = length b -> map snd (combine a b) = b.
Proof. induction a as [|x a IH]; intros [|y b] H; try discriminate H; [reflexivity|]. cbn. f_equal. apply IH. cbn in H. lia. Qed.

Lemma construct_well x r h l : well h l -> well (fst (construct x r h)) (map snd (snd (construct x r h)) ++ l) /\ map fst (snd (construct x r h)) = views_of x r.
Proof.
  intros W. unfold construct. destruct (new_well (length (views_of x r)) h l W) as [W' L]. destruct (new _ h) as [h' ps]. cbn [fst snd] in *.
  rewrite snd_combine, fst_combine by (symmetry; exact L). auto.
Qed.

Lemma views_upto x r : exists n, 1 <= n /\ views_of x r = map Z.of_nat (seq 0 n).
Proof. destruct x, r; unfold views_of; first [exists 1; split; [lia|reflexivity] | eexists; split; [|reflexivity]; lia]. Qed.

Lemma skip_twice : forall X (l : list X) a b, skipn a (skipn b l) = skipn (b + a) l.
Proof. intros X l. induction l as [|y l IH]; intros a [|b]; cbn [skipn plus]; try reflexivity; [destruct a; reflexivity|apply IH]. Qed.

(** What an [I_to_I] gives. *)
Lemma tags_ok x s t : In x [Laplace; Yukawa; Helmholtz] -> near_child t s -> ~ (forall a, icoord a s / 2 = icoord a t)%Z ->
  exists l, tags x s t = Ok l /\ 1 <= length l <= 3 /\ forall g, In g l -> (0 <= g < 28)%Z.
Proof.
  intros Hx N D.
  assert (V : forall k, exists ps, i_to_i k s t = Ok ps /\ 1 <= length (map p_tag ps) <= 3 /\ forall g, In g (map p_tag ps) -> (0 <= g < 28)%Z).
  { intros k. destruct (C40_views k s t N) as (ps & E & _ & B & L & Z0 & _). exists ps. split; [exact E|]. rewrite map_length. split.
    - split; [|exact L]. destruct ps; [exfalso; apply D, Z0; reflexivity|cbn; lia].
    - intros g I. apply in_map_iff in I. destruct I as (p & <- & I). apply B, I. }
  destruct Hx as [<-|[<-|[<-|[]]]]; cbn [tags].
  - destruct (V Lap) as (ps & -> & H). eexists. split; [reflexivity|exact H].
  - destruct (V Yuk) as (ps & -> & H). eexists. split; [reflexivity|exact H].
  - destruct (V HelEvan) as (? & -> & _). cbn [bind]. destruct (V HelProp) as (ps & -> & H). eexists. split; [reflexivity|exact H].
Qed.

Definition fits_in (x : expansion) (v : dnode) (ixs : list Z) : Prop := ixs <> [] /\ incl ixs (views_of x (role_of v)).

Lemma I_to_I_well x s t h l : In x [Laplace; Yukawa; Helmholtz] -> near_child t s -> ~ (forall a, icoord a s / 2 = icoord a t)%Z -> well h l ->
  exists h' vs, I_to_I x s t h = Ok (h', vs) /\ well h' (map snd vs ++ l) /\ map fst vs <> [] /\ incl (map fst vs) (views_of x TargetIntermediate).
Proof.
  intros Hx N D W. destruct (tags_ok x s t Hx N D) as (g & Eg & Lg & Bg). unfold I_to_I.
  destruct (new_well (3 * length (of_tag x 0)) h l W) as [W' L]. destruct (new _ h) as [h1 ps]. cbn [fst snd] in *. rewrite Eg. cbn [bind].
  assert (Inc : incl (flat_map (of_tag x) g) (views_of x TargetIntermediate)).
  { intros z I. apply in_flat_map in I. destruct I as (k & I & J). apply Bg in I.
    assert (Z : forall n m, (0 <= m < Z.of_nat n)%Z -> In m (map Z.of_nat (seq 0 n))) by (intros n m Hm; apply in_map_iff; exists (Z.to_nat m); split; [lia|apply in_seq; lia]).
    destruct Hx as [<-|[<-|[<-|[]]]]; cbn [of_tag In] in J; unfold views_of; apply Z; destruct J as [J|J]; try (destruct J as [J|J]); try contradiction; subst z; lia. }
  assert (X : forall (a b c : list ptr), ps = a ++ b ++ c -> length a = length (of_tag x 0) -> length b = length (of_tag x 0) -> length c = length (of_tag x 0) ->
    exists h' vs, (do h0 <- (if 1 <? length g then Ok h1 else foldM delete b h1); do h2 <- (if 2 <? length g then Ok h0 else foldM delete c h0); Ok (h2, combine (flat_map (of_tag x) g) ps)) = Ok (h', vs)
     /\ well h' (map snd vs ++ l) /\ map fst vs <> [] /\ incl (map fst vs) (views_of x TargetIntermediate)).
  { intros a b c -> La Lb Lc.
    assert (T : forall k, length (of_tag x k) = length (of_tag x 0)) by (intros k; destruct x; reflexivity).
    assert (T1 : 1 <= length (of_tag x 0)) by (destruct x; cbn; lia).
    assert (CB : forall (u v : list ptr), length (flat_map (of_tag x) g) = length u -> combine (flat_map (of_tag x) g) (u ++ v) = combine (flat_map (of_tag x) g) u).
    { intros u v E. clear - E. revert u E. induction (flat_map (of_tag x) g) as [|y m IH]; intros [|z u] E; try discriminate E; [reflexivity|]. cbn. f_equal. apply IH. cbn in E. lia. }
    assert (Fin : forall (u : list ptr) h', length (flat_map (of_tag x) g) = length u -> well h' (u ++ l) -> well h' (map snd (combine (flat_map (of_tag x) g) u) ++ l) /\ map fst (combine (flat_map (of_tag x) g) u) <> [] /\ incl (map fst (combine (flat_map (of_tag x) g) u)) (views_of x TargetIntermediate)).
    { intros u h' E Wu. rewrite snd_combine, fst_combine by exact E. split; [exact Wu|]. split; [|exact Inc]. destruct g as [|k g]; [cbn in Lg; lia|]. cbn [flat_map]. specialize (T k). destruct (of_tag x k); [cbn in T; lia|discriminate]. }
    destruct g as [|g1 [|g2 [|g3 [|]]]]; cbn [length] in Lg; try lia; cbn [length Nat.ltb Nat.leb] in *.
    - assert (W1 : well h1 (b ++ c ++ a ++ l)) by (eapply well_perm; [|exact W']; rewrite <- !app_assoc; etransitivity; [apply Permutation_app_comm|rewrite <- !app_assoc; apply Permutation_app_head, Permutation_app_head, Permutation_app_comm]).
      destruct (deletes_well _ _ _ W1) as (h2 & E2 & W2). rewrite E2. cbn [bind]. destruct (deletes_well _ _ _ W2) as (h3 & E3 & W3). rewrite E3. cbn [bind]. eexists h3, _. split; [reflexivity|].
      assert (E : length (flat_map (of_tag x) [g1]) = length a) by (cbn [flat_map]; rewrite app_nil_r, (T g1); lia). rewrite CB by exact E. apply Fin; assumption.
    - assert (W1 : well h1 (c ++ (a ++ b) ++ l)) by (eapply well_perm; [|exact W']; rewrite <- !app_assoc; rewrite (app_assoc a b (c ++ l)), (app_assoc a b l), (app_assoc c (a ++ b) l), (app_assoc (a ++ b) c l); apply Permutation_app_tail, Permutation_app_comm).
      cbn [bind]. destruct (deletes_well _ _ _ W1) as (h3 & E3 & W3). rewrite E3. cbn [bind]. eexists h3, _. split; [reflexivity|].
      assert (E : length (flat_map (of_tag x) [g1; g2]) = length (a ++ b)) by (cbn [flat_map]; rewrite app_nil_r, !app_length, (T g1), (T g2); lia). rewrite app_assoc, CB by exact E. apply Fin; assumption.
    - cbn [bind]. eexists h1, _. split; [reflexivity|]. apply Fin; [|exact W']. cbn [flat_map]. rewrite app_nil_r, !app_length, (T g1), (T g2), (T g3). lia. }
  set (w := length (of_tag x 0)) in *. apply (X (firstn w ps) (firstn w (skipn w ps)) (skipn (2 * w) ps)).
  - replace (2 * w) with (w + w) by lia. rewrite <- skip_twice, 2 firstn_skipn. reflexivity.
  - rewrite firstn_length, L. lia.
  - rewrite firstn_length, skipn_length, L. lia.
  - rewrite skipn_length, L. lia.
Qed.

(** An edge a built-in method makes: its ends are of the kind its operation says, and
    intermediate expansions go to a neighbour of the parent and not to the parent itself. *)
Definition fair (e : edge) : Prop := shape e /\ (eop e = ItoI ->
  near_child (idx_of (snd (fst (eto e)))) (idx_of (snd (fst (efrom e)))) /\
  ~ (forall a, icoord a (idx_of (snd (fst (efrom e)))) / 2 = icoord a (idx_of (snd (fst (eto e)))))%Z).

Lemma make_well x e h l : fair e -> ~ lacks x (eop e) -> ~ In (eop e) [StoT; MtoT; LtoT] -> well h l ->
  exists h' vs, make x (eop e) (idx_of (snd (fst (efrom e)))) (idx_of (snd (fst (eto e)))) h = Ok (h', Some vs) /\
    well h' (map snd vs ++ l) /\ fits_in x (eto e) (map fst vs).
Proof.
  intros (Sh & Near) La No W.
  assert (C : forall r, role_of (eto e) = r -> exists h' vs, (let (h0, vs0) := construct x r h in Ok (h0, Some vs0)) = Ok (h', Some vs) /\ well h' (map snd vs ++ l) /\ fits_in x (eto e) (map fst vs)).
  { intros r <-. destruct (construct_well x (role_of (eto e)) h l W) as [W' F]. destruct (construct x _ h) as [h' vs]. cbn [fst snd] in *. exists h', vs. split; [reflexivity|]. split; [exact W'|]. rewrite F. split; [|apply incl_refl].
    destruct (views_upto x (role_of (eto e))) as (n & Hn & ->). destruct n; [lia|discriminate]. }
  assert (I : role_of (eto e) = TargetIntermediate -> eop e = ItoI -> In x [Laplace; Yukawa; Helmholtz] -> exists h' vs, (do r <- I_to_I x (idx_of (snd (fst (efrom e)))) (idx_of (snd (fst (eto e)))) h; Ok (fst r, Some (snd r))) = Ok (h', Some vs) /\ well h' (map snd vs ++ l) /\ fits_in x (eto e) (map fst vs)).
  { intros R O Hx. destruct (Near O) as [N D]. destruct (I_to_I_well x _ _ h l Hx N D W) as (h' & vs & E & W' & F & G). rewrite E. cbn [bind fst snd]. exists h', vs. split; [reflexivity|]. split; [exact W'|]. split; [exact F|]. rewrite R. exact G. }
  destruct Sh; cbn [eop efrom eto] in *; try (exfalso; apply No; cbn; tauto); unfold make; destruct x; try (exfalso; apply La; cbn; tauto); try (apply C; reflexivity); apply I; cbn; tauto.
Qed.

Lemma make_lacks x e h : fair e -> lacks x (eop e) -> make x (eop e) (idx_of (snd (fst (efrom e)))) (idx_of (snd (fst (eto e)))) h = Ok (h, None) /\ ~ In (eop e) [StoT; MtoT; LtoT].
Proof. intros (Sh & _) La. destruct Sh; cbn [eop] in *; destruct x; cbn [lacks In] in La; try contradiction; try (exfalso; repeat (destruct La as [La|La]; try discriminate La); first [contradiction|discriminate La]); (split; [reflexivity|cbn; intuition discriminate]). Qed.

Definition good (x : expansion) (st : state) : Prop :=
  well (mem st) (flat_map (fun q => map snd (snd q)) (held st)) /\
  (forall v vs, In (v, vs) (held st) -> map fst vs = views_of x (role_of v)) /\
  (forall v ixs, In (v, ixs) (flying st) -> fits_in x v ixs).

Lemma serve_good x e st : fair e -> ~ lacks x (eop e) -> good x st -> exists st', serve x e st = Ok st' /\ good x st'.
Proof.
  intros F La (W & H & Fl). unfold serve.
  assert (D : In (eop e) [StoT; MtoT; LtoT] \/ ~ In (eop e) [StoT; MtoT; LtoT]) by (destruct (eop e); cbn; intuition discriminate).
  destruct D as [D|D].
  - exists st. split; [|split; auto]. destruct D as [<-|[<-|[<-|[]]]]; reflexivity.
  - destruct (make_well x e (mem st) _ F La D W) as (h & vs & E & W' & Fi). rewrite E. cbn [bind fst snd contribute].
    destruct (destroy_well vs h _ W') as (h' & E' & W''). rewrite E'. cbn [bind]. eexists. split; [destruct (eop e); try reflexivity; exfalso; apply D; cbn; tauto|].
    split; [exact W''|]. split; [exact H|]. cbn [flying]. intros v ixs I. apply in_app_or in I. destruct I as [I|[I|[]]]; [apply Fl, I|]. injection I as <- <-. exact Fi.
Qed.

Lemma serve_lacks x e st : fair e -> lacks x (eop e) -> serve x e st = Fail NullDeref.
Proof.
  intros F La. destruct (make_lacks x e (mem st) F La) as [E D]. unfold serve. rewrite E. cbn [bind fst snd contribute]. destruct (eop e); try reflexivity; exfalso; apply D; cbn; tauto.
Qed.

Lemma nth_ok {X} (l : list X) i : (0 <= i < Z.of_nat (length l))%Z -> exists y, nth_resZ l i = Ok y.
Proof.
  intros H. unfold nth_resZ. destruct (Z.ltb_spec i 0); [lia|]. assert (K : Z.to_nat i < length l) by lia. revert K. generalize (Z.to_nat i). clear. induction l as [|a l IH]; intros [|k] K; cbn in K; try lia; [exists a; reflexivity|]. cbn [nth_res]. apply IH. lia.
Qed.

Lemma add_ok x mine ixs r ps : map fst mine = views_of x r -> ixs <> [] -> incl ixs (views_of x r) -> length ps = length ixs -> add_expansion x mine (combine ixs ps) = Ok tt.
Proof.
  intros M N I L. destruct (views_upto x r) as (n & Hn & V).
  assert (Lm : length mine = n) by (rewrite <- (map_length fst), M, V, map_length, seq_length; reflexivity).
  assert (A : forall z, In z ixs -> exists y, nth_resZ mine z = Ok y).
  { intros z J. apply I in J. rewrite V in J. apply in_map_iff in J. destruct J as (k & <- & J). apply in_seq in J. apply nth_ok. lia. }
  assert (Z0 : exists y, nth_resZ mine 0 = Ok y) by (apply nth_ok; lia).
  assert (Z1 : exists y, nth_resZ (combine ixs ps) 0 = Ok y) by (apply nth_ok; rewrite combine_length; destruct ixs; [congruence|]; cbn [length] in *; lia).
  assert (Fo : foldM (fun (_ : unit) (v : view) => do _ <- nth_resZ mine (fst v); Ok tt) (combine ixs ps) tt = Ok tt).
  { clear - A. revert ps. induction ixs as [|z ixs IH]; intros [|p ps]; try reflexivity. cbn [combine foldM fst]. destruct (A z (or_introl eq_refl)) as (y & ->). cbn [bind]. apply IH. intros k K. apply A. right. exact K. }
  destruct Z0 as (y0 & E0). destruct Z1 as (y1 & E1). destruct x; cbn [add_expansion]; unfold view in *; try exact Fo; try rewrite E0; cbn [bind]; try rewrite E1; reflexivity.
Qed.

Lemma arrive_good x v ixs st : fits_in x v ixs -> good x st -> exists st', arrive x v ixs st = Ok st' /\ good x st'.
Proof.
  intros (N & I) (W & H & Fl). unfold arrive. 
  assert (K : forall h mine hl, well h (flat_map (fun q => map snd (snd q)) hl) -> (forall u vs, In (u, vs) hl -> map fst vs = views_of x (role_of u)) -> map fst mine = views_of x (role_of v) ->
    exists st', (do _ <- add_expansion x mine (combine ixs (map InMessage (seq 0 (length ixs)))); do h <- destroy h (release (combine ixs (map InMessage (seq 0 (length ixs))))); Ok (mkState h hl (flying st))) = Ok st' /\ good x st').
  { intros h mine hl Wh Hh Hm. rewrite (add_ok x mine ixs (role_of v)) by (auto; rewrite map_length, seq_length; reflexivity). cbn [bind release destroy foldM]. eexists. split; [reflexivity|]. split; [exact Wh|]. split; [exact Hh|exact Fl]. }
  destruct (data_of v (held st)) as [vs|] eqn:D.
  - apply K; auto. unfold data_of in D. destruct (find _ (held st)) as [[u us]|] eqn:E; [|discriminate]. injection D as <-. apply find_some in E. destruct E as [E1 E2]. unfold dnode_eqb in E2. cbn [fst snd] in *. destruct (dnode_dec u v) as [->|]; [|discriminate]. apply H, E1.
  - destruct (construct_well x (role_of v) (mem st) _ W) as [W' F]. destruct (construct x (role_of v) (mem st)) as [h vs]. cbn [fst snd] in *. apply K; [| |exact F].
    + eapply well_perm; [|exact W']. rewrite flat_map_app. cbn [flat_map snd]. rewrite app_nil_r. apply Permutation_app_comm.
    + intros u us J. apply in_app_or in J. destruct J as [J|[J|[]]]; [apply H, J|]. injection J as <- <-. exact F.
Qed.

Definition no_lack (x : expansion) (ev : event) : Prop := match ev with Serve e => ~ lacks x (eop e) | Arrive _ => True end.
Definition all_fair (evs : list event) : Prop := forall e, In (Serve e) evs -> fair e.

Lemma step_good x ev st : (forall e, ev = Serve e -> fair e) -> no_lack x ev -> good x st -> exists st', step x st ev = Ok st' /\ good x st'.
Proof.
  intros F N G. destruct ev as [e|k]; cbn [step].
  - apply serve_good; auto.
  - destruct (nth_error (flying st) k) as [[v ixs]|] eqn:E; [|exists st; auto]. destruct G as (W & H & Fl). apply arrive_good; [apply Fl, (nth_error_In _ _ E)|]. split; [exact W|]. split; [exact H|]. cbn [flying]. intros u us J. apply Fl. apply in_app_or in J.
    rewrite <- (firstn_skipn k (flying st)). apply in_or_app. destruct J as [J|J]; [left; exact J|right]. replace (S k) with (k + 1) in J by lia. rewrite <- skip_twice in J. rewrite <- (firstn_skipn 1 (skipn k (flying st))). apply in_or_app. right. exact J.
Qed.

Lemma start_good x : good x start.
Proof. split; [split; [constructor|split; [intros n []|constructor]]|split; intros ? ? []]. Qed.

Lemma run_good x : forall evs st, all_fair evs -> Forall (no_lack x) evs -> good x st -> exists st', foldM (step x) evs st = Ok st' /\ good x st'.
Proof.
  induction evs as [|ev evs IH]; intros st F N G; [exists st; auto|]. inversion N as [|? ? N1 N2]; subst. destruct (step_good x ev st) as (st1 & E & G1); auto.
  - intros e ->. apply F. left. reflexivity.
  - cbn [foldM]. rewrite E. cbn [bind]. apply IH; auto. intros e I. apply F. right. exact I.
Qed.

Lemma lacks_dec x o : {lacks x o} + {~ lacks x o}.
Proof. destruct x; cbn [lacks]; try (right; tauto); try apply op_dec; apply (in_dec op_dec). Qed.

Lemma run_lacks x : forall evs st, all_fair evs -> good x st -> (exists e, In (Serve e) evs /\ lacks x (eop e)) -> foldM (step x) evs st = Fail NullDeref.
Proof.
  induction evs as [|ev evs IH]; intros st F G (e & I & La); [destruct I|].
  assert (F' : all_fair evs) by (intros e0 J; apply F; right; exact J). cbn [foldM].
  assert (D : (exists e0, ev = Serve e0 /\ lacks x (eop e0)) \/ no_lack x ev) by (destruct ev as [e0|k]; [destruct (lacks_dec x (eop e0)); [left; eauto|right; assumption]|right; exact Logic.I]).
  destruct D as [(e0 & -> & L0)|D].
  - cbn [step]. rewrite serve_lacks; [reflexivity|apply F; left; reflexivity|exact L0].
  - destruct (step_good x ev st) as (st1 & E & G1); auto; [intros e0 ->; apply F; left; reflexivity|]. rewrite E. cbn [bind]. apply IH; auto. exists e. split; [|exact La]. destruct I as [->|I]; [contradiction|exact I].
Qed.

Lemma finish_good x st : good x st -> tidy st /\ all_given_back st.
Proof.
  intros (W & _). split; [split; [apply W|apply W]|]. unfold all_given_back, finish.
  assert (K : forall hl h, well h (flat_map (fun q : dnode * list view => map snd (snd q)) hl) -> exists h', foldM destroy (map snd hl) h = Ok h' /\ live h' = []).
  { induction hl as [|[v vs] hl IH]; intros h Wh.
    - exists h. split; [reflexivity|]. destruct Wh as (_ & _ & P). apply Permutation_sym, Permutation_nil in P. destruct (live h); [reflexivity|discriminate].
    - cbn [flat_map map snd foldM] in *. destruct (destroy_well vs h _ Wh) as (h1 & E & W1). rewrite E. cbn [bind]. apply IH, W1. }
  apply K, W.
Qed.

(** ** Which LCOs have an expansion *)

Lemma data_none : forall v l, data_of v l = None -> ~ In v (map fst l).
Proof.
  intros v l H I. apply in_map_iff in I as ((u & vs) & <- & I). unfold data_of in H. destruct (find _ l) eqn:F; [discriminate|]. pose proof (find_none _ _ F _ I) as X. cbn in X. unfold dnode_eqb in X. destruct (dnode_dec u u); congruence.
Qed.
Lemma data_some : forall v l vs, data_of v l = Some vs -> In v (map fst l).
Proof.
  intros v l vs H. unfold data_of in H. destruct (find _ l) as [(u & us)|] eqn:F; [|discriminate]. apply find_some in F as [I E]. cbn in E. unfold dnode_eqb in E. destruct (dnode_dec u v) as [->|]; [|discriminate]. apply in_map_iff. exists (v, us). auto.
Qed.

Lemma serve_nodes : forall x e st st', serve x e st = Ok st' -> held st' = held st /\ flying st' = flying st /\ ~ makes e \/
  held st' = held st /\ map fst (flying st') = map fst (flying st) ++ [eto e] /\ makes e.
Proof.
  intros x e st st' H. unfold serve, makes in *. 
  assert (C : forall r : res (heap * option (list view)), (do r <- r; contribute (eto e) (snd r) (fst r) st) = Ok st' -> held st' = held st /\ map fst (flying st') = map fst (flying st) ++ [eto e]).
  { intros [[h o]|] E; [|discriminate]. cbn [bind fst snd contribute] in E. destruct o as [vs|]; [|discriminate]. cbn in E. destruct (destroy h vs); [|discriminate]. injection E as <-. cbn. rewrite map_app. auto. }
  destruct (eop e) eqn:O; try (left; injection H as <-; cbn; tauto); right; destruct (C _ H); (split; [|split]; [assumption|assumption|]); cbn; intuition discriminate.
Qed.

Lemma arrive_nodes : forall x v ixs st st', arrive x v ixs st = Ok st' -> flying st' = flying st /\
  (held st' = held st /\ In v (map fst (held st)) \/ map fst (held st') = map fst (held st) ++ [v] /\ ~ In v (map fst (held st))).
Proof.
  intros x v ixs st st' H. unfold arrive in H. destruct (data_of v (held st)) eqn:D.
  - cbn in H. destruct (add_expansion _ _ _); [|discriminate]. cbn in H. injection H as <-. cbn. split; [reflexivity|]. left. split; [reflexivity|]. eapply data_some, D.
  - destruct (construct _ _ _) as [h vs]. destruct (add_expansion _ _ _); [|discriminate]. cbn in H. injection H as <-. cbn. split; [reflexivity|]. right. rewrite map_app. split; [reflexivity|]. apply data_none, D.
Qed.

Lemma one_each : forall x evs st, evaluate x evs = Ok st ->
  NoDup (map fst (held st)) /\ forall v, In v (reached_lcos st) <-> exists e, In (Serve e) evs /\ eto e = v /\ makes e.
Proof.
  intros x evs. unfold evaluate. induction evs as [|ev evs IH] using rev_ind; intros st H.
  - injection H as <-. split; [constructor|]. intros v. split; [intros []|intros (e & [] & _)].
  - rewrite foldM_app in H. destruct (foldM (step x) evs start) as [s|] eqn:E; [|discriminate]. destruct (IH s eq_refl) as [N R]. clear IH.
    assert (S : step x s ev = Ok st) by (cbn in H; destruct (step x s ev); exact H). clear H.
    assert (P : forall v, (exists e, In (Serve e) (evs ++ [ev]) /\ eto e = v /\ makes e) <-> In v (reached_lcos s) \/ exists e, ev = Serve e /\ eto e = v /\ makes e).
    { intros v. rewrite R. split.
      - intros (e & I & X). apply in_app_or in I as [I|[I|[]]]; [left; eauto|right; eauto].
      - intros [(e & I & X)|(e & -> & X)]; exists e; (split; [apply in_or_app|exact X]); [left; exact I|right; left; reflexivity]. }
    unfold reached_lcos in *. destruct ev as [e|k]; cbn [step] in S.
    + destruct (serve_nodes _ _ _ _ S) as [(Hh & Hf & M)|(Hh & Hf & M)]; rewrite Hh, Hf; (split; [exact N|]); intros v; rewrite P.
      * split; [tauto|]. intros [I|(e' & Q & _ & M')]; [exact I|]. injection Q as <-. contradiction.
      * rewrite !in_app_iff. cbn [In]. split; [intros [I|[I|[I|[]]]]; eauto 6|]. intros [I|(e' & Q & <- & _)]; [tauto|]. injection Q as <-. auto.
    + assert (P' : forall v, (exists e, In (Serve e) (evs ++ [Arrive k]) /\ eto e = v /\ makes e) <-> In v (map fst (held s) ++ map fst (flying s))).
      { intros v. rewrite P. split; [intros [I|(e & Q & _)]; [exact I|discriminate]|auto]. }
      destruct (nth_error (flying s) k) as [(v & ixs)|] eqn:K.
      2:{ injection S as <-. split; [exact N|]. intros v. rewrite P'. reflexivity. }
      apply nth_error_split in K as (l1 & l2 & Q & L). rewrite Q, <- L in S.
      replace (firstn (length l1) (l1 ++ (v, ixs) :: l2)) with l1 in S by (rewrite firstn_app, firstn_all, Nat.sub_diag, app_nil_r; reflexivity).
      replace (skipn (Datatypes.S (length l1)) (l1 ++ (v, ixs) :: l2)) with l2 in S by (rewrite skipn_app, skipn_all2, Nat.sub_succ_l, Nat.sub_diag by lia; reflexivity).
      destruct (arrive_nodes _ _ _ _ _ S) as (Hf & Ha). cbn in Hf, Ha. 
      assert (Qf : map fst (flying s) = map fst l1 ++ v :: map fst l2) by (rewrite Q, map_app; reflexivity).
      destruct Ha as [(Hh & I)|(Hh & I)]; rewrite Hh, Hf, ?map_app; split.
      * exact N.
      * intros u. rewrite P', Qf, !in_app_iff. cbn [In]. split; [tauto|]. intros [X|[X|[X|X]]]; try tauto. subst u. auto.
      * apply NoDup_rev in N. rewrite <- (rev_involutive (_ ++ [v])). apply NoDup_rev. rewrite rev_app_distr. cbn. constructor; [|exact N]. rewrite <- in_rev. exact I.
      * intros u. rewrite P', Qf, !in_app_iff. cbn [In]. tauto.
Qed.
