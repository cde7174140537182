(** What the files are put together to. *)
From Coq Require Import String Ascii ZArith List Bool Arith Lia Permutation Sorted.
From Verif Require Import Base ListFacts TraceModel ReadModel ReadSpec ReadProofs.
Import ListNotations.
Open Scope Z_scope.

(** ** Maps *)
Fixpoint ins (k : Z) (ks : list Z) : list Z :=
  match ks with [] => [k] | k' :: ks' => if k' =? k then k :: ks' else if k <? k' then k :: ks else k' :: ins k ks' end.
Lemma ins_in k ks x : In x (ins k ks) <-> x = k \/ In x ks.
Proof.
  induction ks as [|y ks IH]; cbn [ins]; [cbn; intuition congruence|]. destruct (y =? k) eqn:E; [apply Z.eqb_eq in E; subst; cbn; intuition congruence|]. destruct (k <? y); [cbn; intuition congruence|]. cbn [In]. rewrite IH. tauto.
Qed.
Lemma ins_sorted k ks : StronglySorted Z.lt ks -> StronglySorted Z.lt (ins k ks).
Proof.
  induction 1 as [|y ks S IH F]; cbn [ins]; [repeat constructor|]. destruct (y =? k) eqn:E; [apply Z.eqb_eq in E; subst; constructor; assumption|]. apply Z.eqb_neq in E. destruct (k <? y) eqn:L.
  - apply Z.ltb_lt in L. constructor; [constructor; assumption|]. constructor; [exact L|]. rewrite Forall_forall in *. intros z Hz. specialize (F z Hz). lia.
  - apply Z.ltb_ge in L. constructor; [exact IH|]. rewrite Forall_forall in *. intros z Hz. apply ins_in in Hz. destruct Hz as [->|Hz]; [lia|apply F, Hz].
Qed.
Definition keyed {A} (g : Z -> A) (ks : list Z) : list (Z * A) := map (fun k => (k, g k)) ks.
Lemma lookup_keyed {A} (g : Z -> A) k ks : lookup k (keyed g ks) = if in_dec Z.eq_dec k ks then Some (g k) else None.
Proof.
  induction ks as [|x ks IH]; [reflexivity|]. cbn [keyed map lookup]. fold (keyed g ks). destruct (x =? k) eqn:E; [apply Z.eqb_eq in E; subst; destruct (in_dec Z.eq_dec k (k :: ks)) as [_|N]; [reflexivity|exfalso; apply N; left; reflexivity]|].
  rewrite IH. apply Z.eqb_neq in E. destruct (in_dec Z.eq_dec k ks) as [I|N], (in_dec Z.eq_dec k (x :: ks)) as [I'|N']; try reflexivity; exfalso; [apply N'; right; exact I|destruct I' as [H|H]; [congruence|contradiction]].
Qed.
Lemma store_keyed {A} (g g' : Z -> A) k ks : StronglySorted Z.lt ks -> (forall x, x <> k -> g' x = g x) -> store k (g' k) (keyed g ks) = keyed g' (ins k ks).
Proof.
  intros S H. induction S as [|x ks S IH F]; [reflexivity|]. cbn [keyed map store ins]. destruct (x =? k) eqn:E.
  - apply Z.eqb_eq in E. subst x. cbn [map]. f_equal. apply map_ext_in. intros z Hz. rewrite H; [reflexivity|]. rewrite Forall_forall in F. specialize (F z Hz). lia.
  - apply Z.eqb_neq in E. destruct (k <? x) eqn:L.
    + apply Z.ltb_lt in L. cbn [map]. f_equal. rewrite (H x E). f_equal. apply map_ext_in. intros z Hz. rewrite H; [reflexivity|]. rewrite Forall_forall in F. specialize (F z Hz). lia.
    + cbn [map]. rewrite (H x E). f_equal. exact IH.
Qed.

(** ** The trace of some files *)
Definition lkeys (fs : list file) : list Z := fold_left (fun ks f => ins (f_loc f) ks) fs [].
Definition at_loc (fs : list file) (l : Z) : list file := filter (fun f => f_loc f =? l) fs.
Definition wkeys (fs : list file) (l : Z) : list Z := fold_left (fun ks f => ins (f_worker f) ks) (at_loc fs l) [].
Definition canon_worker (fs : list file) (l w : Z) : worker := mkWorker w l (belonging fs l w) false.
Definition canon_loc (fs : list file) (l : Z) : locality := mkLoc l (keyed (canon_worker fs l) (wkeys fs l)) false.
Definition canon (fs : list file) : trace := mkTrace false (keyed (canon_loc fs) (lkeys fs)).

Lemma lkeys_snoc fs f : lkeys (fs ++ [f]) = ins (f_loc f) (lkeys fs).
Proof. unfold lkeys. rewrite fold_left_app. reflexivity. Qed.
Lemma at_loc_snoc fs f l : at_loc (fs ++ [f]) l = at_loc fs l ++ (if f_loc f =? l then [f] else []).
Proof. unfold at_loc. rewrite filter_app. cbn [filter]. destruct (f_loc f =? l); reflexivity. Qed.
Lemma wkeys_here fs f : wkeys (fs ++ [f]) (f_loc f) = ins (f_worker f) (wkeys fs (f_loc f)).
Proof. unfold wkeys. rewrite at_loc_snoc, Z.eqb_refl, fold_left_app. reflexivity. Qed.
Lemma wkeys_other fs f l : l <> f_loc f -> wkeys (fs ++ [f]) l = wkeys fs l.
Proof. intros N. unfold wkeys. rewrite at_loc_snoc, (proj2 (Z.eqb_neq _ _)) by congruence. rewrite app_nil_r. reflexivity. Qed.
Lemma belonging_snoc fs f l w : belonging (fs ++ [f]) l w = belonging fs l w ++ (if (f_loc f =? l) && (f_worker f =? w) then entries f else []).
Proof. unfold belonging. rewrite filter_app, map_app, concat_app. f_equal. cbn [filter]. destruct ((f_loc f =? l) && (f_worker f =? w)); cbn [map concat]; [apply app_nil_r|reflexivity]. Qed.
Lemma belonging_other fs f l w : l <> f_loc f \/ w <> f_worker f -> belonging (fs ++ [f]) l w = belonging fs l w.
Proof.
  intros N. rewrite belonging_snoc. destruct ((f_loc f =? l) && (f_worker f =? w)) eqn:E; [|apply app_nil_r]. apply andb_true_iff in E. destruct E as [E1 E2]. apply Z.eqb_eq in E1, E2. exfalso. destruct N; congruence.
Qed.
Lemma lkeys_sorted fs : StronglySorted Z.lt (lkeys fs).
Proof. induction fs as [|f fs IH] using rev_ind; [constructor|]. rewrite lkeys_snoc. apply ins_sorted, IH. Qed.
Lemma lkeys_in fs l : In l (lkeys fs) <-> exists f, In f fs /\ f_loc f = l.
Proof.
  induction fs as [|f fs IH] using rev_ind; [cbn; split; [intros []|intros (f & [] & _)]|]. rewrite lkeys_snoc, ins_in, IH. split.
  - intros [->|(g & Hg & E)]; [exists f; split; [apply in_or_app; right; left; reflexivity|reflexivity]|exists g; split; [apply in_or_app; left; exact Hg|exact E]].
  - intros (g & Hg & E). apply in_app_or in Hg. destruct Hg as [Hg|[->|[]]]; [right; exists g; auto|left; congruence].
Qed.
Lemma sorted_fold (l : list file) : StronglySorted Z.lt (fold_left (fun ks f => ins (f_worker f) ks) l []) /\ forall w, In w (fold_left (fun ks f => ins (f_worker f) ks) l []) <-> exists f, In f l /\ f_worker f = w.
Proof.
  induction l as [|f l [S I]] using rev_ind; [split; [constructor|intros w; cbn; split; [intros []|intros (f & [] & _)]]|]. rewrite fold_left_app. cbn [fold_left]. split; [apply ins_sorted, S|]. intros w. rewrite ins_in, I. split.
  - intros [->|(g & Hg & E)]; [exists f; split; [apply in_or_app; right; left; reflexivity|reflexivity]|exists g; split; [apply in_or_app; left; exact Hg|exact E]].
  - intros (g & Hg & E). apply in_app_or in Hg. destruct Hg as [Hg|[->|[]]]; [right; exists g; auto|left; congruence].
Qed.
Lemma wkeys_sorted fs l : StronglySorted Z.lt (wkeys fs l).
Proof. apply sorted_fold. Qed.
Lemma wkeys_in fs l w : In w (wkeys fs l) <-> present fs l w.
Proof.
  unfold wkeys. rewrite (proj2 (sorted_fold _)). unfold present, at_loc. split; intros (f & H).
  - destruct H as [H E]. apply filter_In in H. destruct H as [H L]. apply Z.eqb_eq in L. exists f. auto.
  - destruct H as (H & L & E). exists f. split; [apply filter_In; split; [exact H|apply Z.eqb_eq, L]|exact E].
Qed.
Lemma absent_belonging fs l w : ~ present fs l w -> belonging fs l w = [].
Proof.
  intros N. unfold belonging. replace (filter (fun f => (f_loc f =? l) && (f_worker f =? w)) fs) with (@nil file); [reflexivity|]. symmetry. apply filter_none. intros f Hf. destruct ((f_loc f =? l) && (f_worker f =? w)) eqn:E; [|reflexivity]. apply andb_true_iff in E. destruct E as [E1 E2]. apply Z.eqb_eq in E1, E2. exfalso. apply N. exists f. auto.
Qed.
Lemma in_keys fs l w : In l (lkeys fs) /\ In w (wkeys fs l) <-> present fs l w.
Proof. rewrite wkeys_in, lkeys_in. split; [intros [_ H]; exact H|]. intros (f & H & L & E). split; [exists f; auto|exists f; auto]. Qed.

Lemma add_canon fs f : trace_add (canon fs) f = Ok (canon (fs ++ [f])).
Proof.
  unfold trace_add, canon. cbn [t_locked t_locs]. rewrite lookup_keyed.
  assert (G : forall l, l <> f_loc f -> canon_loc (fs ++ [f]) l = canon_loc fs l).
  { intros l N. unfold canon_loc. rewrite wkeys_other by exact N. f_equal. unfold keyed. apply map_ext. intros w. unfold canon_worker. rewrite belonging_other by (left; exact N). reflexivity. }
  assert (W : forall w, w <> f_worker f -> canon_worker (fs ++ [f]) (f_loc f) w = canon_worker fs (f_loc f) w) by (intros w N; unfold canon_worker; rewrite belonging_other by (right; exact N); reflexivity).
  rewrite lkeys_snoc, <- (store_keyed (canon_loc fs) (canon_loc (fs ++ [f])) _ _ (lkeys_sorted fs) G).
  assert (K : canon_loc (fs ++ [f]) (f_loc f) = mkLoc (f_loc f) (store (f_worker f) (canon_worker (fs ++ [f]) (f_loc f) (f_worker f)) (keyed (canon_worker fs (f_loc f)) (wkeys fs (f_loc f)))) false).
  { unfold canon_loc. rewrite wkeys_here. rewrite <- (store_keyed (canon_worker fs (f_loc f)) (canon_worker (fs ++ [f]) (f_loc f)) _ _ (wkeys_sorted fs _) W). reflexivity. }
  assert (E : canon_worker (fs ++ [f]) (f_loc f) (f_worker f) = mkWorker (f_worker f) (f_loc f) (belonging fs (f_loc f) (f_worker f) ++ entries f) false) by (unfold canon_worker; rewrite belonging_snoc, !Z.eqb_refl; reflexivity).
  destruct (in_dec Z.eq_dec (f_loc f) (lkeys fs)) as [I|N].
  - unfold locality_add. unfold canon_loc at 1 2 3. cbn [l_locked l_id l_workers]. rewrite Z.eqb_refl. cbn [negb]. rewrite lookup_keyed. destruct (in_dec Z.eq_dec (f_worker f) (wkeys fs (f_loc f))) as [Iw|Nw].
    + unfold worker_add. unfold canon_worker at 1 2 3. cbn [w_locked w_id w_loc]. rewrite !Z.eqb_refl. cbn [negb orb bind]. rewrite K, E. reflexivity.
    + cbn [bind]. rewrite K, E. unfold new_worker. rewrite (absent_belonging fs (f_loc f) (f_worker f)) by (rewrite <- wkeys_in; exact Nw). reflexivity.
  - rewrite K, E. assert (Z0 : wkeys fs (f_loc f) = []). { destruct (wkeys fs (f_loc f)) as [|w ks] eqn:Ew; [reflexivity|]. exfalso. apply N. assert (Iw : In w (wkeys fs (f_loc f))) by (rewrite Ew; left; reflexivity). apply wkeys_in in Iw. destruct Iw as (g & Hg & Eg & _). apply lkeys_in. exists g. auto. }
    rewrite Z0. cbn [keyed map store]. unfold new_locality, new_worker. rewrite (absent_belonging fs (f_loc f) (f_worker f)) by (rewrite <- wkeys_in, Z0; intros []). reflexivity.
Qed.
Lemma add_all args fs : Forall2 (fun a f => open_file (fst a) (snd a) = Ok f) args fs -> forall gs, foldM (fun t '(n, b) => do f <- open_file n b; trace_add t f) args (canon gs) = Ok (canon (gs ++ fs)).
Proof.
  intros F. induction F as [|[n b] f args fs H F IH]; intros gs; [rewrite app_nil_r; reflexivity|]. cbn [foldM]. cbn [fst snd] in H. rewrite H. cbn [bind]. rewrite add_canon. cbn [bind]. rewrite IH, <- app_assoc. reflexivity.
Qed.

(** ** The zero of time *)
Lemma nth0 {A} (l : list A) : l <> [] -> exists a, nth_res l 0 = Ok a /\ exists r, l = a :: r.
Proof. destruct l as [|a l]; [contradiction|]. intros _. exists a. split; [reflexivity|]. exists l. reflexivity. Qed.
Lemma zeroref_ok fs l w : belonging fs l w <> [] -> exists z, get_zeroref (canon_worker fs l w) = Ok z /\ (z <> no_zero -> marks fs l w z) /\ (forall z', marks fs l w z' -> z = z').
Proof.
  intros N. unfold get_zeroref, canon_worker. cbn [w_events]. destruct (belonging fs l w) as [|[k s] r] eqn:E; [contradiction|]. cbn [nth_res nth_error bind e_kind e_stamp]. eexists. split; [reflexivity|]. unfold marks. destruct k as [v|v|]; (split; [intros H; try (exfalso; apply H; reflexivity)|intros z' [_ [r' H]]; rewrite E in H; congruence]).
  split; [exact H|]. exists r. exact E.
Qed.
Lemma find_ok fs l ks : StronglySorted Z.lt ks -> (forall w, In w ks -> belonging fs l w <> []) -> forall z0, (z0 = 0 \/ z0 = no_zero) -> exists z, find_zero z0 (keyed (canon_worker fs l) ks) = Ok z /\
  ((exists w, In w ks /\ marks fs l w z /\ forall w' z', In w' ks -> w' < w -> ~ marks fs l w' z') \/ ((forall w z', In w ks -> ~ marks fs l w z') /\ (z = 0 \/ z = no_zero))).
Proof.
  intros S. induction S as [|w ks S IH F]; intros H z0 Hz; [exists z0; split; [reflexivity|]; right; split; [intros w z' []|exact Hz]|]. cbn [keyed map find_zero]. fold (keyed (canon_worker fs l) ks).
  destruct (zeroref_ok fs l w (H w (or_introl eq_refl))) as (z & E & M1 & M2). rewrite E. cbn [bind]. destruct (z =? no_zero) eqn:Ez.
  - apply Z.eqb_eq in Ez. subst z. destruct (IH (fun v Hv => H v (or_intror Hv)) no_zero (or_intror eq_refl)) as (z & Ef & C). exists z. split; [exact Ef|]. assert (X : forall z', ~ marks fs l w z') by (intros z' M; pose proof (M2 _ M) as Q; destruct M as [M _]; apply M; symmetry; exact Q).
    destruct C as [(v & Iv & Mv & Lv)|[C D]]; [left; exists v; split; [right; exact Iv|]; split; [exact Mv|]; intros w' z' [<-|I]; [intros _; apply X|apply Lv, I]|right; split; [intros w' z' [<-|I]; [apply X|apply C, I]|exact D]].
  - apply Z.eqb_neq in Ez. exists z. split; [reflexivity|]. left. exists w. split; [left; reflexivity|]. split; [apply M1, Ez|]. intros w' z' [<-|I] L; [lia|]. rewrite Forall_forall in F. specialize (F w' I). lia.
Qed.
Definition shifted (z : Z -> Z) (fs : list file) (l w : Z) : worker := mkWorker w l (map (since (z l)) (belonging fs l w)) false.
Lemma zero_ok fs l : (forall w, present fs l w -> belonging fs l w <> []) -> exists z, zero_of fs l z /\ zero_reset (canon_loc fs l) = Ok (mkLoc l (keyed (shifted (fun _ => z) fs l) (wkeys fs l)) false).
Proof.
  intros H. destruct (find_ok fs l (wkeys fs l) (wkeys_sorted fs l)) with (z0 := 0) as (z & E & C); [intros w I; apply H, wkeys_in, I|left; reflexivity|].
  assert (P : forall w z', marks fs l w z' -> In w (wkeys fs l)). { intros w z' [_ [r M]]. destruct (in_dec Z.eq_dec w (wkeys fs l)) as [I|N]; [exact I|]. rewrite wkeys_in in N. rewrite (absent_belonging _ _ _ N) in M. discriminate. }
  unfold zero_reset, canon_loc. cbn [l_workers l_id l_locked]. rewrite E. cbn [bind].
  assert (Same : forall v, since 0 v = v) by reflexivity.
  assert (Un : keyed (canon_worker fs l) (wkeys fs l) = keyed (shifted (fun _ => 0) fs l) (wkeys fs l)). { unfold keyed. apply map_ext. intros w. unfold shifted. rewrite (map_ext _ (fun v => v) Same), map_id. reflexivity. }
  destruct C as [(w & Iw & M & L)|[C D]].
  - assert (Nz : z <> no_zero) by apply M. exists z. split; [left; exists w; split; [exact M|]; intros w' z' Lw M'; exact (L w' z' (P _ _ M') Lw M')|]. rewrite (proj2 (Z.eqb_neq z no_zero) Nz). cbn [negb andb]. destruct (z =? 0) eqn:Ez; [apply Z.eqb_eq in Ez; subst z; rewrite Un; reflexivity|].
    cbn [negb]. do 2 f_equal. unfold keyed. rewrite map_map. apply map_ext. intros v. unfold shifted, reset_zero, canon_worker. cbn [w_id w_loc w_events w_locked]. do 2 f_equal. apply map_ext. intros e. unfold since. rewrite Ez. reflexivity.
  - exists 0. split; [right; split; [intros w z' M; exact (C w z' (P _ _ M) M)|reflexivity]|]. replace (negb (z =? no_zero) && negb (z =? 0)) with false by (destruct D as [->| ->]; reflexivity). rewrite Un. reflexivity.
Qed.
Lemma zero_unique fs l z z' : zero_of fs l z -> zero_of fs l z' -> z = z'.
Proof.
  intros [(w & M & L)|[N ->]] [(w' & M' & L')|[N' ->]]; try (exfalso; eapply N; eassumption); try (exfalso; eapply N'; eassumption); [|reflexivity].
  assert (w = w') as <- by (destruct (Z.lt_trichotomy w w') as [Q|[Q|Q]]; [exfalso; eapply L'; eassumption|exact Q|exfalso; eapply L; eassumption]). destruct M as [_ [r M]], M' as [_ [r' M']]. rewrite M in M'. congruence.
Qed.
Definition ready (z : Z -> Z) (fs : list file) : trace := mkTrace false (keyed (fun l => mkLoc l (keyed (shifted z fs l) (wkeys fs l)) false) (lkeys fs)).
Lemma reset_ok fs : (forall l w, present fs l w -> belonging fs l w <> []) -> exists z, (forall l, In l (lkeys fs) -> zero_of fs l (z l)) /\ find_and_reset_zero (canon fs) = Ok (ready z fs).
Proof.
  intros H. unfold find_and_reset_zero, canon. cbn [t_locs t_locked].
  assert (G : forall ks, StronglySorted Z.lt ks -> exists z, (forall l, In l ks -> zero_of fs l (z l)) /\ mapM (fun '(k, l) => do l' <- zero_reset l; Ok (k, l')) (keyed (canon_loc fs) ks) = Ok (keyed (fun l => mkLoc l (keyed (shifted z fs l) (wkeys fs l)) false) ks)).
  { intros ks S. induction S as [|l ks S (z & Z1 & Z2) F]; [exists (fun _ => 0); split; [intros l []|reflexivity]|]. destruct (zero_ok fs l (H l)) as (v & V1 & V2). exists (fun x => if x =? l then v else z x). split.
    - intros x [<-|I]; [rewrite Z.eqb_refl; exact V1|]. rewrite Forall_forall in F. specialize (F x I). rewrite (proj2 (Z.eqb_neq x l)) by lia. apply Z1, I.
    - cbn [keyed map mapM]. rewrite V2. cbn [bind]. fold (keyed (canon_loc fs) ks). rewrite Z2. cbn [bind]. do 2 f_equal; [f_equal; unfold shifted; rewrite Z.eqb_refl; reflexivity|]. unfold keyed. apply map_ext_in. intros x I. rewrite Forall_forall in F. specialize (F x I). unfold shifted. rewrite (proj2 (Z.eqb_neq x l)) by lia. reflexivity. }
  destruct (G _ (lkeys_sorted fs)) as (z & Z1 & Z2). exists z. split; [exact Z1|]. rewrite Z2. reflexivity.
Qed.
