(** C102: which methods an expansion can serve, and the memory of what is contributed. *)
From Coq Require Import ZArith List Bool Arith Lia Permutation.
From Verif Require Import Base IndexModel TreeModel TreeFacts LookupModel GeomModel DagModel MethodModel DagSpec DagPaths MethodTasks MethodProofs DirectBHProofs MethodProps ListsSpec ListsProofs ListsProps Pot97Proofs MergeShiftModel MergeShiftSpec MergeShiftProps FitModel FitSpec FitProofs.
Import ListNotations.
Open Scope nat_scope.

Lemma child_near : forall A B (S : tree A) (T : tree B) p c, eight S -> eight T -> sub T p <> None -> list_I S p c ->
  near_child (idx_of p) (idx_of c) /\ ~ (forall a, icoord a (idx_of c) / 2 = icoord a (idx_of p))%Z.
Proof.
  intros A B S T p c HS HT Tp (Sc & Lc & _ & N & D). assert (Nc : c <> []) by (intros ->; discriminate Lc). destruct (snoc_parent c Nc) as [w W].
  assert (Lp : length (parent_of c) = length p) by (rewrite W, app_length in Lc; cbn in Lc; lia).
  assert (H : forall a, (icoord a (idx_of c) / 2 = icoord a (idx_of (parent_of c)))%Z) by (intros a; rewrite W at 1; apply (half_child _ _ _ S); [exact HS|rewrite <- W; exact Sc]).
  split.
  - intros a. rewrite H. assert (Q : ~ (2 <= Z.abs (icoord a (idx_of (parent_of c)) - icoord a (idx_of p)))%Z); [|lia]. intros Q. apply (apart_near (parent_of c) p Lp); [exists a; exact Q|exact N].
  - intros E. apply D. assert (F : forall X (t : tree X) q, eight t -> sub t q <> None -> Forall (fun k => k < 8) q) by (intros X t q; apply sub_lt8).
    apply idx_inj; [eapply F; [exact HS|]|eapply F; [exact HT|exact Tp]|exact Lp| | |].
    + intros X. apply Sc. rewrite W, sub_app, X. reflexivity.
    + exact (eq_trans (eq_sym (H RefineModel.AX)) (E RefineModel.AX)).
    + exact (eq_trans (eq_sym (H RefineModel.AY)) (E RefineModel.AY)).
    + exact (eq_trans (eq_sym (H RefineModel.AZ)) (E RefineModel.AZ)).
Qed.

Lemma dag_fair : forall A B (m : method A B) unif same fuel S T, builtin fuel m -> usable unif fuel S T ->
  exists ss tt, create_dag m unif same fuel S T = Ok (ss, tt) /\ forall e, In e (all_edges (ss ++ tt)) -> fair e.
Proof.
  intros A B m unif same fuel S T Hm U. pose proof U as (H1 & H2 & H3 & H4 & H5 & H6). destruct Hm as [|accept| |].
  - destruct (direct_dag S T unif fuel same H1 H2 H3 H4 H5 H6) as (ss & tt & Hc & _ & Sh & _ & _ & Ed). exists ss, tt. split; [exact Hc|]. intros e I. split; [apply Sh, I|]. apply Ed in I. destruct I as (s & q & _ & _ & ->). discriminate.
  - destruct (bh_dag S T unif fuel same H1 H2 H3 H4 H5 H6 accept) as (ss & tt & Hc & _ & Sh & _ & _ & _ & _ & _ & Ed & _). exists ss, tt. split; [exact Hc|]. intros e I. split; [apply Sh, I|]. apply Ed in I. intuition congruence.
  - destruct (C57_fmm_lists A B S T fuel unif same U) as (ss & tt & Hc & _ & Ed). exists ss, tt. split; [exact Hc|]. intros e I. apply Ed in I. destruct I; (split; [constructor|discriminate]).
  - destruct (C57_fmm97_lists A B S T fuel unif same U) as (ss & tt & Hc & _ & Ed). exists ss, tt. split; [exact Hc|]. intros e I. apply Ed in I. destruct I as [| | |c p D I| | | | | |]; (split; [constructor|try discriminate]). intros _. cbn [efrom eto fst snd]. apply (child_near A B S T); auto. apply D.
Qed.

(** Whatever the expansion and whatever the order in which edges are served and messages
    arrive: the evaluation ends at a null pointer if an edge is served whose operation the
    expansion has no result for, and in no other case; otherwise, at every moment, the blocks
    in use are those of the views of the LCOs' expansions, and deleting these leaves none. *)
Theorem C102_memory : forall A B (m : method A B) unif same fuel S T, builtin fuel m -> usable unif fuel S T ->
  exists ss tt, create_dag m unif same fuel S T = Ok (ss, tt) /\ forall x evs, of_dag (ss ++ tt) evs ->
    ((exists e, In (Serve e) evs /\ lacks x (eop e)) -> evaluate x evs = Fail NullDeref) /\
    (~ (exists e, In (Serve e) evs /\ lacks x (eop e)) -> exists st, evaluate x evs = Ok st /\ tidy st /\ all_given_back st).
Proof.
  intros A B m unif same fuel S T Hm U. destruct (dag_fair A B m unif same fuel S T Hm U) as (ss & tt & Hc & F). exists ss, tt. split; [exact Hc|]. intros x evs O.
  assert (Fa : all_fair evs) by (intros e I; apply F, O, I). split.
  - intros H. apply run_lacks; auto using start_good.
  - intros H. destruct (run_good x evs start Fa) as (st & E & G); [|apply start_good|].
    + apply Forall_forall. intros [e|k] I; cbn [no_lack]; [|exact Logic.I]. intros L. apply H. eauto.
    + exists st. split; [exact E|]. apply (finish_good x), G.
Qed.
Print Assumptions C102_memory.

(** The methods that fit an expansion can be evaluated with it. *)
Theorem C102_fits : forall A B x (m : method A B) unif same fuel S T, fits fuel x m -> usable unif fuel S T ->
  exists ss tt, create_dag m unif same fuel S T = Ok (ss, tt) /\ forall evs, of_dag (ss ++ tt) evs ->
    exists st, evaluate x evs = Ok st /\ tidy st /\ all_given_back st.
Proof.
  intros A B x m unif same fuel S T Hf U. assert (Hm : builtin fuel m) by (destruct Hf; constructor).
  destruct (C102_memory A B m unif same fuel S T Hm U) as (ss & tt & Hc & M). exists ss, tt. split; [exact Hc|]. intros evs O. apply (M x evs O). intros (e & I & L). apply O in I.
  pose proof U as (H1 & H2 & H3 & H4 & H5 & H6). destruct Hf as [x|x accept|x Hx|x Hx].
  - destruct (direct_dag S T unif fuel same H1 H2 H3 H4 H5 H6) as (s' & t' & Hc' & _ & _ & _ & _ & Ed). rewrite Hc in Hc'. injection Hc' as <- <-. apply Ed in I. destruct I as (s & q & _ & _ & ->). destruct x; cbn in L; intuition discriminate.
  - destruct (bh_dag S T unif fuel same H1 H2 H3 H4 H5 H6 accept) as (s' & t' & Hc' & _ & _ & _ & _ & _ & _ & _ & Ed & _). rewrite Hc in Hc'. injection Hc' as <- <-. apply Ed in I. destruct x; cbn in L; intuition congruence.
  - destruct (C57_fmm_lists A B S T fuel unif same U) as (s' & t' & Hc' & _ & Ed). rewrite Hc in Hc'. injection Hc' as <- <-. apply Ed in I. destruct Hx as [-> | ->]; destruct I; cbn in L; intuition discriminate.
  - destruct (C57_fmm97_lists A B S T fuel unif same U) as (s' & t' & Hc' & _ & Ed). rewrite Hc in Hc'. injection Hc' as <- <-. apply Ed in I. destruct Hx as [->|[->| ->]]; destruct I; cbn in L; intuition discriminate.
Qed.
Print Assumptions C102_fits.

Lemma null_iff : forall A B (m : method A B) unif same fuel S T, builtin fuel m -> usable unif fuel S T ->
  exists ss tt, create_dag m unif same fuel S T = Ok (ss, tt) /\ forall x evs, of_dag (ss ++ tt) evs -> whole_dag (ss ++ tt) evs ->
    (evaluate x evs = Fail NullDeref <-> exists e, In e (all_edges (ss ++ tt)) /\ lacks x (eop e)).
Proof.
  intros A B m unif same fuel S T Hm U. destruct (C102_memory A B m unif same fuel S T Hm U) as (ss & tt & Hc & M). exists ss, tt. split; [exact Hc|]. intros x evs O Wh. destruct (M x evs O) as [M1 M2]. split.
  - intros E. destruct (Exists_dec (fun e => lacks x (eop e)) (all_edges (ss ++ tt))) as [X|X]; [intros e; apply lacks_dec|apply Exists_exists in X; exact X|].
    exfalso. destruct M2 as (st & E' & _); [|congruence]. intros (e & I & L). apply X, Exists_exists. eauto.
  - intros (e & I & L). apply M1. eauto.
Qed.

(** The others not: with FMM, Yukawa and Helmholtz meet a null pointer exactly if some target
    box the method comes to has a source box in its V list; the center of mass expansions also
    if it has one in its X list or is below the level 2. *)
Theorem C102_fmm_refuted : forall A B (S : tree A) (T : tree B) unif same fuel, usable unif fuel S T ->
  exists ss tt, create_dag (fmm fuel) unif same fuel S T = Ok (ss, tt) /\ forall x evs, of_dag (ss ++ tt) evs -> whole_dag (ss ++ tt) evs ->
    (x = Yukawa \/ x = Helmholtz -> (evaluate x evs = Fail NullDeref <-> exists p c, reached unif same S T p /\ list_V S p c)) /\
    (x = LaplaceCOM \/ x = LaplaceCOMAcc -> (evaluate x evs = Fail NullDeref <->
      exists p, reached unif same S T p /\ (3 <= length p \/ exists c, list_V S p c \/ list_X S p c))).
Proof.
  intros A B S T unif same fuel U. destruct (C57_fmm_lists A B S T fuel unif same U) as (ss & tt & Hc & _ & Ed). destruct (null_iff A B (fmm fuel) unif same fuel S T (B_fmm fuel) U) as (s' & t' & Hc' & M). rewrite Hc in Hc'. injection Hc' as <- <-.
  exists ss, tt. split; [exact Hc|]. intros x evs O Wh. rewrite (M x evs O Wh). split; intros Hx.
  - split.
    + intros (e & I & L). apply Ed in I. destruct Hx as [-> | ->]; destruct I; cbn in L; try discriminate L; eauto.
    + intros (p & c & R & V). exists (mkEdge MtoL (src c, Normal) (tgt p, Normal)). split; [apply Ed; constructor; assumption|]. destruct Hx as [-> | ->]; reflexivity.
  - assert (L : forall o, lacks x o <-> In o [StoL; MtoL; LtoL; MtoI; ItoI; ItoL]) by (destruct Hx as [-> | ->]; reflexivity). split.
    + intros (e & I & Le). apply L in Le. apply Ed in I. destruct I as [| |c p R V|c p R X| | |p w R Lp|]; try (cbn in Le; intuition discriminate); [exists p; eauto|exists p; eauto|]. exists (p ++ [w]). split; [exact R|]. left. rewrite app_length. cbn. lia.
    + intros (p & R & [Lp|(c & [V|X])]).
      * assert (Np : p <> []) by (intros ->; cbn in Lp; lia). destruct (snoc_parent p Np) as [w W]. exists (mkEdge LtoL (tgt (parent_of p), Normal) (tgt p, Normal)). split; [|apply L; cbn; tauto]. apply Ed. rewrite W at 2. constructor; [rewrite <- W; exact R|]. rewrite W, app_length in Lp. cbn in Lp. lia.
      * exists (mkEdge MtoL (src c, Normal) (tgt p, Normal)). split; [apply Ed; constructor; assumption|apply L; cbn; tauto].
      * exists (mkEdge StoL (src c, Parts) (tgt p, Normal)). split; [apply Ed; constructor; assumption|apply L; cbn; tauto].
Qed.
Print Assumptions C102_fmm_refuted.

(** With FMM97 the expansion of the demo meets one exactly if there is a source box at the
    level 2 or below, and the center of mass expansions also if a target box the method comes
    to has a source box in its X list or is below the level 2. *)
Theorem C102_fmm97_refuted : forall A B (S : tree A) (T : tree B) unif same fuel, usable unif fuel S T ->
  exists ss tt, create_dag (fmm97 fuel) unif same fuel S T = Ok (ss, tt) /\ forall x evs, of_dag (ss ++ tt) evs -> whole_dag (ss ++ tt) evs ->
    (x = User -> (evaluate x evs = Fail NullDeref <-> exists c, sub S c <> None /\ 2 <= length c)) /\
    (x = LaplaceCOM \/ x = LaplaceCOMAcc -> (evaluate x evs = Fail NullDeref <->
      (exists c, sub S c <> None /\ 2 <= length c) \/ exists p, reached unif same S T p /\ (3 <= length p \/ exists c, list_X S p c))).
Proof.
  intros A B S T unif same fuel U. destruct (C57_fmm97_lists A B S T fuel unif same U) as (ss & tt & Hc & _ & Ed). destruct (null_iff A B (fmm97 fuel) unif same fuel S T (B_fmm97 fuel) U) as (s' & t' & Hc' & M). rewrite Hc in Hc'. injection Hc' as <- <-.
  exists ss, tt. split; [exact Hc|]. intros x evs O Wh. rewrite (M x evs O Wh).
  assert (LI : forall p c, list_I S p c -> sub S c <> None /\ 2 <= length c) by (intros p c (a & b & d & _); split; [exact a|lia]). split; intros Hx.
  - subst x. split.
    + intros (e & I & L). apply Ed in I. destruct I; cbn in L; try (intuition discriminate); eauto.
    + intros (c & Sc & Lc). exists (mkEdge MtoI (src c, Normal) (src c, Interm)). split; [apply Ed; constructor; assumption|]. cbn. tauto.
  - assert (L : forall o, lacks x o <-> In o [StoL; MtoL; LtoL; MtoI; ItoI; ItoL]) by (destruct Hx as [-> | ->]; reflexivity). split.
    + intros (e & I & Le). apply L in Le. apply Ed in I. destruct I as [| |c Sc Lc|c p D I|c p w R I|c p R X| | |p w R Lp|]; try (cbn in Le; intuition discriminate); [left; eauto|left; eauto|left; eauto|right; exists p; eauto|]. right. exists (p ++ [w]). split; [exact R|]. left. rewrite app_length. cbn. lia.
    + intros [(c & Sc & Lc)|(p & R & [Lp|(c & X)])].
      * exists (mkEdge MtoI (src c, Normal) (src c, Interm)). split; [apply Ed; constructor; assumption|apply L; cbn; tauto].
      * assert (Np : p <> []) by (intros ->; cbn in Lp; lia). destruct (snoc_parent p Np) as [w W]. exists (mkEdge LtoL (tgt (parent_of p), Normal) (tgt p, Normal)). split; [|apply L; cbn; tauto]. apply Ed. rewrite W at 2. constructor; [rewrite <- W; exact R|]. rewrite W, app_length in Lp. cbn in Lp. lia.
      * exists (mkEdge StoL (src c, Parts) (tgt p, Normal)). split; [apply Ed; constructor; assumption|apply L; cbn; tauto].
Qed.
Print Assumptions C102_fmm97_refuted.

(** Every node has at most one expansion, however many messages reach it, and the nodes that
    have one or will have one when a message arrives are the ends of the edges served whose
    operation makes an expansion. *)
Theorem C102_one_each : forall x evs st, evaluate x evs = Ok st ->
  NoDup (map fst (held st)) /\ forall v, In v (reached_lcos st) <-> exists e, In (Serve e) evs /\ eto e = v /\ makes e.
Proof. exact one_each. Qed.
Print Assumptions C102_one_each.

(** [I_to_I] relies on the methods for this: between a box and its own parent it would return
    an expansion without views and lose its first block, for Helmholtz its first two. *)
Theorem C102_own_parent_refuted : forall x s t h, In x [Laplace; Yukawa; Helmholtz] -> (forall a, icoord a s / 2 = icoord a t)%Z ->
  NoDup (live h) -> (forall n, In n (live h) -> n < next h) ->
  exists h', I_to_I x s t h = Ok (h', []) /\ length (live h') = length (live h) + match x with Helmholtz => 2 | _ => 1 end.
Proof.
  intros x s t h Hx E N B. assert (Tg : tags x s t = Ok []).
  { assert (V : forall k, i_to_i k s t = Ok []).
    { intros k. destruct (C40_views k s t) as (ps & Ei & _ & _ & _ & Z0 & _); [intros a; rewrite E; lia|]. rewrite Ei. f_equal. apply Z0. exact E. }
    destruct x; cbn [tags]; rewrite !V; reflexivity. }
  assert (W : well h (map Block (live h))) by (split; [exact N|split; [exact B|reflexivity]]).
  destruct (new_well (3 * length (of_tag x 0)) h _ W) as [W' L]. unfold I_to_I. destruct (new _ h) as [h1 ps]. cbn [fst snd] in *. rewrite Tg. cbn [bind length Nat.ltb Nat.leb flat_map combine].
  set (w := length (of_tag x 0)) in *.
  assert (Sp : ps = firstn w ps ++ firstn w (skipn w ps) ++ skipn (2 * w) ps) by (replace (2 * w) with (w + w) by lia; rewrite <- skip_twice, 2 firstn_skipn; reflexivity).
  assert (W1 : well h1 (firstn w (skipn w ps) ++ skipn (2 * w) ps ++ firstn w ps ++ map Block (live h))).
  { eapply well_perm; [|exact W']. rewrite Sp at 1. rewrite !app_assoc. apply Permutation_app_tail. rewrite <- app_assoc. apply Permutation_app_comm. }
  destruct (deletes_well _ _ _ W1) as (h2 & E2 & W2). rewrite E2. cbn [bind]. destruct (deletes_well _ _ _ W2) as (h3 & E3 & W3). rewrite E3. cbn [bind].
  exists h3. split; [reflexivity|]. destruct W3 as (_ & _ & P). apply Permutation_length in P. rewrite app_length, !map_length, firstn_length, L in P. rewrite P. unfold w. destruct x; cbn [of_tag length]; lia.
Qed.
Print Assumptions C102_own_parent_refuted.

(** Uneven trees with edges of all kinds: every edge is served and every message arrives, the
    last ones first.  Laplace and Helmholtz end with the blocks of their LCOs, Yukawa with FMM
    and the others at the null pointer. *)
Definition served (r : res (list task * list task)) : list event :=
  match r with Ok (ss, ts) => map Serve (all_edges (ss ++ ts)) ++ map Arrive (rev (seq 0 (length (all_edges (ss ++ ts))))) | Fail _ => [] end.
Definition blocks (r : res state) : res (nat * nat * nat) :=
  match r with
  | Ok st => match finish st with Ok h => Ok (length (live (mem st)), length (flying st), length (live h)) | Fail e => Fail e end
  | Fail e => Fail e
  end.
Example C102_nonvacuous : usable 1 4 exS exT /\
  map (fun x => blocks (evaluate x (served (create_dag (fmm97 4) 1 true 4 exS exT)))) [Laplace; Yukawa; Helmholtz; LaplaceCOM; User] =
    [Ok (102, 0, 0); Ok (102, 0, 0); Ok (176, 0, 0); Fail NullDeref; Fail NullDeref] /\
  map (fun x => blocks (evaluate x (served (create_dag (fmm 4) 1 true 4 exS exT)))) [Laplace; Yukawa; Helmholtz; LaplaceCOMAcc; User] =
    [Ok (10, 0, 0); Fail NullDeref; Fail NullDeref; Fail NullDeref; Ok (10, 0, 0)].
Proof. split; [exact ex_usable|split; vm_compute; reflexivity]. Qed.
Example C102_own_parent_nonvacuous : (forall a, icoord a (idx_of [3; 5]%nat) / 2 = icoord a (idx_of [3]%nat))%Z /\
  match I_to_I Helmholtz (idx_of [3; 5]) (idx_of [3]) (mkHeap 7 [4; 6]) with Ok (h, vs) => (live h, vs) | Fail _ => ([], []) end = ([7; 8; 4; 6], []).
Proof. split; [intros []; reflexivity|vm_compute; reflexivity]. Qed.
(** Two children contribute to their parent, and the parent serves a target: two messages, one
    expansion. *)
Example C102_one_each_nonvacuous :
  match evaluate Laplace (map Serve [mkEdge MtoM (src [3], Normal) (src [], Normal); mkEdge MtoM (src [5], Normal) (src [], Normal);
      mkEdge MtoT (src [], Normal) (tgt [], Parts)] ++ [Arrive 1; Arrive 0]) with
  | Ok st => map fst (held st) = [(src [], Normal)] /\ flying st = []
  | Fail _ => False
  end.
Proof. vm_compute. split; reflexivity. Qed.
