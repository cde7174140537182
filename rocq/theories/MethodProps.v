(** C31, C35, C36, C38, C39, C42: the DAGs of the built-in methods. *)
From Coq Require Import ZArith List Bool Arith Lia Permutation.
From Verif Require Import Base ListFacts IndexModel TreeModel TreeFacts RefineModel LookupModel GeomModel DagModel MethodModel DagSpec DagProofs DagPaths DagExec DagSound MethodProofs MethodTasks MethodSound DirectBHProofs FmmProofs Fmm97Proofs DagOrder StopsProofs.
Import ListNotations.
Open Scope nat_scope.

(** ** Concrete trees *)
Definition leaf8 {X} (x : X) : tree X := T x (repeat None 8).
Definition put {X} (x : X) (ks : list (nat * tree X)) : tree X :=
  T x (map (fun w => option_map snd (find (fun k => fst k =? w) ks)) (seq 0 8)).
Fixpoint okb {X} (h u : nat) (t : tree X) : bool :=
  match h with
  | O => false
  | S h' => (length (kids t) =? 8) &&
      (if forallb (fun k => match k with None => true | Some _ => false end) (kids t) then u =? 0 else true) &&
      forallb (fun k => match k with None => true | Some c => okb h' (u - 1) c end) (kids t)
  end.
Lemma okb_ok : forall X h u (t : tree X), okb h u t = true -> eight t /\ lower h t /\ deep u t.
Proof.
  intros X. induction h as [|h IH]; intros u t H; [discriminate|]. cbn [okb] in H. apply andb_true_iff in H. destruct H as [H H3]. apply andb_true_iff in H. destruct H as [H1 H2]. apply Nat.eqb_eq in H1. rewrite forallb_forall in H3.
  assert (K : forall w c, kid t w = Some c -> eight c /\ lower h c /\ deep (u - 1) c).
  { intros w c E. apply IH. assert (I : In (Some c) (kids t)). { unfold kid in E. destruct (nth_error (kids t) w) as [o|] eqn:N; [|discriminate]. destruct o; [|discriminate]. injection E as ->. eapply nth_error_In. exact N. } exact (H3 _ I). }
  split; [|split].
  - intros [|w p] n Sn; cbn in Sn; [injection Sn as <-; assumption|]. destruct (kid t w) as [c|] eqn:E; [|discriminate]. apply (proj1 (K w c E) p n Sn).
  - intros [|w p] n Sn; cbn in Sn; [cbn; lia|]. destruct (kid t w) as [c|] eqn:E; [|discriminate]. cbn. pose proof (proj1 (proj2 (K w c E)) p n Sn). lia.
  - intros [|w p] (n & Sn & Kn); cbn in Sn.
    + injection Sn as <-. destruct (forallb _ (kids t)) eqn:F; [apply Nat.eqb_eq in H2; cbn; lia|]. exfalso. rewrite <- not_true_iff_false in F. apply F. apply forallb_forall. intros [c|] I; [|reflexivity]. apply In_nth_error in I. destruct I as [w I]. specialize (Kn w). unfold kid in Kn. rewrite I in Kn. discriminate.
    + destruct (kid t w) as [c|] eqn:E; [|discriminate]. assert (L : leaf_at c p) by (exists n; auto). pose proof (proj2 (proj2 (K w c E)) p L). cbn. lia.
Qed.
Lemma usable_ok : forall A B unif h (S : tree A) (T : tree B), okb h unif S && okb h unif T = true -> usable unif h S T.
Proof. intros A B unif h S T H. apply andb_true_iff in H. destruct H as [H1 H2]. apply okb_ok in H1. apply okb_ok in H2. unfold usable. intuition. Qed.

(** Sources in one corner, three levels deep, and one larger source leaf; targets in the
    opposite corner and in the middle. *)
Definition exS : tree nat := put 0 [(0, put 0 [(0, put 0 [(0, leaf8 1); (7, leaf8 2)]); (5, leaf8 3); (7, put 0 [(0, leaf8 6)])]); (7, leaf8 4)].
Definition exT : tree nat := put 0 [(0, put 0 [(7, put 0 [(1, leaf8 1); (6, leaf8 3)])]); (7, put 0 [(7, leaf8 2); (0, leaf8 5)])].
Lemma ex_usable : usable 1 4 exS exT.
Proof. apply usable_ok. reflexivity. Qed.
Definition ops_of (r : res (list task * list task)) : list operation :=
  match r with Ok (sl, tl) => map eop (all_edges (sl ++ tl)) | Fail _ => [] end.

(** ** C35 *)
Theorem C35_direct : forall A B unif same fuel (S : tree A) (T : tree B), usable unif fuel S T ->
  exists ss tt, create_dag (direct fuel) unif same fuel S T = Ok (ss, tt) /\ good_dag S T (ss ++ tt) /\
    (forall q, stops (ss ++ tt) q <-> leaf_at T q) /\
    (forall e, In e (all_edges (ss ++ tt)) <-> exists s q, leaf_at S s /\ leaf_at T q /\ e = mkEdge StoT ((SrcTree, s), Parts) ((TgtTree, q), Parts)).
Proof.
  intros A B unif same fuel S T (H1 & H2 & H3 & H4 & H5 & H6). destruct (direct_dag S T unif fuel same H1 H2 H3 H4 H5 H6) as (ss & tt & Hc & G & _ & St & _ & Ed). exists ss, tt. auto.
Qed.
Print Assumptions C35_direct.

(** ** C36 *)
Theorem C36_barnes_hut : forall A B accept unif same fuel (S : tree A) (T : tree B), usable unif fuel S T ->
  exists ss tt, create_dag (bh accept fuel) unif same fuel S T = Ok (ss, tt) /\ good_dag S T (ss ++ tt) /\
    (forall q, stops (ss ++ tt) q <-> leaf_at T q) /\
    (forall s q es, leaf_at S s -> chain (all_edges (ss ++ tt)) ((SrcTree, s), Parts) es ((TgtTree, q), Parts) -> bh_route s q es).
Proof.
  intros A B accept unif same fuel S T (H1 & H2 & H3 & H4 & H5 & H6). destruct (bh_dag S T unif fuel same H1 H2 H3 H4 H5 H6 accept) as (ss & tt & Hc & G & _ & St & _ & R & _). exists ss, tt. split; [assumption|]. split; [assumption|]. split; [assumption|]. intros s q es Hs Ch. apply R. exact Ch.
Qed.
Print Assumptions C36_barnes_hut.

(** ** C42 *)
Definition rank (x : dnode) : Z :=
  let '((sd, p), k) := x in
  match sd, k with
  | SrcTree, Parts => -2 - 2 * Z.of_nat (length p)
  | SrcTree, Normal => -1 - Z.of_nat (length p)
  | SrcTree, Interm => 0
  | TgtTree, Interm => 1 + 2 * Z.of_nat (length p)
  | TgtTree, Normal => 2 + 2 * Z.of_nat (length p)
  | TgtTree, Parts => 3 + 2 * Z.of_nat (length p)
  end%Z.
Lemma shape_rank : forall e, shape e -> (rank (efrom e) < rank (eto e))%Z.
Proof. intros e H. destruct H; cbn [efrom eto rank src tgt]; unfold src, tgt; rewrite ?app_length; cbn [length]; lia. Qed.
Lemma shape_acyclic : forall ts, (forall e, In e (all_edges ts) -> shape e) -> acyclic ts.
Proof.
  intros ts H a es Ch. assert (G : forall es a b, chain (all_edges ts) a es b -> (rank a <= rank b)%Z /\ (es <> [] -> (rank a < rank b)%Z)).
  { clear a es Ch. induction es as [|e es IH]; intros a b Ch; [cbn in Ch; subst; split; [lia|congruence]|]. destruct Ch as (I & <- & Ch). destruct (IH _ _ Ch) as [L _]. pose proof (shape_rank e (H e I)). split; [lia|intros _; lia]. }
  destruct es as [|e es]; [reflexivity|]. destruct (G _ _ _ Ch) as [_ L]. specialize (L ltac:(discriminate)). lia.
Qed.

(** The four built-in methods. *)
Inductive builtin {A B} (fuel : nat) : method A B -> Prop :=
| B_direct : builtin fuel (direct fuel)
| B_bh : forall accept, builtin fuel (bh accept fuel)
| B_fmm : builtin fuel (fmm fuel)
| B_fmm97 : builtin fuel (fmm97 fuel).

Theorem C42_acyclic : forall A B (m : method A B) unif same fuel S T, builtin fuel m -> usable unif fuel S T ->
  exists ss tt, create_dag m unif same fuel S T = Ok (ss, tt) /\ acyclic (ss ++ tt).
Proof.
  intros A B m unif same fuel S T Hm (H1 & H2 & H3 & H4 & H5 & H6). destruct Hm as [|accept| |].
  - destruct (direct_dag S T unif fuel same H1 H2 H3 H4 H5 H6) as (ss & tt & Hc & _ & Sh & _). exists ss, tt. split; [assumption|apply shape_acyclic; assumption].
  - destruct (bh_dag S T unif fuel same H1 H2 H3 H4 H5 H6 accept) as (ss & tt & Hc & _ & Sh & _). exists ss, tt. split; [assumption|apply shape_acyclic; assumption].
  - destruct (fmm_dag S T H1 H2 fuel unif same H3 H4 H5 H6) as (ss & tt & Hc & _ & Sh & _). exists ss, tt. split; [assumption|apply shape_acyclic; assumption].
  - destruct (fmm97_dag S T H1 H2 fuel unif same H3 H4 H5 H6) as (ss & tt & Hc & _ & Sh & _). exists ss, tt. split; [assumption|apply shape_acyclic; assumption].
Qed.
Print Assumptions C42_acyclic.

(** ** C38, C39 *)
Lemma flink_sep : forall A (S : tree A) p rf e, flink S p rf (Link e) -> separated S e /\ eop e <> ItoI.
Proof.
  intros A S p rf e H. inversion H as [c Lc Lt Cl Eq|c Sc Le Ap Eq|c R Sc Le Cl Eq|c R Lc Eq]; subst e; (split; [|discriminate]); cbn; auto.
Qed.
Lemma inh_sep : forall A (S : tree A) p pi b e, In (Link e) (inh lev2 p pi b) -> separated S e.
Proof.
  intros A S p pi b e J. unfold inh in J. apply in_app_or in J. destruct J as [J|J]; [destruct b; [destruct J as [J|[]]; discriminate J|destruct J]|]. destruct (lev2 p) eqn:L2; [|destruct J]. destruct J as [J|J]; [discriminate J|]. apply in_app_or in J. destruct J as [J|J].
  - destruct pi; [|destruct J]. destruct J as [J|[]]. injection J as <-. cbn. split; [reflexivity|]. split; [reflexivity|]. apply snoc_parent. intros ->. discriminate L2.
  - destruct (match p with [] => false | _ => lev2 (parent_of p) end); [|destruct J]. destruct J as [J|[]]. injection J as <-. exact I.
Qed.
Lemma slink_sep : forall A (S : tree A) msrc isrc p (n : tree A) e, slink msrc isrc p n e -> separated S e.
Proof. intros A S msrc isrc p n e [(-> & _)|[(w & _ & -> & _)|(-> & _)]]; exact I. Qed.

Theorem C38_fmm : forall A B unif same fuel (S : tree A) (T : tree B), usable unif fuel S T ->
  exists ss tt, create_dag (fmm fuel) unif same fuel S T = Ok (ss, tt) /\ good_dag S T (ss ++ tt) /\
    (forall e, In e (all_edges (ss ++ tt)) -> separated S e) /\
    (forall e, In e (all_edges (ss ++ tt)) -> eop e <> MtoI /\ eop e <> ItoI /\ eop e <> ItoL).
Proof.
  intros A B unif same fuel S T (H1 & H2 & H3 & H4 & H5 & H6). destruct (fmm_dag S T H1 H2 fuel unif same H3 H4 H5 H6) as (ss & tt & Hc & G & _ & _ & Ed). exists ss, tt. split; [assumption|]. split; [assumption|]. split; intros e Ie; (destruct (Ed e Ie) as [(p & n & _ & Hs)|(p & rf & _ & _ & [J|[J|(_ & _ & ->)]])]).
  - eapply slink_sep. exact Hs.
  - eapply inh_sep. exact J.
  - eapply flink_sep. exact J.
  - exact I.
  - destruct Hs as [(-> & _)|[(w & _ & -> & _)|(_ & X)]]; [repeat split; discriminate|repeat split; discriminate|discriminate X].
  - unfold inh in J. apply in_app_or in J. destruct J as [J|J]; [destruct (negb rf); [destruct J as [J|[]]; discriminate J|destruct J]|]. destruct (lev2 p); [|destruct J]. destruct J as [J|J]; [discriminate J|]. cbn [app] in J. destruct (match p with [] => false | _ => lev2 (parent_of p) end); [|destruct J]. destruct J as [J|[]]. injection J as <-. repeat split; discriminate.
  - inversion J; subst e; repeat split; discriminate.
  - repeat split; discriminate.
Qed.
Print Assumptions C38_fmm.

Theorem C39_fmm97 : forall A B unif same fuel (S : tree A) (T : tree B), usable unif fuel S T ->
  exists ss tt, create_dag (fmm97 fuel) unif same fuel S T = Ok (ss, tt) /\ good_dag S T (ss ++ tt) /\
    (forall e, In e (all_edges (ss ++ tt)) -> separated S e).
Proof.
  intros A B unif same fuel S T (H1 & H2 & H3 & H4 & H5 & H6). destruct (fmm97_dag S T H1 H2 fuel unif same H3 H4 H5 H6) as (ss & tt & Hc & G & _ & _ & Ed). exists ss, tt. split; [assumption|]. split; [assumption|]. intros e Ie. destruct (Ed e Ie) as [(p & n & _ & Hs)|(p & pi & rf & _ & _ & _ & [J|[J|[(_ & _ & ->)|(_ & c & _ & Lc & _ & J)]]])].
  - eapply slink_sep. exact Hs.
  - eapply inh_sep. exact J.
  - eapply flink_sep. exact J.
  - exact I.
  - injection J as ->. cbn. auto.
Qed.
Print Assumptions C39_fmm97.

(** Where both methods stop: at the largest target boxes that are leaves or, if sources and
    targets differ, have no divided source box of their level next to them; with the same
    points in both roles at the leaves. *)
Theorem C38_stops : forall A B unif same fuel (S : tree A) (T : tree B), usable unif fuel S T ->
  exists ss tt, create_dag (fmm fuel) unif same fuel S T = Ok (ss, tt) /\
    (forall q, stops (ss ++ tt) q <-> first_finished unif same S T q) /\ (same = true -> forall q, stops (ss ++ tt) q <-> leaf_at T q).
Proof.
  intros A B unif same fuel S T (H1 & H2 & H3 & H4 & H5 & H6). destruct (fmm_stops S T H1 H2 fuel unif same H3 H4 H5 H6) as (ss & tt & Hc & St). exists ss, tt. split; [assumption|]. split; [assumption|]. intros -> q. rewrite St. apply finished_same. assumption.
Qed.
Print Assumptions C38_stops.
Theorem C39_stops : forall A B unif same fuel (S : tree A) (T : tree B), usable unif fuel S T ->
  exists ss tt, create_dag (fmm97 fuel) unif same fuel S T = Ok (ss, tt) /\
    (forall q, stops (ss ++ tt) q <-> first_finished unif same S T q) /\ (same = true -> forall q, stops (ss ++ tt) q <-> leaf_at T q).
Proof.
  intros A B unif same fuel S T (H1 & H2 & H3 & H4 & H5 & H6). destruct (fmm97_stops S T H1 H2 fuel unif same H3 H4 H5 H6) as (ss & tt & Hc & St). exists ss, tt. split; [assumption|]. split; [assumption|]. intros -> q. rewrite St. apply finished_same. assumption.
Qed.
Print Assumptions C39_stops.

(** ** C31 *)
(** Every node of the Direct and Barnes-Hut DAGs but the source leaves receives something. *)
Theorem C31_direct_bh : forall A B (m : method A B) unif same fuel S T, (m = direct fuel \/ exists accept, m = bh accept fuel) -> usable unif fuel S T ->
  exists ss tt, create_dag m unif same fuel S T = Ok (ss, tt) /\ forall x, In x (all_adds (ss ++ tt)) -> is_start S x \/ fed (ss ++ tt) x.
Proof.
  intros A B m unif same fuel S T Hm (H1 & H2 & H3 & H4 & H5 & H6). destruct Hm as [->|[accept ->]].
  - destruct (direct_dag S T unif fuel same H1 H2 H3 H4 H5 H6) as (ss & tt & Hc & _ & _ & _ & F & _). exists ss, tt. auto.
  - destruct (bh_dag S T unif fuel same H1 H2 H3 H4 H5 H6 accept) as (ss & tt & Hc & _ & _ & _ & F & _). exists ss, tt. auto.
Qed.
Print Assumptions C31_direct_bh.
(** In the FMM DAG exactly those of level 2 without a far source do not. *)
Theorem C31_fmm : forall A B unif same fuel (S : tree A) (T : tree B), usable unif fuel S T ->
  exists ss tt, create_dag (fmm fuel) unif same fuel S T = Ok (ss, tt) /\
    forall x, In x (all_adds (ss ++ tt)) -> is_start S x \/ (fed (ss ++ tt) x <-> forall p, x = ((TgtTree, p), Normal) -> length p = 2 -> far_source S p).
Proof.
  intros A B unif same fuel S T (H1 & H2 & H3 & H4 & H5 & H6). destruct (fmm_dag S T H1 H2 fuel unif same H3 H4 H5 H6) as (ss & tt & Hc & _ & _ & F & _). exists ss, tt. auto.
Qed.
Print Assumptions C31_fmm.
Theorem C31_fmm97 : forall A B unif same fuel (S : tree A) (T : tree B), usable unif fuel S T ->
  exists ss tt, create_dag (fmm97 fuel) unif same fuel S T = Ok (ss, tt) /\
    forall x, In x (all_adds (ss ++ tt)) -> is_start S x \/ (fed (ss ++ tt) x <-> forall p, x = ((TgtTree, p), Normal) -> length p = 2 -> far_source97 S p).
Proof.
  intros A B unif same fuel S T (H1 & H2 & H3 & H4 & H5 & H6). destruct (fmm97_dag S T H1 H2 fuel unif same H3 H4 H5 H6) as (ss & tt & Hc & _ & _ & F & _). exists ss, tt. auto.
Qed.
Print Assumptions C31_fmm97.

(** All sources in one corner, targets there and in the opposite corner: the local expansion
    of the target box next to the sources has an output but no input. *)
Definition hangS : tree nat := put 0 [(0, put 0 [(0, leaf8 1)])].
Definition hangT : tree nat := put 0 [(0, put 0 [(0, leaf8 1)]); (7, put 0 [(7, leaf8 2)])].
Definition starved (x : dnode) (r : res (list task * list task)) : bool :=
  match r with
  | Ok (sl, tl) => existsb (fun y => if dnode_dec x y then true else false) (all_adds (sl ++ tl)) &&
      existsb (fun e => if dnode_dec x (efrom e) then true else false) (all_edges (sl ++ tl)) &&
      negb (existsb (fun e => if dnode_dec x (eto e) then true else false) (all_edges (sl ++ tl)))
  | Fail _ => false
  end.
Lemma starved_ok : forall x r, starved x r = true -> exists ss tt, r = Ok (ss, tt) /\ In x (all_adds (ss ++ tt)) /\ (exists e, In e (all_edges (ss ++ tt)) /\ efrom e = x) /\ ~ fed (ss ++ tt) x.
Proof.
  intros x [[ss tt]|] H; [|discriminate]. cbn in H. exists ss, tt. apply andb_true_iff in H. destruct H as [H H3]. apply andb_true_iff in H. destruct H as [H1 H2]. split; [reflexivity|]. split; [|split].
  - apply existsb_exists in H1. destruct H1 as (y & I & H1). destruct (dnode_dec x y); [subst; assumption|discriminate].
  - apply existsb_exists in H2. destruct H2 as (e & I & H2). destruct (dnode_dec x (efrom e)); [exists e; auto|discriminate].
  - intros (e & I & E). apply negb_true_iff in H3. rewrite <- not_true_iff_false in H3. apply H3. apply existsb_exists. exists e. split; [assumption|]. destruct (dnode_dec x (eto e)); [reflexivity|congruence].
Qed.
Theorem C31_every_node_fed_refuted : usable 1 3 hangS hangT /\ forall m : method nat nat, m = fmm 3 \/ m = fmm97 3 ->
  exists ss tt x, create_dag m 1 false 3 hangS hangT = Ok (ss, tt) /\ In x (all_adds (ss ++ tt)) /\ (exists e, In e (all_edges (ss ++ tt)) /\ efrom e = x) /\ ~ is_start hangS x /\ ~ fed (ss ++ tt) x.
Proof.
  split; [apply usable_ok; reflexivity|]. intros m Hm. assert (H : starved ((TgtTree, [0; 0]), Normal) (create_dag m 1 false 3 hangS hangT) = true) by (destruct Hm as [->| ->]; vm_compute; reflexivity).
  apply starved_ok in H. destruct H as (ss & tt & Hc & Ia & Ie & Nf). exists ss, tt, ((TgtTree, [0; 0]), Normal). split; [assumption|]. split; [assumption|]. split; [assumption|]. split; [|assumption]. intros (s & _ & X). discriminate X.
Qed.
Print Assumptions C31_every_node_fed_refuted.

(** ** Instances *)
Example C35_nonvacuous : usable 1 4 exS exT /\ length (ops_of (create_dag (direct 4) 1 true 4 exS exT)) = 20.
Proof. split; [apply ex_usable|vm_compute; reflexivity]. Qed.
Definition has_op (o : operation) (r : res (list task * list task)) : bool := existsb (fun x => if op_dec x o then true else false) (ops_of r).
Example C36_nonvacuous : usable 1 4 exS exT /\
  forallb (fun o => has_op o (create_dag (bh (fun c q => 2 <=? length c) 4) 1 true 4 exS exT)) [StoM; MtoM; MtoT; StoT] = true.
Proof. split; [apply ex_usable|vm_compute; reflexivity]. Qed.
Example C38_nonvacuous : usable 1 4 exS exT /\
  forallb (fun o => has_op o (create_dag (fmm 4) 1 true 4 exS exT)) [StoM; MtoM; MtoL; LtoL; LtoT; StoL; MtoT; StoT] = true.
Proof. split; [apply ex_usable|vm_compute; reflexivity]. Qed.
(** The targets of the example at which the method stops, with different and with the same points. *)
Definition stops_of (r : res (list task * list task)) : list path :=
  match r with Ok (sl, tl) => flat_map (fun x => match x with ((TgtTree, q), Parts) => [q] | _ => [] end) (all_adds (sl ++ tl)) | Fail _ => [] end.
Definition exT2 : tree nat := put 0 [(0, put 0 [(7, put 0 [(1, leaf8 1); (6, leaf8 3)])]); (7, put 0 [(7, put 0 [(0, leaf8 2); (7, leaf8 3)]); (0, leaf8 5)])].
Example C38_nonvacuous_stops : usable 1 4 exS exT2 /\
  stops_of (create_dag (fmm 4) 1 false 4 exS exT2) = [[0; 7; 1]; [0; 7; 6]; [7; 0]; [7; 7]] /\
  stops_of (create_dag (fmm 4) 1 true 4 exS exT2) = [[0; 7; 1]; [0; 7; 6]; [7; 0]; [7; 7; 0]; [7; 7; 7]].
Proof. split; [apply usable_ok; reflexivity|split; vm_compute; reflexivity]. Qed.
Example C39_nonvacuous : usable 1 4 exS exT /\
  forallb (fun o => has_op o (create_dag (fmm97 4) 1 true 4 exS exT)) [StoM; MtoM; MtoI; ItoI; ItoL; LtoL; LtoT; StoL; MtoT; StoT] = true.
Proof. split; [apply ex_usable|vm_compute; reflexivity]. Qed.
Example C42_nonvacuous : exists m : method nat nat, builtin 4 m /\ usable 1 4 exS exT.
Proof. exists (fmm97 4). split; [constructor|apply ex_usable]. Qed.
(** The sequential order is a schedule, so the schedules of [good_dag] exist. *)
Theorem C38_schedule_exists : forall A B (m : method A B) unif same fuel S T ss tt, eight S -> create_dag m unif same fuel S T = Ok (ss, tt) -> exists l, schedule (ss ++ tt) l.
Proof. intros A B m unif same fuel S T ss tt E H. eexists. eapply sequential; eassumption. Qed.
Print Assumptions C38_schedule_exists.
