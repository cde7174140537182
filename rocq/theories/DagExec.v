(** Executing the tasks in any order the runtime allows. *)
From Coq Require Import ZArith List Bool Arith Lia Permutation.
From Verif Require Import Base ListFacts IndexModel TreeModel TreeFacts LookupModel GeomModel DagModel DagSpec DagProofs.
Import ListNotations.
Open Scope nat_scope.

Definition flat (ts : list task) : list (owner * act) := flat_map (fun t => map (pair (fst t)) (snd t)) ts.

Lemma links_app : forall a b, links (a ++ b) = links a ++ links b.
Proof. intros. unfold links. apply flat_map_app. Qed.
Lemma adds_app : forall a b, adds (a ++ b) = adds a ++ adds b.
Proof. intros. unfold adds. apply flat_map_app. Qed.
Lemma in_links : forall e l, In e (links l) <-> In (Link e) l.
Proof. intros e l. unfold links. rewrite in_flat_map. split; [intros ([n|e'] & I & J); [destruct J|destruct J as [->|[]]; assumption]|]. intros I. exists (Link e). split; [assumption|left; reflexivity]. Qed.
Lemma in_adds : forall n l, In n (adds l) <-> In (Add n) l.
Proof. intros e l. unfold adds. rewrite in_flat_map. split; [intros ([n|e'] & I & J); [destruct J as [->|[]]; assumption|destruct J]|]. intros I. exists (Add e). split; [assumption|left; reflexivity]. Qed.

Lemma perm_owners : forall os (l : list (owner * act)), NoDup os -> (forall x, In x l -> In (fst x) os) ->
  Permutation l (flat_map (fun o => filter (fun x => if owner_dec (fst x) o then true else false) l) os).
Proof.
  induction os as [|o os IH]; intros l N H.
  - destruct l as [|x l]; [constructor|]. destruct (H x (or_introl eq_refl)).
  - inversion N as [|? ? Hn Hd]; subst. cbn [flat_map]. set (f := fun x : owner * act => if owner_dec (fst x) o then true else false).
    assert (P : Permutation l (filter f l ++ filter (fun x => negb (f x)) l)).
    { clear. induction l as [|x l IH]; [constructor|]. cbn [filter]. destruct (f x); cbn [negb]; [cbn; constructor; assumption|]. eapply Permutation_trans; [constructor; exact IH|]. apply Permutation_middle. }
    eapply Permutation_trans; [exact P|]. apply Permutation_app_head. eapply Permutation_trans; [apply (IH (filter (fun x => negb (f x)) l) Hd)|].
    + intros x I. apply filter_In in I. destruct I as [I F]. destruct (H _ I) as [E|E]; [|assumption]. unfold f in F. destruct (owner_dec (fst x) o); [discriminate|congruence].
    + assert (Eq : forall o', In o' os -> filter (fun x => if owner_dec (fst x) o' then true else false) (filter (fun x => negb (f x)) l) = filter (fun x => if owner_dec (fst x) o' then true else false) l).
      { intros o' I. clear - Hn I. induction l as [|x l IH]; [reflexivity|]. cbn [filter]. unfold f at 1. destruct (owner_dec (fst x) o) as [E|E]; cbn [negb filter].
        - destruct (owner_dec (fst x) o') as [E'|E']; [exfalso; congruence|assumption].
        - destruct (owner_dec (fst x) o'); rewrite IH; reflexivity. }
      clear - Eq. induction os as [|o1 os IH1]; [constructor|]. cbn [flat_map]. rewrite (Eq o1 (or_introl eq_refl)). apply Permutation_app_head. apply IH1. intros o' I. apply Eq. right. assumption.
Qed.

Lemma flat_fst : forall ts o a, In (o, a) (flat ts) <-> exists acts, In (o, acts) ts /\ In a acts.
Proof.
  intros ts o a. unfold flat. rewrite in_flat_map. split.
  - intros ([o' acts] & I & J). apply in_map_iff in J. destruct J as (a' & E & J). cbn in E, J. injection E as -> ->. eauto.
  - intros (acts & I & J). exists (o, acts). split; [assumption|]. cbn. apply in_map. assumption.
Qed.

Lemma actions_filter : forall o l, map snd (filter (fun x : owner * act => if owner_dec (fst x) o then true else false) l) = actions_of o l.
Proof. intros o l. induction l as [|x l IH]; [reflexivity|]. cbn [filter actions_of flat_map]. destruct (owner_dec (fst x) o); cbn [map app]; [f_equal|]; exact IH. Qed.

Lemma schedule_perm : forall ts l, NoDup (map fst ts) -> schedule ts l -> Permutation (map snd l) (flat_map snd ts).
Proof.
  intros ts l N (H1 & H2 & _). pose proof (perm_owners (map fst ts) l N) as P. assert (X : forall x, In x l -> In (fst x) (map fst ts)).
  { intros [o a] I. destruct (H2 _ _ I) as [acts J]. apply in_map_iff. exists (o, acts). auto. }
  specialize (P X). apply (Permutation_map snd) in P. eapply Permutation_trans; [exact P|].
  assert (G : forall ts', incl ts' ts -> map snd (flat_map (fun o => filter (fun x : owner * act => if owner_dec (fst x) o then true else false) l) (map fst ts')) = flat_map snd ts').
  { induction ts' as [|[o acts] ts' IH]; intros I; [reflexivity|]. cbn [map flat_map fst snd]. rewrite map_app, actions_filter, (H1 o acts (I _ (or_introl eq_refl))). f_equal. apply IH. intros x J. apply I. right. assumption. }
  rewrite (G ts (incl_refl _)). apply Permutation_refl.
Qed.

Lemma perm_links : forall a b, Permutation a b -> Permutation (links a) (links b).
Proof. intros a b P. unfold links. induction P; cbn [flat_map]; [constructor|apply Permutation_app_head; assumption|rewrite !app_assoc; apply Permutation_app_tail; apply Permutation_app_comm|eapply Permutation_trans; eassumption]. Qed.
Lemma perm_adds : forall a b, Permutation a b -> Permutation (adds a) (adds b).
Proof. intros a b P. unfold adds. induction P; cbn [flat_map]; [constructor|apply Permutation_app_head; assumption|rewrite !app_assoc; apply Permutation_app_tail; apply Permutation_app_comm|eapply Permutation_trans; eassumption]. Qed.
Lemma all_edges_flat : forall ts, all_edges ts = links (flat_map snd ts).
Proof. induction ts as [|t ts IH]; [reflexivity|]. cbn [all_edges flat_map]. rewrite links_app. f_equal. exact IH. Qed.
Lemma all_adds_flat : forall ts, all_adds ts = adds (flat_map snd ts).
Proof. induction ts as [|t ts IH]; [reflexivity|]. cbn [all_adds flat_map]. rewrite adds_app. f_equal. exact IH. Qed.

(** A node used by a link of task [o], already there when only [a1] of the task is done. *)
Definition ready (ts : list task) (o : owner) (a1 : list act) (n : dnode) : Prop :=
  In n (adds a1) \/ exists o' acts', In (o', acts') ts /\ before o' o /\ In n (adds acts').

Lemma actions_app : forall o a b, actions_of o (a ++ b) = actions_of o a ++ actions_of o b.
Proof. intros. unfold actions_of. apply flat_map_app. Qed.
Lemma in_actions : forall o a l, In a (actions_of o l) <-> In (o, a) l.
Proof.
  intros o a l. unfold actions_of. rewrite in_flat_map. split.
  - intros ([o' a'] & I & J). cbn in J. destruct (owner_dec o' o) as [->|]; [|destruct J]. destruct J as [->|[]]. assumption.
  - intros I. exists (o, a). split; [assumption|]. cbn. destruct (owner_dec o o); [left; reflexivity|contradiction].
Qed.

Lemma run_snoc : forall l a, run (l ++ [a]) = do d <- run l; exec d a.
Proof. intros. unfold run. rewrite foldM_app. destruct (foldM exec l (mkDag [] [])); cbn; [|reflexivity]. destruct (exec a0 a); reflexivity. Qed.

Theorem run_schedule : forall ts l, NoDup (map fst ts) -> NoDup (all_adds ts) ->
  (forall o acts a1 e a2, In (o, acts) ts -> acts = a1 ++ Link e :: a2 -> ready ts o a1 (efrom e) /\ ready ts o a1 (eto e)) ->
  schedule ts l -> exists d, run (map snd l) = Ok d /\ Permutation (dnodes d) (all_adds ts) /\ Permutation (dedges d) (all_edges ts).
Proof.
  intros ts l N NA R Sc. pose proof (schedule_perm _ _ N Sc) as P. destruct Sc as (H1 & H2 & H3).
  assert (NL : NoDup (adds (map snd l))) by (rewrite all_adds_flat in NA; eapply Permutation_NoDup; [apply Permutation_sym; apply perm_adds; exact P|assumption]).
  assert (G : forall k l1 l2, length l1 = k -> l = l1 ++ l2 -> exists d, run (map snd l1) = Ok d /\ dnodes d = rev (adds (map snd l1)) /\ dedges d = rev (links (map snd l1))).
  { induction k as [|k IH]; intros l1 l2 L E.
    - destruct l1; [|discriminate]. exists (mkDag [] []). auto.
    - destruct l1 as [|x l1 _] using rev_ind; [discriminate|]. rewrite app_length in L. cbn in L. rewrite <- app_assoc in E. cbn [app] in E.
      destruct (IH l1 (x :: l2) ltac:(lia) E) as (d & Rd & Dn & De). destruct x as [o a]. rewrite map_app. cbn [map snd]. rewrite run_snoc, Rd, adds_app, links_app, !rev_app_distr. cbn [bind].
      assert (Ia : In (o, a) l) by (rewrite E; apply in_or_app; right; left; reflexivity).
      destruct (H2 _ _ Ia) as [acts It]. pose proof (H1 _ _ It) as Ea. rewrite E, actions_app in Ea. assert (Ea' : acts = actions_of o l1 ++ a :: actions_of o l2) by (rewrite <- Ea; f_equal; cbn; destruct (owner_dec o o); [reflexivity|contradiction]).
      assert (Rdy : forall n, ready ts o (actions_of o l1) n -> has d n = true).
      { intros n [I|(o' & acts' & It' & B & I)]; unfold has; destruct (in_dec dnode_dec n (dnodes d)) as [|NI]; try reflexivity; exfalso; apply NI; rewrite Dn, <- in_rev; apply in_adds.
        - apply in_adds, in_actions in I. apply in_map_iff. exists (o, Add n). auto.
        - apply in_adds in I. rewrite <- (H1 _ _ It') in I. apply in_actions in I. rewrite E in I. apply in_app_or in I. destruct I as [I|[I|I]].
          + apply in_map_iff. exists (o', Add n). auto.
          + injection I as <- _. exfalso. clear - B. destruct o as [[|] p]; cbn in B; destruct B; congruence.
          + exfalso. exact (H3 _ _ _ _ E _ _ B I). }
      destruct a as [n|e]; cbn [exec].
      + assert (Hn : has d n = false).
        { unfold has. destruct (in_dec dnode_dec n (dnodes d)) as [I|]; [|reflexivity]. exfalso. rewrite Dn, <- in_rev in I. rewrite E, map_app, adds_app in NL. cbn [map snd] in NL. change (adds (Add n :: map snd l2)) with (n :: adds (map snd l2)) in NL. apply NoDup_remove_2 in NL. apply NL. apply in_or_app. left. assumption. }
        rewrite Hn. cbn. eexists. split; [reflexivity|]. cbn. rewrite Dn, De. auto.
      + destruct (R _ _ _ _ _ It Ea') as [R1 R2]. rewrite (Rdy _ R1), (Rdy _ R2). cbn. eexists. split; [reflexivity|]. cbn. rewrite Dn, De. auto. }
  destruct (G _ l [] eq_refl ltac:(rewrite app_nil_r; reflexivity)) as (d & Rd & Dn & De). exists d. split; [assumption|]. rewrite Dn, De, all_adds_flat, all_edges_flat. split.
  - eapply Permutation_trans; [apply Permutation_sym; apply Permutation_rev|]. apply perm_adds. assumption.
  - eapply Permutation_trans; [apply Permutation_sym; apply Permutation_rev|]. apply perm_links. assumption.
Qed.
