From Coq Require Import List Arith Bool Lia Permutation.
From Verif Require Import Base ListFacts ForEachModel ForEachSpec.
Import ListNotations.

Definition nleaves (chunk count : nat) : nat := (count + chunk - 1) / chunk.
Definition total_leaves chunk (l : list task) := list_sum (map (fun t => nleaves chunk (snd t)) l).

Lemma ceil_spec : forall c n, 0 < c -> n / c + (if n mod c =? 0 then 0 else 1) = nleaves c n.
Proof.
  intros c n Hc. unfold nleaves. pose proof (Nat.div_mod n c ltac:(lia)) as D. pose proof (Nat.mod_upper_bound n c ltac:(lia)) as M.
  destruct (Nat.eqb_spec (n mod c) 0) as [E|E].
  - apply (Nat.div_unique _ _ _ (c - 1)); lia.
  - apply (Nat.div_unique _ _ _ (n mod c - 1)); nia.
Qed.

Lemma nleaves_one : forall c n, 0 < n -> n <= c -> nleaves c n = 1.
Proof. intros. unfold nleaves. symmetry. apply (Nat.div_unique _ _ _ (n - 1)); lia. Qed.

Lemma nleaves_pos : forall c n, 0 < c -> 0 < n -> 0 < nleaves c n.
Proof. intros. unfold nleaves. apply Nat.div_str_pos. lia. Qed.

Lemma nleaves_split : forall c k r, 0 < c -> 0 < r -> nleaves c (k * c + r) = k + nleaves c r.
Proof.
  intros c k r Hc Hr. unfold nleaves. replace (k * c + r + c - 1) with (r + c - 1 + k * c) by lia.
  rewrite Nat.div_add by lia. lia.
Qed.

Lemma nleaves_mult : forall c k, 0 < c -> nleaves c (k * c) = k.
Proof. intros c k Hc. unfold nleaves. symmetry. apply (Nat.div_unique _ _ _ (c - 1)); nia. Qed.

Lemma handler_facts : forall c d n, 0 < c -> 0 < n ->
  exists sp leaf, spawn_handler c (d, n) = Ok (sp, leaf) /\
   Forall (fun t => 0 < snd t) sp /\
   ((leaf = Some (d, n) /\ sp = [] /\ n <= c /\ nleaves c n = 1) \/
    (leaf = None /\ concat (map records sp) = seq d n /\ total_leaves c sp = nleaves c n /\ c < n /\
      Forall (fun t => snd t < n) sp)).
Proof.
  intros c d n Hc Hn. unfold spawn_handler.
  destruct (Nat.leb_spec n c) as [L|L].
  - exists [], (Some (d, n)). repeat split; [constructor|]. left. auto using nleaves_one.
  - destruct (Nat.eqb_spec c 0); [lia|]. rewrite ceil_spec by lia.
    set (k := nleaves c n / 2).
    assert (Hk2 : 2 <= nleaves c n).
    { unfold nleaves. apply Nat.div_le_lower_bound; lia. }
    assert (Hk : 0 < k) by (unfold k; apply Nat.div_str_pos; lia).
    assert (Hkn : 2 * k <= nleaves c n) by (unfold k; pose proof (Nat.div_mod (nleaves c n) 2 ltac:(lia)); lia).
    assert (Hub : nleaves c n * c <= n + c - 1).
    { unfold nleaves. pose proof (Nat.mul_div_le (n + c - 1) c ltac:(lia)). lia. }
    assert (Hlt : k * c < n) by nia.
    eexists _, None. split; [reflexivity|]. split; [repeat constructor; cbn [snd]; nia|].
    right. repeat split.
    + cbn [map concat records fst snd]. unfold records. cbn [fst snd]. rewrite app_nil_r, <- seq_app. f_equal. lia.
    + unfold total_leaves. cbn [map snd list_sum fold_right]. rewrite nleaves_mult by lia.
      assert (E : n = k * c + (n - k * c)) by lia. rewrite E at 2. rewrite nleaves_split by lia. lia.
    + assumption.
    + repeat constructor; cbn [snd]; nia.
Qed.

Lemma concat_map_app : forall A B (f : A -> list B) l1 l2, concat (map f (l1 ++ l2)) = concat (map f l1) ++ concat (map f l2).
Proof. intros. rewrite map_app, concat_app. reflexivity. Qed.

Lemma total_leaves_app : forall c l1 l2, total_leaves c (l1 ++ l2) = total_leaves c l1 + total_leaves c l2.
Proof. intros. unfold total_leaves. rewrite map_app, list_sum_app. reflexivity. Qed.

Lemma perm_mid : forall T (A B C D : list T), Permutation (D ++ A ++ B ++ C) (A ++ B ++ D ++ C).
Proof. intros. rewrite (app_assoc A B C), (app_assoc A B (D ++ C)). apply Permutation_app_swap_app. Qed.

Lemma NoDup_app_l : forall T (A B : list T), NoDup (A ++ B) -> NoDup A.
Proof. induction A as [|a A IH]; intros B H; [constructor|]. inversion H; subst. constructor; [intros X; apply H2; apply in_or_app; left; assumption|eauto]. Qed.

(** Invariant of every execution. *)
Definition finv (chunk total : nat) (s : fstate) : Prop :=
  Forall (fun t => 0 < snd t) (pending s) /\
  Forall (fun c => 0 < snd c <= chunk) (calls s) /\
  Permutation (concat (map records (calls s)) ++ concat (map records (pending s))) (seq 0 total) /\
  sets s + total_leaves chunk (pending s) = nleaves chunk total /\
  sets s = length (calls s).

Lemma fstep_inv : forall chunk total s s', 0 < chunk -> fstep chunk s s' -> finv chunk total s -> finv chunk total s'.
Proof.
  intros chunk total s s' Hc Hst (P & Q & R & E & L). inversion Hst as [l1 t l2 cs n sp leaf HS Es Es']. subst s s'. cbn [pending calls sets] in *.
  apply Forall_app in P. destruct P as [P1 P2]. inversion P2 as [|? ? Pt P3]; subst. destruct t as [d m]. cbn [snd] in Pt.
  destruct (handler_facts chunk d m Hc Pt) as (sp' & leaf' & HS' & F & C). rewrite HS in HS'. inversion HS'. subst sp' leaf'.
  rewrite total_leaves_app in E. change (total_leaves chunk ((d, m) :: l2)) with (nleaves chunk m + total_leaves chunk l2) in E.
  rewrite concat_map_app in R. cbn [map concat] in R. change (records (d, m)) with (seq d m) in R.
  unfold finv; cbn [pending calls sets].
  split; [apply Forall_app; split; [assumption|apply Forall_app; split; assumption]|].
  destruct C as [(-> & -> & Hm & H1)|(-> & HR & HL & _)].
  - split; [constructor; [cbn; lia|assumption]|]. split; [|split; [|cbn; lia]].
    + cbn [map concat app]. change (records (d, m)) with (seq d m). rewrite concat_map_app. rewrite <- R.
      rewrite <- app_assoc. apply perm_mid.
    + cbn [app]. rewrite total_leaves_app. lia.
  - split; [assumption|]. split; [|split; [|try assumption; reflexivity]].
    + unfold task in *. rewrite !concat_map_app, HR. assumption.
    + rewrite !total_leaves_app. lia.
Qed.

Lemma finv_init : forall chunk total, 0 < chunk -> finv chunk total (foreach_init total).
Proof.
  intros chunk total Hc. unfold finv, foreach_init. destruct (Nat.eqb_spec total 0) as [->|H]; cbn.
  - repeat split; try constructor. unfold nleaves. symmetry. apply Nat.div_small. lia.
  - repeat split; try constructor; cbn; try lia; try constructor. unfold records. cbn. rewrite app_nil_r. reflexivity.
Qed.

Lemma fruns_inv : forall chunk total s, 0 < chunk -> fruns chunk (foreach_init total) s -> finv chunk total s.
Proof.
  intros chunk total s Hc H. remember (foreach_init total) as s0 eqn:E0. induction H.
  - subst. apply finv_init. assumption.
  - eapply fstep_inv; eauto.
Qed.

Lemma finv_progress : forall chunk total s, 0 < chunk -> finv chunk total s -> pending s <> [] -> exists s', fstep chunk s s'.
Proof.
  intros chunk total [p c n] Hc (P & _) Hp. cbn in *. destruct p as [|[d m] p]; [contradiction|].
  inversion P; subst. destruct (handler_facts chunk d m Hc H1) as (sp & leaf & HS & _).
  eexists. apply (fstep_run chunk [] (d, m) p c n sp leaf HS).
Qed.

(** Every execution is finite: twice the number of remaining leaf calls minus
    the number of pending tasks decreases. *)
Definition measure chunk (s : fstate) := 2 * total_leaves chunk (pending s) - length (pending s).

Lemma pending_le_leaves : forall chunk l, 0 < chunk -> Forall (fun t => 0 < snd t) l -> length l <= total_leaves chunk l.
Proof.
  intros chunk l Hc H. induction H; [cbn; lia|]. pose proof (nleaves_pos chunk (snd x) Hc H).
  change (total_leaves chunk (x :: l)) with (nleaves chunk (snd x) + total_leaves chunk l). cbn [length]. lia.
Qed.

Lemma fstep_measure : forall chunk total s s', 0 < chunk -> finv chunk total s -> fstep chunk s s' -> measure chunk s' < measure chunk s.
Proof.
  intros chunk total s s' Hc (P & Q & R & E & L) Hst. inversion Hst as [l1 t l2 cs n sp leaf HS Es Es']. subst s s'. unfold measure; cbn [pending] in *.
  apply Forall_app in P. destruct P as [P1 P2]. inversion P2 as [|? ? Pt P3]; subst. destruct t as [d m]. cbn [snd] in Pt.
  destruct (handler_facts chunk d m Hc Pt) as (sp' & leaf' & HS' & F & C). pose proof HS as HS2. rewrite HS in HS'. inversion HS'. subst sp' leaf'.
  pose proof (pending_le_leaves chunk l1 Hc P1). pose proof (pending_le_leaves chunk l2 Hc P3).
  rewrite !total_leaves_app, !app_length.
  assert (Et : total_leaves chunk ((d, m) :: l2) = nleaves chunk m + total_leaves chunk l2) by reflexivity.
  unfold task in *. rewrite Et. cbn [length].
  destruct C as [(-> & -> & Hm & H1)|(-> & HR & HL & Hgt & _)].
  - cbn [length]. change (total_leaves chunk []) with 0. lia.
  - pose proof (pending_le_leaves chunk sp Hc F). unfold spawn_handler in HS2.
    destruct (Nat.leb_spec m chunk); [lia|]. destruct (Nat.eqb_spec chunk 0); [lia|]. inversion HS2. subst sp. cbn [length] in *. lia.
Qed.
