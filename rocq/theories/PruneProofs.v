From Coq Require Import ZArith List Bool Lia.
From Verif Require Import Base ListFacts IndexModel IndexSpec IndexProofs GridModel GridSpec GridProofs PruneModel.
Import ListNotations.
Open Scope Z_scope.

Section Prune.
Variable L : nat.
Hypothesis HL : (1 <= L <= 10)%nat.
Variable counts : Z -> Z.
Variable nparts : Z -> Z.
Hypothesis Hparts : forall p, 0 <= p < tops L -> nparts p = 0.

Notation LZ := (Z.of_nat L).
Notation pos := (pos L).
Notation top := (top L).

Fixpoint livef (d : nat) (i : index) : bool :=
  match d with
  | O => negb (counts (slot_of i LZ) =? 0)
  | S d' => existsb (fun w => livef d' (child w i)) (zseq 0 8)
  end.
Definition live (i : index) : bool := livef (Z.to_nat (LZ - ilevel i)) i.

(** [j] is [i] or below it. *)
Definition under (i j : index) : Prop := top j /\ ilevel i <= ilevel j /\ parent (ilevel j - ilevel i) j = i.

Lemma live_step : forall i, top i -> ilevel i < LZ -> live i = existsb (fun w => live (child w i)) (zseq 0 8).
Proof.
  intros i [G _] H. assert (0 <= ilevel i) by apply G. unfold live. replace (Z.to_nat (LZ - ilevel i)) with (S (Z.to_nat (LZ - (ilevel i + 1)))) by lia. reflexivity.
Qed.

Lemma live_last : forall i, ilevel i = LZ -> live i = negb (counts (slot_of i LZ) =? 0).
Proof. intros i H. unfold live. rewrite H, Z.sub_diag. reflexivity. Qed.

Lemma in_zseq8 : forall w, In w (zseq 0 8) <-> 0 <= w < 8.
Proof.
  intros w. unfold zseq. rewrite in_map_iff. split; [intros (k & <- & Hk); apply in_seq in Hk; lia|]. intros H. exists (Z.to_nat w). split; [lia|]. apply in_seq. lia.
Qed.

Lemma under_refl : forall i, top i -> under i i.
Proof. intros i T. split; [assumption|]. split; [lia|]. rewrite Z.sub_diag. apply parent_0. apply T. Qed.

Lemma top_child : forall i w, top i -> ilevel i < LZ -> 0 <= w < 8 -> top (child w i).
Proof. intros i w [G Hl] H Hw. destruct (child_facts w i Hw G) as (A & B & _). split; [assumption|lia]. Qed.

Lemma under_child : forall i w j, top i -> 0 <= w < 8 -> under (child w i) j -> under i j.
Proof.
  intros i w j T Hw (Tj & Lj & P). destruct (child_facts w i Hw (proj1 T)) as (A & B & C & _). assert (0 <= ilevel i) by apply T. split; [assumption|]. split; [lia|].
  replace (ilevel j - ilevel i) with (1 + (ilevel j - ilevel (child w i))) by lia. rewrite <- parent_parent by (try lia; apply Tj). rewrite P. assumption.
Qed.

Lemma under_split : forall i j, top i -> under i j -> j = i \/ (ilevel i < ilevel j /\ exists w, 0 <= w < 8 /\ under (child w i) j).
Proof.
  intros i j T (Tj & Lj & P). assert (0 <= ilevel i) by apply T. destruct (Z.eq_dec (ilevel j) (ilevel i)) as [E|E].
  - left. rewrite E, Z.sub_diag in P. rewrite parent_0 in P by lia. assumption.
  - right. split; [lia|]. set (k := parent (ilevel j - ilevel i - 1) j).
    assert (Gk : in_grid k) by (apply parent_in_grid; [lia|apply Tj]). assert (Lk : ilevel k = ilevel i + 1) by (unfold k; rewrite level_of_parent; lia).
    assert (Pk : parent 1 k = i). { unfold k. rewrite parent_parent by lia. replace (1 + (ilevel j - ilevel i - 1)) with (ilevel j - ilevel i) by lia. assumption. }
    destruct (octant_of_parent k Gk ltac:(lia)) as [_ W]. exists (which_child k). split; [assumption|]. pose proof (child_of_parent k Gk ltac:(lia)) as Ck. rewrite Pk in Ck. rewrite Ck.
    split; [assumption|]. split; [lia|]. unfold k. rewrite level_of_parent by lia. f_equal. lia.
Qed.

Lemma under_unique : forall i v w j, top i -> 0 <= v < 8 -> 0 <= w < 8 -> under (child v i) j -> under (child w i) j -> v = w.
Proof.
  intros i v w j T Hv Hw (_ & _ & P) (_ & _ & Q). destruct (child_facts v i Hv (proj1 T)) as (_ & B & _ & D). destruct (child_facts w i Hw (proj1 T)) as (_ & B' & _ & D').
  rewrite B in P. rewrite B' in Q. rewrite <- D, <- D'. congruence.
Qed.

Lemma not_under_child : forall i w, top i -> 0 <= w < 8 -> ~ under (child w i) i.
Proof. intros i w T Hw (_ & H & _). destruct (child_facts w i Hw (proj1 T)) as (_ & B & _). lia. Qed.

Definition fin (j : index) (v : Z) : option Z := if live (child v j) then Some (pos (child v j)) else None.
Definition init (j : index) (v : Z) : option Z := if ilevel j + 1 =? LZ then fin j v else Some (pos (child v j)).

Definition pre (b : block) (i : index) : Prop := forall j v, under i j -> ilevel j < LZ -> 0 <= v < 8 -> t_child (b_at b (pos j)) v = init j v.
Definition post (b : block) (i : index) : Prop := forall j v, under i j -> ilevel j < LZ -> 0 <= v < 8 -> t_child (b_at b (pos j)) v = fin j v.
(** Same size, same indices, and the same links outside [i]'s part. *)
Definition frame (b b' : block) (i : index) : Prop := b_size b' = b_size b /\ (forall q, t_idx (b_at b' q) = t_idx (b_at b q)) /\
  (forall j, top j -> (under i j /\ ilevel j < LZ) \/ (forall v, t_child (b_at b' (pos j)) v = t_child (b_at b (pos j)) v)).

(** The parent pointers after the part below [i] is done: those of the nodes strictly below
    [i] that have no points are null. *)
Definition ub (i j : index) : bool := (ilevel i <=? ilevel j) && index_eqb (parent (ilevel j - ilevel i) j) i.
Definition dead (j : index) : bool := (ilevel j <? LZ) && negb (live j).
Definition below (i j : index) : bool := existsb (fun v => ub (child v i) j) (zseq 0 8).
Definition parents (b b' : block) (i : index) : Prop :=
  forall j, top j -> t_parent (b_at b' (pos j)) = if dead j && below i j then None else t_parent (b_at b (pos j)).

Lemma ub_under : forall i j, top j -> (ub i j = true <-> under i j).
Proof.
  intros i j T. unfold ub, under. rewrite andb_true_iff, Z.leb_le, index_eqb_eq. tauto.
Qed.

Lemma ub_split : forall i j, top i -> top j -> ilevel i < LZ -> ub i j = index_eqb j i || below i j.
Proof.
  intros i j Ti Tj Hi. apply eq_true_iff_eq. rewrite ub_under, orb_true_iff, index_eqb_eq by assumption. unfold below. rewrite existsb_exists. split.
  - intros U. destruct (under_split i j Ti U) as [->|(_ & w & Hw & Uw)]; [left; reflexivity|right]. exists w. split; [apply in_zseq8; assumption|apply ub_under; assumption].
  - intros [->|(w & Hw & Uw)]; [apply under_refl; assumption|]. apply in_zseq8 in Hw. apply ub_under in Uw; [|assumption]. exact (under_child i w j Ti Hw Uw).
Qed.

Lemma below_level : forall i j, top i -> top j -> below i j = true -> ilevel i < ilevel j.
Proof.
  intros i j Ti Tj H. apply existsb_exists in H as (w & Hw & U). apply in_zseq8 in Hw. apply ub_under in U as (_ & X & _); [|assumption]. destruct (child_facts w i Hw (proj1 Ti)) as (_ & B & _). lia.
Qed.

Lemma leaf_fin : forall b i, top i -> ilevel i < LZ -> (forall v, 0 <= v < 8 -> t_child (b_at b (pos i)) v = fin i v) -> t_leaf (b_at b (pos i)) = negb (live i).
Proof.
  intros b i T H F. rewrite live_step by assumption. unfold t_leaf.
  assert (X : forall l, (forall v, In v l -> 0 <= v < 8) -> forallb (fun w => match t_child (b_at b (pos i)) w with None => true | Some _ => false end) l = negb (existsb (fun w => live (child w i)) l)).
  { induction l as [|v l IH]; intros Hl; [reflexivity|]. cbn [forallb existsb]. rewrite IH by (intros; apply Hl; right; assumption). rewrite F by (apply Hl; left; reflexivity). unfold fin. destruct (live (child v i)); reflexivity. }
  apply X. intros v Hv. apply in_zseq8. assumption.
Qed.

Lemma remove_links_ok : forall d fuel b i, top i -> Z.of_nat d = LZ - 1 - ilevel i -> (d < fuel)%nat -> b_size b = total L -> pre b i ->
  exists b', remove_links nparts fuel (LZ - 1) b (pos i) (ilevel i) = Ok (b', negb (live i)) /\ post b' i /\ frame b b' i /\ parents b b' i.
Proof.
  induction d as [|d IH]; intros fuel b i T Hd HF Hs Hp; (destruct fuel as [|fuel]; [lia|]); cbn [remove_links].
  - replace (ilevel i <? LZ - 1) with false by (symmetry; apply Z.ltb_ge; lia). cbn [bind].
    assert (Hpost : post b i).
    { intros j v Uj Hj Hv. rewrite Hp by assumption. unfold init. replace (ilevel j + 1 =? LZ) with true; [reflexivity|]. symmetry. apply Z.eqb_eq. destruct Uj as (_ & X & _). lia. }
    rewrite load_ok by (rewrite Hs; apply pos_range; assumption). cbn [bind]. exists b. split.
    + rewrite (leaf_fin b i T ltac:(lia)) by (intros v Hv; apply Hpost; [apply under_refl; assumption|lia|assumption]).
      rewrite Hparts by (split; [apply (pos_range L HL i T)|apply (pos_upper L HL i T); lia]). rewrite andb_true_r. reflexivity.
    + split; [assumption|]. split; [split; [reflexivity|]; split; [reflexivity|]; intros j Tj; right; reflexivity|].
      intros j Tj. destruct (dead j && below i j) eqn:D; [|reflexivity]. exfalso. apply andb_true_iff in D as [D Bl]. apply andb_true_iff in D as [D _]. apply Z.ltb_lt in D. apply below_level in Bl; [lia|assumption..].
  - replace (ilevel i <? LZ - 1) with true by (symmetry; apply Z.ltb_lt; lia).
    set (body := fun (b : block) (i0 : Z) => _ ).
    assert (Li : ilevel i + 1 < LZ) by lia. assert (L0 : 0 <= ilevel i) by apply T.
    (* loop *)
    assert (Loop : forall n w bw, Z.of_nat n + w = 8 -> 0 <= w ->
       b_size bw = total L -> (forall q, t_idx (b_at bw q) = t_idx (b_at b q)) ->
       (forall j, top j -> (under i j /\ ilevel j < LZ) \/ forall v, t_child (b_at bw (pos j)) v = t_child (b_at b (pos j)) v) ->
       (forall v, 0 <= v < w -> post bw (child v i)) -> (forall v, w <= v < 8 -> pre bw (child v i)) ->
       (forall v, 0 <= v < 8 -> t_child (b_at bw (pos i)) v = if v <? w then fin i v else Some (pos (child v i))) ->
       (forall j, top j -> t_parent (b_at bw (pos j)) = if dead j && existsb (fun v => ub (child v i) j) (zseq 0 (Z.to_nat w)) then None else t_parent (b_at b (pos j))) ->
       exists b', foldM body (map (fun k => w + Z.of_nat k) (seq 0 n)) bw = Ok b' /\ b_size b' = total L /\ (forall q, t_idx (b_at b' q) = t_idx (b_at b q)) /\
         (forall j, top j -> (under i j /\ ilevel j < LZ) \/ forall v, t_child (b_at b' (pos j)) v = t_child (b_at b (pos j)) v) /\
         (forall v, 0 <= v < 8 -> post b' (child v i)) /\ (forall v, 0 <= v < 8 -> t_child (b_at b' (pos i)) v = fin i v) /\ parents b b' i).
    { induction n as [|n IHn]; intros w bw Hn Hw Sz Ix Fr Po Pr Ow Pa.
      - exists bw. cbn [seq map foldM]. split; [reflexivity|]. split; [assumption|]. split; [assumption|]. split; [assumption|]. assert (w = 8) by lia. subst w. split; [assumption|]. split; [intros v Hv; rewrite Ow by assumption; replace (v <? 8) with true by (symmetry; apply Z.ltb_lt; lia); reflexivity|exact Pa].
      - cbn [seq map foldM]. rewrite Z.add_0_r. set (c := child w i). assert (Hw8 : 0 <= w < 8) by lia. pose proof (top_child i w T ltac:(lia) Hw8) as Tc. fold c in Tc.
        destruct (child_facts w i Hw8 (proj1 T)) as (Gc & Lc & Pc & Wc). fold c in Gc, Lc, Pc, Wc.
        assert (Step : exists b2, body bw w = Ok b2 /\ b_size b2 = total L /\ (forall q, t_idx (b_at b2 q) = t_idx (b_at bw q)) /\
           (forall j, top j -> j <> i -> (under c j /\ ilevel j < LZ) \/ forall v, t_child (b_at b2 (pos j)) v = t_child (b_at bw (pos j)) v) /\ post b2 c /\
           (forall v, t_child (b_at b2 (pos i)) v = if v =? w then fin i w else t_child (b_at bw (pos i)) v) /\
           (forall j, top j -> t_parent (b_at b2 (pos j)) = if dead j && ub c j then None else t_parent (b_at bw (pos j)))).
        { unfold body. rewrite load_ok by (rewrite Sz; apply pos_range; assumption). cbn [bind]. rewrite (Ow w Hw8). replace (w <? w) with false by (symmetry; apply Z.ltb_irrefl). fold c.
          replace (ilevel i + 1) with (ilevel c) by lia.
          destruct (IH fuel bw c Tc ltac:(lia) ltac:(lia) Sz (Pr w ltac:(lia))) as (b1 & E1 & Po1 & (S1 & I1 & F1) & Q1). rewrite E1. cbn [bind fst snd].
          assert (Sz1 : b_size b1 = total L) by congruence.
          assert (Fi : forall v, t_child (b_at b1 (pos i)) v = t_child (b_at bw (pos i)) v). { destruct (F1 i T) as [[U _]|X]; [exfalso; exact (not_under_child i w T Hw8 U)|assumption]. }
          assert (Npos : pos c <> pos i) by (intros X; apply pos_inj in X; try assumption; rewrite X in Lc; lia).
          unfold fin. fold c. destruct (live c) eqn:Lv; cbn [negb].
          - exists b1. split; [reflexivity|]. split; [assumption|]. split; [assumption|]. split; [intros j Tj _; apply F1; assumption|]. split; [assumption|]. split.
            + intros v. rewrite Fi. destruct (Z.eqb_spec v w) as [->|]; [|reflexivity]. rewrite (Ow w Hw8), Z.ltb_irrefl. reflexivity.
            + intros j Tj. rewrite Q1, (ub_split c j Tc Tj) by (assumption || lia). destruct (index_eqb j c) eqn:Ej; [|reflexivity]. apply index_eqb_eq in Ej. subst j. unfold dead. rewrite Lv, andb_false_r. reflexivity.
          - rewrite load_ok by (rewrite Sz1; apply pos_range; assumption). cbn [bind]. rewrite store_ok by (rewrite Sz1; apply pos_range; assumption). cbn [bind].
            rewrite load_ok by (cbn [b_size]; rewrite Sz1; apply pos_range; assumption). cbn [bind b_at].
            rewrite store_ok by (cbn [b_size]; rewrite Sz1; apply pos_range; assumption). eexists. split; [reflexivity|]. cbn [b_size b_at].
            replace (pos i =? pos c) with false by (symmetry; apply Z.eqb_neq; auto).
            split; [assumption|]. split.
            { intros q. destruct (Z.eqb_spec q (pos i)) as [->|]; [cbn; apply I1|]. destruct (Z.eqb_spec q (pos c)) as [->|]; [cbn; apply I1|apply I1]. }
            assert (Ch : forall q v, q <> pos i -> t_child (if q =? pos i then clear_child (b_at b1 (pos i)) w else if q =? pos c then clear_parent (b_at b1 (pos c)) else b_at b1 q) v = t_child (b_at b1 q) v).
            { intros q v Nq. destruct (Z.eqb_spec q (pos i)); [contradiction|]. destruct (Z.eqb_spec q (pos c)) as [->|]; reflexivity. }
            split; [|split; [|split]].
            + intros j Tj Nj. assert (pos j <> pos i) by (intros X; apply Nj; apply (pos_inj L HL); assumption). destruct (F1 j Tj) as [U|X]; [left; assumption|right]. intros v. cbn [b_at]. rewrite Ch by assumption. apply X.
            + intros j v Uj Hj Hv. assert (pos j <> pos i). { intros X. apply pos_inj in X; try assumption; [|apply Uj]. subst j. exact (not_under_child i w T Hw8 Uj). }
              cbn [b_at]. rewrite Ch by assumption. apply Po1; assumption.
            + intros v. cbn [b_at]. rewrite Z.eqb_refl. cbn [clear_child t_child]. destruct (v =? w); [reflexivity|]. apply Fi.
            + intros j Tj. rewrite (ub_split c j Tc Tj) by lia. specialize (Q1 j Tj). destruct (index_eqb j c) eqn:Ej.
              * apply index_eqb_eq in Ej. subst j. cbn [orb]. replace (pos c =? pos i) with false by (symmetry; apply Z.eqb_neq; assumption). rewrite Z.eqb_refl. cbn [clear_parent t_parent].
                unfold dead. rewrite Lv. replace (ilevel c <? LZ) with true by (symmetry; apply Z.ltb_lt; lia). reflexivity.
              * cbn [orb]. rewrite <- Q1. destruct (Z.eqb_spec (pos j) (pos i)) as [E|_]; [rewrite E; reflexivity|]. destruct (Z.eqb_spec (pos j) (pos c)) as [E|_]; [|reflexivity].
                apply (pos_inj L HL) in E; [|assumption..]. subst j. rewrite (proj2 (index_eqb_eq c c) eq_refl) in Ej. discriminate. }
        destruct Step as (b2 & E2 & S2 & I2 & F2 & P2 & O2 & Q2). rewrite E2. cbn [bind].
        rewrite <- seq_shift, map_map. rewrite (map_ext (fun x => w + Z.of_nat (S x)) (fun k => (w + 1) + Z.of_nat k)) by (intros; lia).
        assert (Tlt : forall v j, 0 <= v < 8 -> under (child v i) j -> j <> i) by (intros v j Hv U ->; exact (not_under_child i v T Hv U)).
        apply IHn; try lia; try assumption.
        + intros q. rewrite I2. apply Ix.
        + intros j Tj. assert (D : j = i \/ j <> i). { destruct (index_eqb j i) eqn:E; [left; apply index_eqb_eq; assumption|right; intros ->; rewrite (proj2 (index_eqb_eq i i) eq_refl) in E; discriminate]. }
          destruct D as [->|Nj]; [left; split; [apply under_refl; assumption|lia]|]. destruct (Fr j Tj) as [X|X]; [left; assumption|]. destruct (F2 j Tj Nj) as [[U Hj]|Y]; [left; split; [eapply under_child; eassumption|assumption]|right; intros v; rewrite Y; apply X].
        + intros v Hv. destruct (Z.eq_dec v w) as [->|Nv]; [assumption|]. intros j u Uj Hj Hu. destruct (F2 j (proj1 Uj) (Tlt v j ltac:(lia) Uj)) as [[U _]|Y].
          * exfalso. apply Nv. exact (under_unique i v w j T ltac:(lia) Hw8 Uj U).
          * rewrite Y. apply (Po v); [lia|assumption..].
        + intros v Hv j u Uj Hj Hu. destruct (F2 j (proj1 Uj) (Tlt v j ltac:(lia) Uj)) as [[U _]|Y].
          * exfalso. assert (v = w) by exact (under_unique i v w j T ltac:(lia) Hw8 Uj U). lia.
          * rewrite Y. apply (Pr v); [lia|assumption..].
        + intros v Hv. rewrite O2, Ow by assumption. destruct (Z.eqb_spec v w) as [->|Nv]; [replace (w <? w + 1) with true by (symmetry; apply Z.ltb_lt; lia); reflexivity|].
          destruct (Z.ltb_spec v w), (Z.ltb_spec v (w + 1)); try lia; reflexivity.
        + intros j Tj. rewrite Q2, Pa by assumption. replace (Z.to_nat (w + 1)) with (S (Z.to_nat w)) by lia. unfold zseq. rewrite seq_S, map_app, existsb_app. cbn [map existsb plus]. rewrite orb_false_r.
          replace (0 + Z.of_nat (Z.to_nat w)) with w by lia. fold c. destruct (dead j); cbn [andb]; [|reflexivity]. destruct (ub c j); [rewrite orb_true_r; reflexivity|rewrite orb_false_r; reflexivity]. }
    destruct (Loop 8%nat 0 b) as (b1 & E1 & S1 & I1 & F1 & P1 & O1 & Q1); try lia; try assumption; try reflexivity.
    + intros j Tj. right. reflexivity.
    + intros v Hv j u Uj Hj Hu. apply Hp; [exact (under_child i v j T ltac:(lia) Uj)|assumption|assumption].
    + intros v Hv. rewrite Hp by (try assumption; try lia; apply under_refl; assumption). unfold init. replace (ilevel i + 1 =? LZ) with false by (symmetry; apply Z.eqb_neq; lia). replace (v <? 0) with false by (symmetry; apply Z.ltb_ge; lia). reflexivity.
    + intros j Tj. cbn. rewrite andb_false_r. reflexivity.
    + unfold zseq. rewrite E1. cbn [bind]. rewrite load_ok by (rewrite S1; apply pos_range; assumption). cbn [bind]. exists b1. split; [|split; [|split]].
      * rewrite (leaf_fin b1 i T ltac:(lia) O1). rewrite Hparts by (split; [apply (pos_range L HL i T)|apply (pos_upper L HL i T); lia]). rewrite andb_true_r. reflexivity.
      * intros j v Uj Hj Hv. destruct (under_split i j T Uj) as [->|(_ & w & Hw & U)]; [apply O1; assumption|]. apply (P1 w Hw); assumption.
      * split; [congruence|]. split; assumption.
      * exact Q1.
Qed.

(** First phase. *)
Definition dead_upto (k : Z) (c : index) : bool := (slot_of c LZ <? k) && (counts (slot_of c LZ) =? 0).

Record cinv (b0 : block) (k : Z) (b : block) : Prop := {
  ci_size : b_size b = total L;
  ci_idx : forall q, t_idx (b_at b q) = t_idx (b_at b0 q);
  ci_par : forall q, t_parent (b_at b q) = t_parent (b_at b0 q);
  ci_last : forall j, top j -> ilevel j = LZ -> forall v, t_child (b_at b (pos j)) v = t_child (b_at b0 (pos j)) v;
  ci_child : forall j v, top j -> ilevel j < LZ -> 0 <= v < 8 ->
     t_child (b_at b (pos j)) v = if (ilevel j + 1 =? LZ) && dead_upto k (child v j) then None else Some (pos (child v j)) }.

Lemma prune_cell_ok : forall b0 k b, (forall j, top j -> 1 <= ilevel j -> t_parent (b_at b0 (pos j)) = Some (pos (parent 1 j))) ->
  0 <= k < 8 ^ LZ -> cinv b0 k b -> exists b', prune_cell (tops L) counts b k = Ok b' /\ cinv b0 (k + 1) b'.
Proof.
  intros b0 k b HP Hk [C1 C2 C3 CL C4]. unfold prune_cell.
  assert (Hslot : forall c, dead_upto (k + 1) c = dead_upto k c || ((slot_of c LZ =? k) && (counts k =? 0))).
  { intros c. unfold dead_upto. destruct (Z.eqb_spec (slot_of c LZ) k) as [E|E].
    - rewrite E, Z.ltb_irrefl. replace (k <? k + 1) with true by (symmetry; apply Z.ltb_lt; lia). reflexivity.
    - rewrite orb_false_r. f_equal. destruct (Z.ltb_spec (slot_of c LZ) (k + 1)), (Z.ltb_spec (slot_of c LZ) k); try lia; reflexivity. }
  destruct (counts k =? 0) eqn:Ek.
  - destruct (slot_surj k LZ ltac:(lia) Hk) as (c & Gc & Lc & Sc). assert (Tc : top c) by (split; [assumption|lia]).
    assert (Pc : pos c = tops L + k). { unfold GridProofs.pos. rewrite Lc, Z.ltb_irrefl, Sc. reflexivity. }
    rewrite <- Pc. rewrite load_ok by (rewrite C1; apply pos_range; assumption). cbn [bind]. rewrite C3, HP by (try assumption; lia).
    destruct (top_parent L HL c Tc ltac:(lia)) as [Tp Lp]. rewrite load_ok by (rewrite C1; apply pos_range; assumption). cbn [bind].
    destruct (octant_of_parent c Gc ltac:(lia)) as [_ W]. pose proof (child_of_parent c Gc ltac:(lia)) as Cc.
    assert (Fd : find (fun w => match t_child (b_at b (pos (parent 1 c))) w with Some q => q =? pos c | None => false end) (zseq 0 8) = Some (which_child c)).
    { assert (Hv : forall v, 0 <= v < 8 -> match t_child (b_at b (pos (parent 1 c))) v with Some q => q =? pos c | None => false end = (v =? which_child c)).
      { intros v Hv. rewrite C4 by (try assumption; lia). replace (ilevel (parent 1 c) + 1 =? LZ) with true by (symmetry; apply Z.eqb_eq; lia). cbn [andb].
        destruct (Z.eqb_spec v (which_child c)) as [->|Nv].
        - rewrite Cc. unfold dead_upto. rewrite Sc, Z.ltb_irrefl. cbn [andb]. apply Z.eqb_refl.
        - destruct (dead_upto k (child v (parent 1 c))); [reflexivity|]. apply Z.eqb_neq. intros X. apply pos_inj in X; try assumption; [|apply top_child; [assumption|lia|assumption]].
          destruct (child_facts v (parent 1 c) Hv (proj1 Tp)) as (_ & _ & _ & Wv). rewrite X in Wv. congruence. }
      remember (which_child c) as w eqn:Ew. clear -Hv W. cbn [zseq map seq find].
      change (zseq 0 8) with [0; 1; 2; 3; 4; 5; 6; 7]. cbn [find]. rewrite !Hv by lia.
      assert (w = 0 \/ w = 1 \/ w = 2 \/ w = 3 \/ w = 4 \/ w = 5 \/ w = 6 \/ w = 7) as X by lia.
      repeat (destruct X as [->|X]; [reflexivity|]). subst. reflexivity. }
    unfold remove_child. rewrite Fd. cbn [bind]. rewrite store_ok by (rewrite C1; apply pos_range; assumption). eexists. split; [reflexivity|].
    assert (Npp : forall j, top j -> pos j = pos (parent 1 c) -> j = parent 1 c) by (intros j Tj E; apply (pos_inj L HL); assumption).
    split; cbn [b_size b_at].
    + assumption.
    + intros q. destruct (Z.eqb_spec q (pos (parent 1 c))) as [->|]; [cbn|]; apply C2.
    + intros q. destruct (Z.eqb_spec q (pos (parent 1 c))) as [->|]; [cbn|]; apply C3.
    + intros j Tj Hj v. destruct (Z.eqb_spec (pos j) (pos (parent 1 c))) as [E|E]; [apply Npp in E; [|assumption]; subst j; lia|]. apply CL; assumption.
    + intros j v Tj Hj Hv. rewrite Hslot. destruct (Z.eqb_spec (pos j) (pos (parent 1 c))) as [E|E].
      * apply Npp in E; [|assumption]. subst j. cbn [clear_child t_child]. replace (ilevel (parent 1 c) + 1 =? LZ) with true by (symmetry; apply Z.eqb_eq; lia). cbn [andb]. rewrite andb_true_r.
        destruct (Z.eqb_spec v (which_child c)) as [->|Nv].
        -- rewrite Cc, Sc, Z.eqb_refl, orb_true_r. reflexivity.
        -- rewrite C4 by (try assumption; lia). replace (ilevel (parent 1 c) + 1 =? LZ) with true by (symmetry; apply Z.eqb_eq; lia). cbn [andb].
           replace (slot_of (child v (parent 1 c)) LZ =? k) with false; [rewrite orb_false_r; reflexivity|]. symmetry. apply Z.eqb_neq. intros X.
           destruct (child_facts v (parent 1 c) Hv (proj1 Tp)) as (Gv & Lv & _ & Wv). apply Nv. rewrite <- Wv. f_equal. apply (slot_inj _ _ LZ); try assumption; lia.
      * rewrite C4 by assumption. destruct (ilevel j + 1 =? LZ) eqn:El; [|reflexivity]. apply Z.eqb_eq in El. cbn [andb]. rewrite andb_true_r.
        replace (slot_of (child v j) LZ =? k) with false; [rewrite orb_false_r; reflexivity|]. symmetry. apply Z.eqb_neq. intros X.
        destruct (child_facts v j Hv (proj1 Tj)) as (Gv & Lv & Pv & _). assert (child v j = c) by (apply (slot_inj _ _ LZ); try assumption; lia). subst c. apply E. rewrite Pv. reflexivity.
  - exists b. split; [reflexivity|]. split; try assumption. intros j v Tj Hj Hv. rewrite Hslot, andb_false_r, orb_false_r. apply C4; assumption.
Qed.

Lemma prune_cells_ok : forall b0 b, (forall j, top j -> 1 <= ilevel j -> t_parent (b_at b0 (pos j)) = Some (pos (parent 1 j))) -> cinv b0 0 b ->
  exists b', foldM (prune_cell (tops L) counts) (zseq 0 (Z.to_nat (8 ^ LZ))) b = Ok b' /\ cinv b0 (8 ^ LZ) b'.
Proof.
  intros b0 b HP HC. unfold zseq.
  assert (X : forall n k b, Z.of_nat n + Z.of_nat k = 8 ^ LZ -> cinv b0 (Z.of_nat k) b -> exists b', foldM (prune_cell (tops L) counts) (map (fun k => 0 + Z.of_nat k) (seq k n)) b = Ok b' /\ cinv b0 (8 ^ LZ) b').
  { induction n as [|n IH]; intros k bb Hk HC'; cbn [seq map foldM].
    - exists bb. split; [reflexivity|]. replace (8 ^ LZ) with (Z.of_nat k) by lia. assumption.
    - destruct (prune_cell_ok b0 (Z.of_nat k) bb HP ltac:(lia) HC') as (b2 & E2 & C2). rewrite Z.add_0_l, E2. cbn [bind]. apply IH; [lia|]. replace (Z.of_nat (S k)) with (Z.of_nat k + 1) by lia. assumption. }
  apply (X (Z.to_nat (8 ^ LZ)) 0%nat); [|assumption]. assert (0 <= 8 ^ LZ) by (apply Z.pow_nonneg; lia). lia.
Qed.

Lemma prune_ok : forall b, b_size b = total L ->
  (forall j v, top j -> ilevel j < LZ -> 0 <= v < 8 -> t_child (b_at b (pos j)) v = Some (pos (child v j))) ->
  (forall j, top j -> 1 <= ilevel j -> t_parent (b_at b (pos j)) = Some (pos (parent 1 j))) ->
  exists b', prune nparts (tops L) counts (8 ^ LZ) L b = Ok b' /\ b_size b' = total L /\ (forall q, t_idx (b_at b' q) = t_idx (b_at b q)) /\
    (forall j v, top j -> ilevel j < LZ -> 0 <= v < 8 -> t_child (b_at b' (pos j)) v = fin j v) /\
    (forall j v, top j -> ilevel j = LZ -> t_child (b_at b' (pos j)) v = t_child (b_at b (pos j)) v) /\
    (forall j, top j -> t_parent (b_at b' (pos j)) = if dead j && below (mkIndex 0 0 0 0) j then None else t_parent (b_at b (pos j))).
Proof.
  intros b Hs HC HP. unfold prune.
  assert (T0 : top (mkIndex 0 0 0 0)) by exact (top_root L HL).
  assert (C0 : cinv b 0 b).
  { split; try assumption; try reflexivity. intros j v Tj Hj Hv. rewrite HC by assumption. destruct (ilevel j + 1 =? LZ) eqn:E; [|reflexivity]. unfold dead_upto.
    destruct (child_facts v j Hv (proj1 Tj)) as (Gv & Lv & _). apply Z.eqb_eq in E. pose proof (slot_bounds (child v j) LZ ltac:(lia) ltac:(lia) Gv). replace (slot_of (child v j) LZ <? 0) with false by (symmetry; apply Z.ltb_ge; lia). reflexivity. }
  destruct (prune_cells_ok b b HP C0) as (b1 & E1 & [C1 C2 C3 CL C4]). rewrite E1. cbn [bind].
  destruct (remove_links_ok (L - 1) L b1 (mkIndex 0 0 0 0) T0) as (b2 & E2 & P2 & (S2 & I2 & F2) & Q2).
  - cbn [ilevel]. lia.
  - lia.
  - assumption.
  - intros j v Uj Hj Hv. rewrite C4 by (try assumption; apply Uj). unfold init, fin. destruct (ilevel j + 1 =? LZ) eqn:E; [|reflexivity]. cbn [andb]. apply Z.eqb_eq in E.
    destruct (child_facts v j Hv (proj1 (proj1 Uj))) as (Gv & Lv & _). rewrite live_last by lia. unfold dead_upto. pose proof (slot_bounds (child v j) LZ ltac:(lia) ltac:(lia) Gv) as Sb. rewrite <- pow8 in Sb by lia.
    replace (slot_of (child v j) LZ <? 8 ^ LZ) with true by (symmetry; apply Z.ltb_lt; lia). cbn [andb]. destruct (counts (slot_of (child v j) LZ) =? 0); reflexivity.
  - rewrite (pos_root L HL) in E2. cbn [ilevel] in E2. rewrite E2. cbn [bind fst]. exists b2. split; [reflexivity|]. split; [congruence|]. split; [intros q; rewrite I2; apply C2|]. split.
    + intros j v Tj Hj Hv. apply P2; try assumption. split; [assumption|]. assert (0 <= ilevel j) by apply Tj. cbn [ilevel]. split; [lia|]. rewrite Z.sub_0_r. apply (level0_root L HL).
      * split; [apply parent_in_grid; [lia|apply Tj]|]. rewrite level_of_parent; destruct Tj; lia.
      * rewrite level_of_parent; lia.
    + split; [intros j v Tj Hj; destruct (F2 j Tj) as [[_ X]|X]; [lia|]; rewrite X; apply CL; assumption|]. intros j Tj. rewrite (Q2 j Tj), C3. reflexivity.
Qed.

(** Liveness in terms of cells. *)
Lemma live_spec : forall d i, top i -> Z.of_nat d = LZ - ilevel i ->
  (live i = true <-> exists j, in_grid j /\ ilevel j = LZ /\ parent (LZ - ilevel i) j = i /\ counts (slot_of j LZ) <> 0).
Proof.
  induction d as [|d IH]; intros i T Hd.
  - assert (E : ilevel i = LZ) by lia. rewrite live_last by assumption. rewrite E, Z.sub_diag. split.
    + intros H. exists i. split; [apply T|]. split; [assumption|]. split; [apply parent_0; lia|]. apply negb_true_iff in H. apply Z.eqb_neq. assumption.
    + intros (j & G & Lj & P & C). rewrite parent_0 in P by lia. subst j. apply negb_true_iff. apply Z.eqb_neq. assumption.
  - assert (0 <= ilevel i) by apply T. rewrite live_step by (try assumption; lia). rewrite existsb_exists. split.
    + intros (w & Hw & H1). apply in_zseq8 in Hw. destruct (child_facts w i Hw (proj1 T)) as (Gc & Lc & Pc & _). apply IH in H1; [|apply top_child; [assumption|lia|assumption]|lia].
      destruct H1 as (j & G & Lj & P & C). exists j. split; [assumption|]. split; [assumption|]. split; [|assumption]. replace (LZ - ilevel i) with (1 + (LZ - ilevel (child w i))) by lia. rewrite <- parent_parent by lia. rewrite P. assumption.
    + intros (j & G & Lj & P & C). assert (U : under i j) by (split; [split; [assumption|lia]|]; split; [lia|]; rewrite Lj; assumption).
      destruct (under_split i j T U) as [->|(_ & w & Hw & (_ & _ & U2))]; [lia|]. exists w. split; [apply in_zseq8; assumption|]. destruct (child_facts w i Hw (proj1 T)) as (Gc & Lc & Pc & _).
      apply IH; [apply top_child; [assumption|lia|assumption]|lia|]. exists j. split; [assumption|]. split; [assumption|]. split; [|assumption]. rewrite Lj in U2. assumption.
Qed.

Lemma live_parent : forall i, top i -> 1 <= ilevel i -> live i = true -> live (parent 1 i) = true.
Proof.
  intros i T H1 Hl. destruct (top_parent L HL i T H1) as [Tp Lp]. rewrite live_step by (try assumption; destruct T; lia). apply existsb_exists. exists (which_child i).
  destruct (octant_of_parent i (proj1 T) H1) as [_ W]. split; [apply in_zseq8; assumption|]. rewrite (child_of_parent i (proj1 T) H1). assumption.
Qed.

Lemma walk_pruned : forall b, b_size b = total L -> (forall j v, top j -> ilevel j < LZ -> 0 <= v < 8 -> t_child (b_at b (pos j)) v = fin j v) ->
  forall i, top i -> walk b 0 (path_to i) = if (ilevel i =? 0) || live i then Ok (pos i) else Fail NullDeref.
Proof.
  intros b Hs HF. assert (G : forall n i, top i -> ilevel i = Z.of_nat n -> walk b 0 (path_to i) = if (ilevel i =? 0) || live i then Ok (pos i) else Fail NullDeref).
  { induction n as [|n IH]; intros i Ti El.
    - rewrite (level0_root L HL i Ti El). rewrite (pos_root L HL). reflexivity.
    - assert (H1 : 1 <= ilevel i) by lia. destruct (top_parent L HL i Ti H1) as [Tp Lp]. destruct (octant_of_parent i (proj1 Ti) H1) as [_ W].
      rewrite path_to_step by (auto; apply Ti). replace (ilevel i =? 0) with false by (symmetry; apply Z.eqb_neq; lia). cbn [orb].
      pose proof (IH (parent 1 i) Tp ltac:(lia)) as IHp.
      destruct ((ilevel (parent 1 i) =? 0) || live (parent 1 i)) eqn:Lv.
      + rewrite (walk_app b _ _ _ _ IHp). cbn [walk]. rewrite load_ok by (rewrite Hs; apply pos_range; assumption). cbn [bind].
        rewrite HF by (try assumption; destruct Ti; lia). unfold fin. rewrite (child_of_parent i (proj1 Ti) H1). destruct (live i); reflexivity.
      + apply orb_false_iff in Lv. destruct Lv as [_ Lv]. replace (live i) with false.
        2: { destruct (live i) eqn:X; [|reflexivity]. rewrite (live_parent i Ti H1 X) in Lv. discriminate. }
        assert (WF : forall path1 path2 p e, walk b p path1 = Fail e -> walk b p (path1 ++ path2) = Fail e).
        { induction path1 as [|v path1 IHw]; intros path2 p e H; [discriminate|]. cbn [walk app] in *. destruct (b_load b p) as [nn|]; [|assumption]. cbn [bind] in *. destruct (t_child nn v); [apply IHw; assumption|assumption]. }
        apply WF. assumption. }
  intros i Ti. apply (G (Z.to_nat (ilevel i))); [assumption|]. destruct Ti as [[? _] _]. lia.
Qed.
End Prune.
