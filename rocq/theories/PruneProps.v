(** C20: pruning keeps exactly the top nodes above non-empty cells. *)
From Coq Require Import ZArith List Bool Lia.
From Verif Require Import Base ListFacts IndexModel IndexSpec IndexProofs GridModel GridSpec GridProofs PruneModel PruneProofs.
Import ListNotations.
Local Open Scope Z_scope.

(** [b] is the top of the tree as built by [setup_basics]; the uniform cells may have
    grown branches of their own.  Top nodes above the uniform level own no points. *)
Theorem C20_pruning : forall L counts nparts b0 ubase b, (1 <= L <= 10)%nat ->
  setup_basics L = Ok (b0, ubase) -> b_size b = b_size b0 -> (forall p, 0 <= p < ubase -> b_at b p = b_at b0 p) ->
  (forall p, ubase <= p -> t_idx (b_at b p) = t_idx (b_at b0 p) /\ t_parent (b_at b p) = t_parent (b_at b0 p)) ->
  (forall p, 0 <= p < ubase -> nparts p = 0) -> (forall k, 0 <= k < 8 ^ Z.of_nat L -> 0 <= counts k) ->
  exists b', prune nparts ubase counts (8 ^ Z.of_nat L) L b = Ok b' /\
    (forall i, in_grid i -> 1 <= ilevel i <= Z.of_nat L ->
       ((exists p, walk b' 0 (path_to i) = Ok p) <->
        exists j, in_grid j /\ ilevel j = Z.of_nat L /\ parent (Z.of_nat L - ilevel i) j = i /\ 0 < counts (slot_of j (Z.of_nat L)))) /\
    (forall i p, in_grid i -> ilevel i <= Z.of_nat L -> walk b' 0 (path_to i) = Ok p -> walk b0 0 (path_to i) = Ok p /\ t_idx (b_at b' p) = i) /\
    (forall p w, ubase <= p < b_size b -> t_child (b_at b' p) w = t_child (b_at b p) w) /\
    t_idx (b_at b' 0) = mkIndex 0 0 0 0 /\ b_size b' = b_size b.
Proof.
  intros L counts nparts b0 ubase b HL Es Hs Hu Hl Hn Hc. destruct (setup_ok L HL) as (bx & Ex & I). rewrite Es in Ex. injection Ex as <- ->.
  assert (Sz : b_size b0 = total L) by apply I. rewrite Sz in Hs.
  assert (Ix : forall p, 0 <= p -> t_idx (b_at b p) = t_idx (b_at b0 p)) by (intros p Hp; destruct (Z_lt_le_dec p (tops L)); [rewrite Hu by lia; reflexivity|apply Hl; lia]).
  assert (Px : forall p, 0 <= p -> t_parent (b_at b p) = t_parent (b_at b0 p)) by (intros p Hp; destruct (Z_lt_le_dec p (tops L)); [rewrite Hu by lia; reflexivity|apply Hl; lia]).
  assert (Fl : forall i, top L i -> 1 <= ilevel i -> linked L (tops L * 8) (parent 1 i) (which_child i) = true).
  { intros i Ti H1. destruct (top_parent L HL i Ti H1) as [Tp Lp]. destruct (octant_of_parent i (proj1 Ti) H1) as [_ W]. apply final_linked; try assumption. destruct Ti; lia. }
  destruct (prune_ok L HL counts nparts Hn b Hs) as (b' & E' & S' & I' & C' & U' & _).
  - intros j v Tj Hj Hv. rewrite Hu by (split; [apply (pos_range L HL j Tj)|apply (pos_upper L HL j Tj); lia]). rewrite (inv_child L _ _ I j v Tj), (final_linked L HL) by assumption.
    replace (ilevel j <? Z.of_nat L) with true by (symmetry; apply Z.ltb_lt; lia). replace (0 <=? v) with true by (symmetry; apply Z.leb_le; lia). replace (v <? 8) with true by (symmetry; apply Z.ltb_lt; lia). reflexivity.
  - intros j Tj H1. rewrite Px by apply (pos_range L HL j Tj). apply (inv_done L _ _ I j Tj H1). apply Fl; assumption.
  - assert (Id : forall i, top L i -> t_idx (b_at b' (pos L i)) = i).
    { intros i Ti. rewrite I', Ix by apply (pos_range L HL i Ti). destruct (Z.eq_dec (ilevel i) 0) as [Z0|N0]; [rewrite (level0_root L HL i Ti Z0); apply I|].
      assert (1 <= ilevel i) by (destruct Ti as [[? _] _]; lia). apply (inv_done L _ _ I i Ti); [assumption|apply Fl; assumption]. }
    pose proof (walk_pruned L HL counts nparts Hn b' S' C') as W. exists b'. split; [assumption|]. split; [|split; [|split; [|split]]].
    + intros i G Hi. assert (Ti : top L i) by (split; [assumption|lia]). rewrite (W i Ti). replace (ilevel i =? 0) with false by (symmetry; apply Z.eqb_neq; lia). cbn [orb].
      pose proof (live_spec L HL counts nparts Hn (Z.to_nat (Z.of_nat L - ilevel i)) i Ti ltac:(lia)) as LS. split.
      * intros [p Hp]. destruct (live L counts i); [|discriminate]. destruct (proj1 LS eq_refl) as (j & A & B & C & D). exists j. split; [assumption|]. split; [assumption|]. split; [assumption|].
        pose proof (slot_bounds j (Z.of_nat L) ltac:(lia) B A) as Sb. rewrite <- pow8 in Sb by lia. specialize (Hc _ Sb). lia.
      * intros (j & A & B & C & D). rewrite (proj2 LS) by (exists j; repeat split; try apply A; try assumption; lia). eexists; reflexivity.
    + intros i p G Hi Hw. assert (Ti : top L i) by (split; assumption). rewrite (W i Ti) in Hw. destruct ((ilevel i =? 0) || live L counts i); [|discriminate]. injection Hw as <-. split; [apply (walk_final L HL b0 I i Ti)|apply Id; assumption].
    + intros p w Hp. rewrite Hs in Hp. destruct (pos_surj L HL p) as (i & Ti & Ep); [pose proof (tops_nonneg L); lia|]. rewrite <- Ep. apply U'; [assumption|].
      destruct (Z.eq_dec (ilevel i) (Z.of_nat L)); [assumption|]. assert (ilevel i < Z.of_nat L) by (destruct Ti; lia). pose proof (pos_upper L HL i Ti H). lia.
    + pose proof (Id _ (top_root L HL)) as X. rewrite (pos_root L HL) in X. exact X.
    + congruence.
Qed.
Print Assumptions C20_pruning.

(** The parent pointers: a node that stays points to its parent, which stays too; one above
    the cells that goes has none; those of the cells are as they were, also of the cells
    without points. *)
Theorem C20_parents : forall L counts nparts b0 ubase b, (1 <= L <= 10)%nat ->
  setup_basics L = Ok (b0, ubase) -> b_size b = b_size b0 -> (forall p, 0 <= p < ubase -> b_at b p = b_at b0 p) ->
  (forall p, ubase <= p -> t_idx (b_at b p) = t_idx (b_at b0 p) /\ t_parent (b_at b p) = t_parent (b_at b0 p)) ->
  (forall p, 0 <= p < ubase -> nparts p = 0) ->
  exists b', prune nparts ubase counts (8 ^ Z.of_nat L) L b = Ok b' /\
    (forall i p, in_grid i -> 1 <= ilevel i <= Z.of_nat L -> walk b' 0 (path_to i) = Ok p ->
       exists r, walk b' 0 (path_to (parent 1 i)) = Ok r /\ t_parent (b_at b' p) = Some r) /\
    (forall i p, in_grid i -> 1 <= ilevel i < Z.of_nat L -> walk b0 0 (path_to i) = Ok p -> ~ (exists q, walk b' 0 (path_to i) = Ok q) ->
       t_parent (b_at b' p) = None) /\
    (forall i p, in_grid i -> ilevel i = Z.of_nat L -> walk b0 0 (path_to i) = Ok p ->
       exists r, walk b0 0 (path_to (parent 1 i)) = Ok r /\ t_parent (b_at b' p) = Some r).
Proof.
  intros L counts nparts b0 ubase b HL Es Hs Hu Hl Hn. destruct (setup_ok L HL) as (bx & Ex & I). rewrite Es in Ex. injection Ex as <- ->.
  assert (Sz : b_size b0 = total L) by apply I. rewrite Sz in Hs.
  assert (Px : forall p, 0 <= p -> t_parent (b_at b p) = t_parent (b_at b0 p)) by (intros p Hp; destruct (Z_lt_le_dec p (tops L)); [rewrite Hu by lia; reflexivity|apply Hl; lia]).
  assert (Fl : forall i, top L i -> 1 <= ilevel i -> linked L (tops L * 8) (parent 1 i) (which_child i) = true).
  { intros i Ti H1. destruct (top_parent L HL i Ti H1) as [Tp Lp]. destruct (octant_of_parent i (proj1 Ti) H1) as [_ W]. apply final_linked; try assumption. destruct Ti; lia. }
  assert (Pb : forall j, top L j -> 1 <= ilevel j -> t_parent (b_at b (pos L j)) = Some (pos L (parent 1 j))).
  { intros j Tj H1. rewrite Px by apply (pos_range L HL j Tj). apply (inv_done L _ _ I j Tj H1). apply Fl; assumption. }
  destruct (prune_ok L HL counts nparts Hn b Hs) as (b' & E' & S' & I' & C' & U' & Q').
  - intros j v Tj Hj Hv. rewrite Hu by (split; [apply (pos_range L HL j Tj)|apply (pos_upper L HL j Tj); lia]). rewrite (inv_child L _ _ I j v Tj), (final_linked L HL) by assumption.
    replace (ilevel j <? Z.of_nat L) with true by (symmetry; apply Z.ltb_lt; lia). replace (0 <=? v) with true by (symmetry; apply Z.leb_le; lia). replace (v <? 8) with true by (symmetry; apply Z.ltb_lt; lia). reflexivity.
  - exact Pb.
  - pose proof (walk_pruned L HL counts nparts Hn b' S' C') as W. exists b'. split; [assumption|]. split; [|split].
    + intros i p G Hi Hw. assert (Ti : top L i) by (split; [assumption|lia]). rewrite (W i Ti) in Hw. replace (ilevel i =? 0) with false in Hw by (symmetry; apply Z.eqb_neq; lia). cbn [orb] in Hw.
      destruct (live L counts i) eqn:Lv; [|discriminate]. injection Hw as <-. destruct (top_parent L HL i Ti ltac:(lia)) as [Tp Lp]. exists (pos L (parent 1 i)). split.
      * rewrite (W _ Tp), (live_parent L HL counts nparts Hn i Ti ltac:(lia) Lv), orb_true_r. reflexivity.
      * rewrite (Q' i Ti). unfold dead. rewrite Lv, andb_false_r. apply Pb; [assumption|lia].
    + intros i p G Hi Hw No. assert (Ti : top L i) by (split; [assumption|lia]). rewrite (walk_final L HL b0 I i Ti) in Hw. injection Hw as <-. rewrite (W i Ti) in No. replace (ilevel i =? 0) with false in No by (symmetry; apply Z.eqb_neq; lia). cbn [orb] in No.
      destruct (live L counts i) eqn:Lv; [exfalso; apply No; eexists; reflexivity|]. rewrite (Q' i Ti). unfold dead. rewrite Lv. replace (ilevel i <? Z.of_nat L) with true by (symmetry; apply Z.ltb_lt; lia). cbn [negb andb].
      assert (T0 : top L (mkIndex 0 0 0 0)) by exact (top_root L HL). pose proof (ub_split L HL counts nparts Hn (mkIndex 0 0 0 0) i T0 Ti) as Sp. cbn [ilevel] in Sp. specialize (Sp ltac:(lia)).
      replace (index_eqb i (mkIndex 0 0 0 0)) with false in Sp by (symmetry; destruct (index_eqb i (mkIndex 0 0 0 0)) eqn:E; [apply index_eqb_eq in E; subst i; cbn in Hi; lia|reflexivity]). cbn [orb] in Sp. rewrite <- Sp.
      replace (ub (mkIndex 0 0 0 0) i) with true; [reflexivity|]. symmetry. unfold ub. cbn [ilevel]. rewrite Z.sub_0_r. apply andb_true_iff. split; [apply Z.leb_le; lia|]. apply index_eqb_eq. apply (level0_root L HL).
      * split; [apply parent_in_grid; [lia|assumption]|]. rewrite level_of_parent; lia.
      * rewrite level_of_parent; lia.
    + intros i p G Hi Hw. assert (Ti : top L i) by (split; [assumption|lia]). rewrite (walk_final L HL b0 I i Ti) in Hw. injection Hw as <-. destruct (top_parent L HL i Ti ltac:(lia)) as [Tp Lp]. exists (pos L (parent 1 i)). split; [apply (walk_final L HL b0 I _ Tp)|].
      rewrite (Q' i Ti). unfold dead. replace (ilevel i <? Z.of_nat L) with false by (symmetry; apply Z.ltb_ge; lia). cbn [andb]. apply Pb; [assumption|lia].
Qed.
Print Assumptions C20_parents.

(** Two cells of the level-2 grid hold points: their parents stay, a node over empty
    cells goes. *)
Definition ex_counts (k : Z) : Z := if (k =? 0) || (k =? 63) then 4 else 0.
Definition is_null (r : res Z) : bool := match r with Fail NullDeref => true | _ => false end.
Example C20_nonvacuous :
  (forall k, 0 <= k < 8 ^ Z.of_nat 2 -> 0 <= ex_counts k) /\
  match setup_basics 2 with
  | Ok (b0, u) =>
      match prune (fun _ => 0) u ex_counts 64 2 b0 with
      | Ok b' => (u, walk b' 0 (path_to (mkIndex 1 1 1 1)), is_null (walk b' 0 (path_to (mkIndex 1 0 0 1))), walk b0 0 (path_to (mkIndex 1 0 0 1)),
                  walk b' 0 (path_to (mkIndex 3 3 3 2)), is_null (walk b' 0 (path_to (mkIndex 2 3 3 2)))) = (9, Ok 8, true, Ok 2, Ok 72, true)
      | Fail _ => False
      end
  | Fail _ => False
  end.
Proof.
  split; [intros k _; unfold ex_counts; destruct ((k =? 0) || (k =? 63)); lia|]. vm_compute. reflexivity.
Qed.
(** The same counts: a node and a cell that stay, a node that goes, a cell that goes. *)
Example C20_parents_nonvacuous :
  match setup_basics 2 with
  | Ok (b0, u) =>
      match prune (fun _ => 0) u ex_counts 64 2 b0 with
      | Ok b' => map (fun p => t_parent (b_at b' p)) [8; 72; 2; 71] = [Some 0; Some 8; None; Some 8]
      | Fail _ => False
      end
  | Fail _ => False
  end.
Proof. vm_compute. reflexivity. Qed.
