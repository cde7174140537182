(** C73: the trees that the ranks build together are the trees of all the records. *)
From Coq Require Import ZArith QArith List Bool Arith Lia Permutation.
From Verif Require Import Base ListFacts IndexModel IndexSpec IndexProofs GridModel GridSpec GridProofs ArrayModel TreeModel RefineModel RefineSpec GeomModel GeomSpec GroupModel ReduceModel ReduceSpec
  MessageModel MessageSpec MessageProps ExchangeModel ExchangeSpec MergeModel MergeSpec BuildModel BuildSpec BuildProofs BuildProps PruneModel PruneProps DagModel WholeModel WholeSpec WholeGrow WholeProofs WholeDone.
Import ListNotations.
Open Scope nat_scope.

(** The source tree, over the branches of all the ranks: each box of the first [L] levels with
    records and, below, each with records whose parent has more than the threshold; each has
    exactly the records of all the ranks in it.  Whoever owns which cell, and in whatever order
    counts and records arrive. *)
Theorem C73_sources : forall A B pos_s pos_t d L same (zs : serializer A) (zt : serializer B) (users : list (list A * list B)) locals unif rank_map junk rw sm tm part thr fuel ranks,
  let srcs := concat (map fst users) in let tgts := concat (map snd users) in
  (0 < dsize d)%Q -> (1 <= L <= 9)%Z -> placed pos_s d srcs -> placed pos_t d tgts -> Forall (codec_ok zs) srcs -> (same = false -> Forall (codec_ok zt) tgts) ->
  partition_contract part -> (forall i, i < Z.to_nat (8 ^ L) -> rank_map i < length users) -> counted pos_s pos_t d L same users locals unif ->
  sources_built L same zs zt junk rw sm tm (fun a i x => below_centre d a i (pos_s x)) part thr fuel rank_map locals unif ranks -> srcs <> [] ->
  tree_of pos_s d (Z.to_nat L) thr srcs (whole L rank_map ranks).
Proof.
  intros A B pos_s pos_t d L same zs zt users locals unif rank_map junk rw sm tm part thr fuel ranks srcs tgts Hd HL [Is Ns] [It Nt] Zs Zt Hp Hm (El & t & Ht & Eu) [Lr Hr] Ne.
  destruct (locals_ok A B pos_s pos_t d Hd L ltac:(lia) same users Is It) as (locals' & E & F1 & F2). rewrite El in E. injection E as <-.
  destruct (unif_ok A B pos_s pos_t d L ltac:(lia) same users Ns Nt locals F1 F2 t Ht) as (unif' & E & Us & Ut). rewrite Eu in E. injection E as <-.
  apply grown_tree_of; [exact Hd|exact Is|]. refine (proj1 (whole_grown pos_s d Hd L ltac:(lia) rank_map (map fst users) (map fst locals) Is Ns F1 (count_src unif) Us part Hp thr fuel (grid_index L) (fun i G E => grid_index_ok L i HL G E) ranks _ _ _ Ne)).
  - rewrite map_length. exact Lr.
  - intros i Hi. rewrite map_length. apply Hm. exact Hi.
  - intros me r Er. destruct (Hr me r Er) as (l & log & Eln & Ea & R). destruct (arrivals_ok A B pos_s pos_t d L ltac:(lia) same users Is It Ns Nt locals F1 F2 zs zt Zs Zt rank_map junk rw sm tm me) as (log' & E & T1 & _). rewrite Ea in E. injection E as <-.
    exists (fst l). split; [exact (map_nth_error fst _ _ Eln)|]. rewrite <- T1. exact R.
Qed.
Print Assumptions C73_sources.

(** The same of the target tree, unless S == T. *)
Theorem C73_targets : forall A B pos_s pos_t d L (zs : serializer A) (zt : serializer B) (users : list (list A * list B)) locals unif rank_map junk rw sm tm part thr fuel ranks,
  let srcs := concat (map fst users) in let tgts := concat (map snd users) in
  (0 < dsize d)%Q -> (1 <= L <= 9)%Z -> placed pos_s d srcs -> placed pos_t d tgts -> Forall (codec_ok zs) srcs -> Forall (codec_ok zt) tgts ->
  partition_contract part -> (forall i, i < Z.to_nat (8 ^ L) -> rank_map i < length users) -> counted pos_s pos_t d L false users locals unif ->
  targets_built L false zs zt junk rw sm tm (fun a i x => below_centre d a i (pos_t x)) part thr fuel rank_map locals unif ranks -> tgts <> [] ->
  tree_of pos_t d (Z.to_nat L) thr tgts (whole L rank_map ranks).
Proof.
  intros A B pos_s pos_t d L zs zt users locals unif rank_map junk rw sm tm part thr fuel ranks srcs tgts Hd HL [Is Ns] [It Nt] Zs Zt Hp Hm (El & t & Ht & Eu) [Lr Hr] Ne.
  destruct (locals_ok A B pos_s pos_t d Hd L ltac:(lia) false users Is It) as (locals' & E & F1 & F2). rewrite El in E. injection E as <-.
  destruct (unif_ok A B pos_s pos_t d L ltac:(lia) false users Ns Nt locals F1 F2 t Ht) as (unif' & E & Us & Ut). rewrite Eu in E. injection E as <-.
  apply grown_tree_of; [exact Hd|exact It|]. refine (proj1 (whole_grown pos_t d Hd L ltac:(lia) rank_map (map snd users) (map snd locals) It Nt F2 (count_tar L unif) Ut part Hp thr fuel (grid_index L) (fun i G E => grid_index_ok L i HL G E) ranks _ _ _ Ne)).
  - rewrite map_length. exact Lr.
  - intros i Hi. rewrite map_length. apply Hm. exact Hi.
  - intros me r Er. destruct (Hr me r Er) as (l & log & Eln & Ea & R). destruct (arrivals_ok A B pos_s pos_t d L ltac:(lia) false users Is It Ns Nt locals F1 F2 zs zt Zs (fun _ => Zt) rank_map junk rw sm tm me) as (log' & E & _ & T2 & _). rewrite Ea in E. injection E as <-.
    exists (snd l). split; [exact (map_nth_error snd _ _ Eln)|]. rewrite <- T2. exact R.
Qed.
Print Assumptions C73_targets.

(** With S == T the target tree, made over the sources' arrays by searching the split points,
    has the source tree's arrays and branches. *)
Theorem C73_same : forall A B pos_s pos_t d L (zs : serializer A) (zt : serializer B) (users : list (list A * list B)) locals unif rank_map junk rw sm tm part pp thr fuel sources targets,
  let srcs := concat (map fst users) in let tgts := concat (map snd users) in let low := fun a i x => below_centre d a i (pos_s x) in
  (0 < dsize d)%Q -> (1 <= L <= 9)%Z -> placed pos_s d srcs -> placed pos_t d tgts -> Forall (codec_ok zs) srcs ->
  (forall u, In u users -> map pos_t (snd u) = map pos_s (fst u)) ->
  partition_contract part -> partition_point_contract pp -> (forall i, i < Z.to_nat (8 ^ L) -> rank_map i < length users) -> counted pos_s pos_t d L true users locals unif ->
  sources_built L true zs zt junk rw sm tm low part thr fuel rank_map locals unif sources ->
  targets_built_same L low pp thr fuel rank_map unif sources targets -> targets = sources.
Proof.
  intros A B pos_s pos_t d L zs zt users locals unif rank_map junk rw sm tm part pp thr fuel sources targets srcs tgts low Hd HL [Is Ns] [It Nt] Zs Hu Hp Hq Hm (El & t & Ht & Eu) [Lr Hr] [Lt Hs].
  destruct (locals_ok A B pos_s pos_t d Hd L ltac:(lia) true users Is It) as (locals' & E & F1 & F2). rewrite El in E. injection E as <-.
  destruct (unif_ok A B pos_s pos_t d L ltac:(lia) true users Ns Nt locals F1 F2 t Ht) as (unif' & E & Us & Ut). rewrite Eu in E. injection E as <-.
  assert (St : forall i, length (of_cell (cell_at pos_t d L) i tgts) = length (of_cell (cell_at pos_s d L) i srcs)).
  { intros i. unfold tgts, srcs. clear -Hu. induction users as [|u us IH]; [reflexivity|]. cbn [map concat]. rewrite !of_cell_app, !app_length, IH by (intros v Hv; apply Hu; right; assumption).
    rewrite (same_counts A B pos_s pos_t d L (u :: us) Hu u i (or_introl eq_refl)). reflexivity. }
  assert (Gc : forall i, i < Z.to_nat (8 ^ L) -> count_tar L unif i = count_src unif i) by (intros i Hi; rewrite Ut, Us by exact Hi; apply St).
  apply nth_error_ext. intros me. destruct (nth_error targets me) as [r|] eqn:Er.
  - destruct (nth_error sources me) as [s|] eqn:Es; [|apply nth_error_None in Es; assert (me < length targets) by (apply nth_error_Some; congruence); lia]. f_equal.
    pose proof (Hs me r s Er Es) as R. destruct (Hr me s Es) as (l & log & Eln & Ea & evs & fresh & mem & Pe & Lf & Sg & Bs).
    destruct (arrivals_ok A B pos_s pos_t d L ltac:(lia) true users Is It Ns Nt locals F1 F2 zs zt Zs ltac:(discriminate) rank_map junk rw sm tm me) as (log' & E & T1 & _). rewrite Ea in E. injection E as <-.
    rewrite T1 in Pe. destruct (segment_ok (cell_at pos_s d L) (Z.to_nat (8 ^ L)) rank_map (map fst users) (map fst locals) F1 Ns (count_src unif) Us me (fst l) fresh evs (map_nth_error fst _ _ Eln) Lf Pe) as (mem1 & E1 & L1 & _). rewrite Sg in E1. injection E1 as <-.
    destruct s as [mem' bs]. pose proof (branches_point low part Hp thr fuel (grid_index L) (Z.to_nat (8 ^ L)) rank_map me (count_src unif) pp mem mem' bs Hq L1 Bs) as Q. cbn [fst] in R.
    rewrite (branches_ext low (part_of_point pp) thr fuel (grid_index L) (Z.to_nat (8 ^ L)) rank_map me (count_tar L unif) (count_src unif) mem' Gc) in R. rewrite Q in R. injection R as <-. reflexivity.
  - symmetry. apply nth_error_None. apply nth_error_None in Er. lia.
Qed.
Print Assumptions C73_same.

(** If no more records than the threshold share a place, then from some depth on every rank's
    build ends, in whatever order the batches arrive. *)
Theorem C73_builds : forall A B pos_s pos_t d L same (zs : serializer A) (zt : serializer B) (users : list (list A * list B)) locals unif rank_map junk rw sm tm part_s part_t thr,
  let srcs := concat (map fst users) in let tgts := concat (map snd users) in let dim3 := Z.to_nat (8 ^ L) in
  (0 < dsize d)%Q -> (1 <= L <= 9)%Z -> placed pos_s d srcs -> placed pos_t d tgts -> Forall (codec_ok zs) srcs -> (same = false -> Forall (codec_ok zt) tgts) ->
  partition_contract part_s -> partition_contract part_t -> counted pos_s pos_t d L same users locals unif ->
  (forall x, In x srcs -> length (filter (same_place pos_s x) srcs) <= thr) -> (forall x, In x tgts -> length (filter (same_place pos_t x) tgts) <= thr) ->
  exists depth, forall fuel me l log, depth <= fuel -> nth_error locals me = Some l -> arrivals A B L same zs zt junk rw sm tm rank_map locals me = Ok log ->
    (forall evs fresh, Permutation evs (to_sources log) -> length fresh = num_points dim3 rank_map me (count_src unif) ->
       exists mem r, segment dim3 rank_map me (count_src unif) (fst l) fresh evs = Ok mem /\
         partition_branches (fun a i x => below_centre d a i (pos_s x)) part_s thr fuel (grid_index L) dim3 rank_map me (count_src unif) mem = Ok r) /\
    (same = false -> forall evs fresh, Permutation evs (to_targets log) -> length fresh = num_points dim3 rank_map me (count_tar L unif) ->
       exists mem r, segment dim3 rank_map me (count_tar L unif) (snd l) fresh evs = Ok mem /\
         partition_branches (fun a i x => below_centre d a i (pos_t x)) part_t thr fuel (grid_index L) dim3 rank_map me (count_tar L unif) mem = Ok r).
Proof.
  intros A B pos_s pos_t d L same zs zt users locals unif rank_map junk rw sm tm part_s part_t thr srcs tgts dim3 Hd HL [Is Ns] [It Nt] Zs Zt Ps Pt (El & t & Ht & Eu) Ts Tt.
  destruct (locals_ok A B pos_s pos_t d Hd L ltac:(lia) same users Is It) as (locals' & E & F1 & F2). rewrite El in E. injection E as <-.
  destruct (unif_ok A B pos_s pos_t d L ltac:(lia) same users Ns Nt locals F1 F2 t Ht) as (unif' & E & Us & Ut). rewrite Eu in E. injection E as <-.
  destruct (rank_end pos_s d Hd L HL rank_map (map fst users) (map fst locals) Is Ns F1 (count_src unif) Us part_s Ps thr Ts) as (D1 & H1).
  assert (H2 : exists D2, same = false -> forall fuel me loc fresh evs, D2 <= fuel -> nth_error (map snd locals) me = Some loc -> length fresh = num_points dim3 rank_map me (count_tar L unif) -> Permutation evs (shipped dim3 rank_map (map snd locals) me) ->
    exists mem r, segment dim3 rank_map me (count_tar L unif) loc fresh evs = Ok mem /\ partition_branches (lows pos_t d) part_t thr fuel (grid_index L) dim3 rank_map me (count_tar L unif) mem = Ok r).
  { destruct same; [exists 0; discriminate|]. destruct (rank_end pos_t d Hd L HL rank_map (map snd users) (map snd locals) It Nt F2 (count_tar L unif) Ut part_t Pt thr Tt) as (D2 & H2). exists D2. intros _. exact H2. }
  destruct H2 as (D2 & H2). exists (Nat.max D1 D2). intros fuel me l log HF Eln Ea.
  destruct (arrivals_ok A B pos_s pos_t d L ltac:(lia) same users Is It Ns Nt locals F1 F2 zs zt Zs Zt rank_map junk rw sm tm me) as (log' & E & T1 & T2 & _). rewrite Ea in E. injection E as <-. split.
  - intros evs fresh Pe Lf. rewrite T1 in Pe. apply (H1 fuel me (fst l) fresh evs); [lia|exact (map_nth_error fst _ _ Eln)|exact Lf|exact Pe].
  - intros Sm evs fresh Pe Lf. rewrite T2, Sm in Pe. apply (H2 Sm fuel me (snd l) fresh evs); [lia|exact (map_nth_error snd _ _ Eln)|exact Lf|exact Pe].
Qed.
Print Assumptions C73_builds.

(** What pruning by the counts leaves of the top of the source tree is the top of this tree. *)
Theorem C73_top : forall A B pos_s pos_t d L same (zs : serializer A) (zt : serializer B) (users : list (list A * list B)) locals unif rank_map junk rw sm tm part thr fuel ranks b0 ubase b nparts,
  let srcs := concat (map fst users) in let tgts := concat (map snd users) in
  (0 < dsize d)%Q -> (1 <= L <= 9)%Z -> placed pos_s d srcs -> placed pos_t d tgts -> Forall (codec_ok zs) srcs -> (same = false -> Forall (codec_ok zt) tgts) ->
  partition_contract part -> (forall i, i < Z.to_nat (8 ^ L) -> rank_map i < length users) -> counted pos_s pos_t d L same users locals unif ->
  sources_built L same zs zt junk rw sm tm (fun a i x => below_centre d a i (pos_s x)) part thr fuel rank_map locals unif ranks -> srcs <> [] ->
  setup_basics (Z.to_nat L) = Ok (b0, ubase) -> b_size b = b_size b0 -> (forall p, 0 <= p < ubase -> b_at b p = b_at b0 p)%Z ->
  (forall p, ubase <= p -> t_idx (b_at b p) = t_idx (b_at b0 p) /\ t_parent (b_at b p) = t_parent (b_at b0 p))%Z -> (forall p, 0 <= p < ubase -> nparts p = 0)%Z ->
  exists b', prune nparts ubase (fun k => Z.of_nat (count_src unif (Z.to_nat k))) (8 ^ L) (Z.to_nat L) b = Ok b' /\
    forall p, 1 <= length p <= Z.to_nat L -> Forall (fun w => w < 8) p ->
      ((exists a, walk b' 0 (map Z.of_nat p) = Ok a) <-> exists n, sub (whole L rank_map ranks) p = Some n).
Proof.
  intros A B pos_s pos_t d L same zs zt users locals unif rank_map junk rw sm tm part thr fuel ranks b0 ubase b nparts srcs tgts Hd HL Ps Pt Zs Zt Hp Hm Hc Hb Ne Eb Hs H1 H2 H3.
  pose proof (C73_sources A B pos_s pos_t d L same zs zt users locals unif rank_map junk rw sm tm part thr fuel ranks Hd HL Ps Pt Zs Zt Hp Hm Hc Hb Ne) as [_ Tr].
  destruct Ps as [Is Ns], Pt as [It Nt], Hc as (El & t & Ht & Eu).
  destruct (locals_ok A B pos_s pos_t d Hd L ltac:(lia) same users Is It) as (locals' & E & F1 & F2). rewrite El in E. injection E as <-.
  destruct (unif_ok A B pos_s pos_t d L ltac:(lia) same users Ns Nt locals F1 F2 t Ht) as (unif' & E & Us & _). rewrite Eu in E. injection E as <-.
  destruct (C20_pruning (Z.to_nat L) (fun k => Z.of_nat (count_src unif (Z.to_nat k))) nparts b0 ubase b ltac:(lia) Eb Hs H1 H2 H3 ltac:(intros; apply Nat2Z.is_nonneg)) as (b' & Ep & W & _).
  rewrite Z2Nat.id in Ep, W by lia. exists b'. split; [exact Ep|]. intros p Lp F. destruct (WholeProofs.idx_grid p F) as [G Lv]. rewrite <- (path_of_idx p F). rewrite (W (idx_of p) G ltac:(lia)).
  rewrite (top_live pos_s d Hd srcs Is L p (fun k => Z.of_nat (count_src unif (Z.to_nat k)))); [|lia|exact F|lia|].
  - rewrite Tr. split; [intros N; split; [exact F|split; [exact N|]]; intros q q' Eq Nq Lq; exfalso; apply Nq; apply length_zero_iff_nil; rewrite Eq, app_length in Lp; lia|intros (_ & N & _); exact N].
  - intros i Gi Li. f_equal. exact (count_box pos_s d Hd L HL rank_map (map fst users) Is (count_src unif) Us thr i Gi Li).
Qed.
Print Assumptions C73_top.

(** The two ranks of C47's example, one of whose cells is refined twice. *)
Definition ex_rank (me : nat) (evs : list (nat * list (Z * Z))) : list (Z * Z) * list (nat * tree rnode) :=
  match nth_error ex_locals me with
  | Some l =>
      match (do mem <- segment 8 ex_map me (count_src ex_unif) (fst l) (repeat (0, 0)%Z (num_points 8 ex_map me (count_src ex_unif))) evs;
             partition_branches (fun a i x => below_centre ex_dom a i (ex_pos x)) ex_part 2 6 (grid_index 1) 8 ex_map me (count_src ex_unif) mem) with
      | Ok r => r
      | Fail _ => ([], [])
      end
  | None => ([], [])
  end.
Definition ex_ranks := [ex_rank 0 [(2, [(3, 7)%Z]); (0, [(2, 2)%Z])]; ex_rank 1 [(3, [(7, 7)%Z]); (1, [(5, 1); (6, 3)]%Z)]].
Definition at_node (t : tree (list (Z * Z))) (p : list nat) := match sub t p with Some n => Some (info n) | None => None end.
Example C73_nonvacuous :
  (forall i, i < 8 -> ex_map i < length ex_users) /\
  sources_built 1 false two_bytes two_bytes (fun _ _ => 255%Z) 4096 1 2 (fun a i x => below_centre ex_dom a i (ex_pos x)) ex_part 2 6 ex_map ex_locals ex_unif ex_ranks /\
  let t := whole 1 ex_map ex_ranks in
  (at_node t [1], at_node t [1; 4], at_node t [1; 4; 3], at_node t [4], at_node t [0; 0]) =
  (Some [(4, 0); (5, 1); (5, 1); (6, 3)]%Z, Some [(4, 0); (5, 1); (5, 1)]%Z, Some [(5, 1); (5, 1)]%Z, None, None) /\
  forall x, In x (concat (map fst ex_users)) -> length (filter (same_place ex_pos x) (concat (map fst ex_users))) <= 2.
Proof.
  split; [intros i Hi; unfold ex_map; destruct (Nat.odd i); cbn; lia|]. split.
  - split; [reflexivity|]. intros [|[|me]] r Er; vm_compute in Er; [| |destruct me; discriminate Er]; injection Er as <-.
    + eexists _, _. split; [vm_compute; reflexivity|]. split; [vm_compute; reflexivity|]. exists [(2, [(3, 7)%Z]); (0, [(2, 2)%Z])], (repeat (0, 0)%Z 4). eexists. split; [apply perm_swap|]. split; [vm_compute; reflexivity|]. split; [vm_compute; reflexivity|vm_compute; reflexivity].
    + eexists _, _. split; [vm_compute; reflexivity|]. split; [vm_compute; reflexivity|]. exists [(3, [(7, 7)%Z]); (1, [(5, 1); (6, 3)]%Z)], (repeat (0, 0)%Z 6). eexists. split; [apply perm_swap|]. split; [vm_compute; reflexivity|]. split; [vm_compute; reflexivity|vm_compute; reflexivity].
  - split; [vm_compute; reflexivity|]. intros x Hx. cbn in Hx. repeat (destruct Hx as [<-|Hx]; [vm_compute; lia|]). contradiction.
Qed.
