(** C47: building the trees keeps every record and puts it where it belongs. *)
From Coq Require Import ZArith QArith List Bool Arith Lia Permutation.
From Verif Require Import Base IndexModel IndexSpec GridSpec ArrayModel TreeModel RefineModel RefineSpec GeomModel GeomSpec GroupModel ReduceModel ReduceSpec
  MessageModel MessageSpec MessageProps ExchangeModel ExchangeSpec MergeModel MergeSpec MergeProps BuildModel BuildSpec BuildProofs.
Import ListNotations.
Open Scope nat_scope.

(** Sorting, counting and exchanging never fail, whatever the order in which the
    counts are reduced and the batches arrive. *)
Theorem C47_no_failure : forall A B pos_s pos_t d L same (zs : serializer A) (zt : serializer B) (users : list (list A * list B)),
  let dim3 := Z.to_nat (8 ^ L) in let srcs := concat (map fst users) in let tgts := concat (map snd users) in
  (0 < dsize d)%Q -> (0 <= L <= 9)%Z -> placed pos_s d srcs -> placed pos_t d tgts -> Forall (codec_ok zs) srcs -> (same = false -> Forall (codec_ok zt) tgts) ->
  exists locals, mapM (sort_local_points A B pos_s pos_t d L same) users = Ok locals /\ length locals = length users /\
  forall t, Permutation (contribs t) (map (local_counts A B) locals) ->
  exists unif, reduce int_sum_op (int_sum_ident (2 * dim3)) t = Ok unif /\
  forall rank_map junk rw sm tm me l, nth_error locals me = Some l ->
  exists log, arrivals A B L same zs zt junk rw sm tm rank_map locals me = Ok log /\
    (forall evs fresh, Permutation evs (to_sources log) -> length fresh = num_points dim3 rank_map me (count_src unif) ->
       exists mem, segment dim3 rank_map me (count_src unif) (fst l) fresh evs = Ok mem) /\
    (same = false -> forall evs fresh, Permutation evs (to_targets log) -> length fresh = num_points dim3 rank_map me (count_tar L unif) ->
       exists mem, segment dim3 rank_map me (count_tar L unif) (snd l) fresh evs = Ok mem).
Proof.
  intros A B pos_s pos_t d L same zs zt users dim3 srcs tgts Hd HL [Is Ns] [It Nt] Zs Zt.
  destruct (locals_ok A B pos_s pos_t d Hd L HL same users Is It) as (locals & E & F1 & F2). exists locals. split; [assumption|].
  split; [pose proof (forall2_len _ _ _ _ _ F1) as X; rewrite !map_length in X; symmetry; exact X|]. intros t Ht.
  destruct (unif_ok A B pos_s pos_t d L HL same users Ns Nt locals F1 F2 t Ht) as (unif & Eu & Us & Ut). exists unif. split; [assumption|]. intros rank_map junk rw sm tm me l El.
  destruct (arrivals_ok A B pos_s pos_t d L HL same users Is It Ns Nt locals F1 F2 zs zt Zs Zt rank_map junk rw sm tm me) as (log & Ea & T1 & T2 & _). exists log. split; [assumption|]. split.
  - intros evs fresh Pe Lf. rewrite T1 in Pe. destruct (segment_ok _ dim3 rank_map _ _ F1 Ns (count_src unif) Us me (fst l) fresh evs (map_nth_error fst _ _ El) Lf Pe) as (mem & Em & _). eauto.
  - intros ->. intros evs fresh Pe Lf. rewrite T2 in Pe. destruct (segment_ok _ dim3 rank_map _ _ F2 Nt (count_tar L unif) Ut me (snd l) fresh evs (map_nth_error snd _ _ El) Lf Pe) as (mem & Em & _). eauto.
Qed.
Print Assumptions C47_no_failure.

(** In the end the slice of every cell of a rank holds the records of all ranks in the
    box of that cell, and the rank's array the records of all its cells. *)
Theorem C47_sources : forall A B pos_s pos_t d L same (zs : serializer A) (zt : serializer B) (users : list (list A * list B)) locals unif rank_map junk rw sm tm me low part thr fuel cell_index cell mem,
  let dim3 := Z.to_nat (8 ^ L) in let srcs := concat (map fst users) in let tgts := concat (map snd users) in let gc := count_src unif in
  (0 < dsize d)%Q -> (0 <= L <= 9)%Z -> placed pos_s d srcs -> placed pos_t d tgts -> Forall (codec_ok zs) srcs -> (same = false -> Forall (codec_ok zt) tgts) ->
  partition_contract part -> cell_numbers pos_s d L srcs cell -> counted pos_s pos_t d L same users locals unif ->
  sources_end L same zs zt junk rw sm tm cell_index low part thr fuel rank_map locals unif me mem ->
  (forall i, i < dim3 -> rank_map i = me -> gc i = length (of_cell cell i srcs) /\ Permutation (firstn (gc i) (skipn (global_offset rank_map me gc i) mem)) (of_cell cell i srcs)) /\
  Permutation mem (of_rank cell rank_map me srcs).
Proof.
  intros A B pos_s pos_t d L same zs zt users locals unif rank_map junk rw sm tm me low part thr fuel cell_index cell mem dim3 srcs tgts gc Hd HL [Is Ns] [It Nt] Zs Zt Hp Hc (El & t & Ht & Eu) (l & log & En & Ea & R).
  destruct (locals_ok A B pos_s pos_t d Hd L HL same users Is It) as (locals' & E & F1 & F2). rewrite El in E. injection E as <-.
  destruct (unif_ok A B pos_s pos_t d L HL same users Ns Nt locals F1 F2 t Ht) as (unif' & E & Us & Ut). rewrite Eu in E. injection E as <-.
  destruct (arrivals_ok A B pos_s pos_t d L HL same users Is It Ns Nt locals F1 F2 zs zt Zs Zt rank_map junk rw sm tm me) as (log' & E & T1 & T2 & _). rewrite Ea in E. injection E as <-.
  pose proof (cell_at_ok A pos_s d L srcs cell Hd (proj1 HL) Is Hc) as Ce. rewrite (of_rank_ext _ cell (cell_at pos_s d L) rank_map srcs (fun x Hx => proj1 (Ce x Hx))).
  rewrite T1 in R. destruct (result_ok A (cell_at pos_s d L) dim3 rank_map (map fst users) (map fst locals) low part thr fuel cell_index gc me (fst l) mem F1 Ns Us) as [R1 R2].
  - intros x Hx. destruct (Ce x Hx) as [<- C]. exact C.
  - assumption.
  - exact (map_nth_error fst _ _ En).
  - assumption.
  - split; [|assumption]. intros i Hi Hr. rewrite (of_cell_ext _ cell (cell_at pos_s d L) srcs (fun x Hx => proj1 (Ce x Hx))). split; [apply Us; assumption|apply R1; assumption].
Qed.
Print Assumptions C47_sources.

(** The same for the targets, unless S == T: then the target tree uses the sources'
    array, which only the source tree fills. *)
Theorem C47_targets : forall A B pos_s pos_t d L (zs : serializer A) (zt : serializer B) (users : list (list A * list B)) locals unif rank_map junk rw sm tm me low part thr fuel cell_index cell mem,
  let dim3 := Z.to_nat (8 ^ L) in let srcs := concat (map fst users) in let tgts := concat (map snd users) in let gc := count_tar L unif in
  (0 < dsize d)%Q -> (0 <= L <= 9)%Z -> placed pos_s d srcs -> placed pos_t d tgts -> Forall (codec_ok zs) srcs -> Forall (codec_ok zt) tgts ->
  partition_contract part -> cell_numbers pos_t d L tgts cell -> counted pos_s pos_t d L false users locals unif ->
  targets_end L false zs zt junk rw sm tm cell_index low part thr fuel rank_map locals unif me mem ->
  (forall i, i < dim3 -> rank_map i = me -> gc i = length (of_cell cell i tgts) /\ Permutation (firstn (gc i) (skipn (global_offset rank_map me gc i) mem)) (of_cell cell i tgts)) /\
  Permutation mem (of_rank cell rank_map me tgts).
Proof.
  intros A B pos_s pos_t d L zs zt users locals unif rank_map junk rw sm tm me low part thr fuel cell_index cell mem dim3 srcs tgts gc Hd HL [Is Ns] [It Nt] Zs Zt Hp Hc (El & t & Ht & Eu) (l & log & En & Ea & R).
  destruct (locals_ok A B pos_s pos_t d Hd L HL false users Is It) as (locals' & E & F1 & F2). rewrite El in E. injection E as <-.
  destruct (unif_ok A B pos_s pos_t d L HL false users Ns Nt locals F1 F2 t Ht) as (unif' & E & Us & Ut). rewrite Eu in E. injection E as <-.
  destruct (arrivals_ok A B pos_s pos_t d L HL false users Is It Ns Nt locals F1 F2 zs zt Zs (fun _ => Zt) rank_map junk rw sm tm me) as (log' & E & T1 & T2 & _). rewrite Ea in E. injection E as <-.
  pose proof (cell_at_ok B pos_t d L tgts cell Hd (proj1 HL) It Hc) as Ce. rewrite (of_rank_ext _ cell (cell_at pos_t d L) rank_map tgts (fun x Hx => proj1 (Ce x Hx))).
  rewrite T2 in R. destruct (result_ok B (cell_at pos_t d L) dim3 rank_map (map snd users) (map snd locals) low part thr fuel cell_index gc me (snd l) mem F2 Nt Ut) as [R1 R2].
  - intros x Hx. destruct (Ce x Hx) as [<- C]. exact C.
  - assumption.
  - exact (map_nth_error snd _ _ En).
  - assumption.
  - split; [|assumption]. intros i Hi Hr. rewrite (of_cell_ext _ cell (cell_at pos_t d L) tgts (fun x Hx => proj1 (Ce x Hx))). split; [apply Ut; assumption|apply R1; assumption].
Qed.
Print Assumptions C47_targets.

(** Over all ranks nothing is lost and nothing is duplicated. *)
Theorem C47_all_ranks : forall A B pos_s pos_t d L same (zs : serializer A) (zt : serializer B) (users : list (list A * list B)) locals unif rank_map junk rw sm tm low_s part_s low_t part_t thr fuel cell_index,
  let srcs := concat (map fst users) in let tgts := concat (map snd users) in
  (0 < dsize d)%Q -> (0 <= L <= 9)%Z -> placed pos_s d srcs -> placed pos_t d tgts -> Forall (codec_ok zs) srcs -> (same = false -> Forall (codec_ok zt) tgts) ->
  partition_contract part_s -> partition_contract part_t -> counted pos_s pos_t d L same users locals unif ->
  (forall i, i < Z.to_nat (8 ^ L) -> rank_map i < length users) ->
  (forall mems, length mems = length users ->
     (forall r m, nth_error mems r = Some m -> sources_end L same zs zt junk rw sm tm cell_index low_s part_s thr fuel rank_map locals unif r m) -> Permutation (concat mems) srcs) /\
  (same = false -> forall mems, length mems = length users ->
     (forall r m, nth_error mems r = Some m -> targets_end L same zs zt junk rw sm tm cell_index low_t part_t thr fuel rank_map locals unif r m) -> Permutation (concat mems) tgts).
Proof.
  intros A B pos_s pos_t d L same zs zt users locals unif rank_map junk rw sm tm low_s part_s low_t part_t thr fuel cell_index srcs tgts Hd HL Ps Pt Zs Zt Cs Ct Hc Hr.
  pose proof (cell_numbers_exist A pos_s d L srcs Hd (proj1 HL) (proj1 Ps)) as Ns. pose proof (cell_numbers_exist B pos_t d L tgts Hd (proj1 HL) (proj1 Pt)) as Nt.
  split.
  - intros mems Lm H. apply (all_ranks (cell_at pos_s d L) rank_map (map fst users) mems); [|rewrite map_length; assumption|].
    + intros x Hx. rewrite map_length. apply Hr. destruct (cell_at_ok A pos_s d L srcs _ Hd (proj1 HL) (proj1 Ps) Ns x Hx). assumption.
    + intros r m E. eapply C47_sources; try eassumption. apply H. assumption.
  - intros -> mems Lm H. apply (all_ranks (cell_at pos_t d L) rank_map (map snd users) mems); [|rewrite map_length; assumption|].
    + intros x Hx. rewrite map_length. apply Hr. destruct (cell_at_ok B pos_t d L tgts _ Hd (proj1 HL) (proj1 Pt) Nt x Hx). assumption.
    + intros r m E. eapply C47_targets; try eassumption; [exact (Zt eq_refl)|]. apply H. assumption.
Qed.
Print Assumptions C47_all_ranks.

(** S == T: with the counts that arrive in any order, every non-empty target cell of
    the rank is complete once and then starts its partitioning, once. *)
Theorem C47_same_s_and_t : forall A B pos_s pos_t d L (zs : serializer A) (zt : serializer B) (users : list (list A * list B)) locals unif rank_map junk rw sm tm me l log evs,
  let dim3 := Z.to_nat (8 ^ L) in let srcs := concat (map fst users) in let tgts := concat (map snd users) in let gc := count_tar L unif in
  (0 < dsize d)%Q -> (0 <= L <= 9)%Z -> placed pos_s d srcs -> placed pos_t d tgts -> Forall (codec_ok zs) srcs ->
  (forall u, In u users -> map pos_t (snd u) = map pos_s (fst u)) ->
  counted pos_s pos_t d L true users locals unif -> nth_error locals me = Some l ->
  arrivals A B L true zs zt junk rw sm tm rank_map locals me = Ok log -> Permutation evs (to_same log) ->
  let st := fold_left (count_batch dim3 rank_map me gc) evs (init_same dim3 rank_map me gc (ints (s_count (snd l)))) in
  forall i, i < dim3 -> rank_map i = me ->
    gc i = count_src unif i /\ fst st i = gc i /\ count_occ Nat.eq_dec (snd st) i = if 0 <? gc i then 1 else 0.
Proof.
  intros A B pos_s pos_t d L zs zt users locals unif rank_map junk rw sm tm me l log evs dim3 srcs tgts gc Hd HL [Is Ns] [It Nt] Zs Hu (El & t & Ht & Eu) En Ea Pe.
  destruct (locals_ok A B pos_s pos_t d Hd L HL true users Is It) as (locals' & E & F1 & F2). rewrite El in E. injection E as <-.
  destruct (unif_ok A B pos_s pos_t d L HL true users Ns Nt locals F1 F2 t Ht) as (unif' & E & Us & Ut). rewrite Eu in E. injection E as <-.
  destruct (arrivals_ok A B pos_s pos_t d L HL true users Is It Ns Nt locals F1 F2 zs zt Zs ltac:(discriminate) rank_map junk rw sm tm me) as (log' & E & _ & _ & T3). rewrite Ea in E. injection E as <-.
  rewrite T3 in Pe. assert (Sm := same_counts A B pos_s pos_t d L users Hu).
  assert (St : forall i, length (of_cell (cell_at pos_t d L) i tgts) = length (of_cell (cell_at pos_s d L) i srcs)).
  { intros i. unfold tgts, srcs. clear -Hu. induction users as [|u us IH]; [reflexivity|]. cbn [map concat]. rewrite !of_cell_app, !app_length, IH by (intros v Hv; apply Hu; right; assumption).
    rewrite (same_counts A B pos_s pos_t d L (u :: us) Hu u i (or_introl eq_refl)). reflexivity. }
  assert (Hn : length tgts = length srcs).
  { unfold tgts, srcs. clear -Hu. induction users as [|u us IH]; [reflexivity|]. cbn [map concat]. rewrite !app_length, IH by (intros v Hv; apply Hu; right; assumption). f_equal.
    pose proof (f_equal (@length _) (Hu u (or_introl eq_refl))) as X. rewrite !map_length in X. exact X. }
  pose proof (counts_total A B pos_s pos_t d L users rank_map locals F1 F2 Sm me l En) as Tot.
  assert (Tot' : forall i, i < dim3 -> rank_map i = me -> ints (s_count (snd l)) i + list_sum (map snd (filter (fun e => fst e =? i) evs)) = gc i).
  { intros i Hi Hr. rewrite (sum_perm evs _ i Pe). rewrite (Tot i Hi Hr). symmetry. unfold gc. rewrite Ut by assumption. apply St. }
  intros st i Hi Hr. split; [unfold gc; rewrite Ut, Us by assumption; apply St|].
  pose proof (C14_same_s_and_t dim3 rank_map me gc (ints (s_count (snd l))) evs) as C. cbv zeta in C. fold st in C.
  destruct (C) with (i := i) as [C1 C2]; try assumption.
  - pose proof (num_points_le (cell_at pos_t d L) dim3 rank_map (map snd users) gc Ut me) as X. fold tgts in X. lia.
  - intros j n Hj. eapply Permutation_in in Hj; [|eassumption]. apply counts_for_in in Hj. exact Hj.
  - intros j Hj Hm. rewrite Tot' by assumption. lia.
  - rewrite Tot' in C1, C2 by assumption. rewrite Nat.eqb_refl, andb_true_r in C2. split; assumption.
Qed.
Print Assumptions C47_same_s_and_t.

(** Two ranks, ten sources in the unit cube cut into eight boxes; odd boxes go to rank 1. *)
Definition ex_pos (r : Z * Z) : point := mkP (inject_Z (fst r) / 8) (inject_Z (snd r) / 8) (inject_Z (fst r) / 16).
Definition ex_dom : domain := mkD (mkP 0 0 0) 1.
Definition ex_users : list (list (Z * Z) * list (Z * Z)) :=
  [([(0, 0); (7, 7); (5, 1); (1, 6); (6, 3)], [(4, 4); (1, 1)]); ([(2, 2); (8, 8); (4, 0); (5, 1); (3, 7)], [(7, 2); (0, 8); (3, 3)])]%Z.
Definition ex_map (i : nat) : nat := if Nat.odd i then 1 else 0.
Definition ex_low (a : axis) (i : index) (r : Z * Z) : bool := below_centre ex_dom a i (ex_pos r).
Definition ex_part (i : index) (c : nat) (f : Z * Z -> bool) (l : list (Z * Z)) := (filter f l, filter (fun x => negb (f x)) l).
Definition ex_index (i : nat) : index := mkIndex (Z.of_nat (i mod 2)) (Z.of_nat (i / 2 mod 2)) (Z.of_nat (i / 4)) 1.
Definition ex_locals := match mapM (sort_local_points _ _ ex_pos ex_pos ex_dom 1 false) ex_users with Ok l => l | _ => [] end.
Definition ex_unif := map Z.of_nat [2; 4; 2; 1; 0; 0; 0; 1; 2; 1; 1; 1; 0; 0; 0; 0].
Definition ex_end me mem := sources_end 1 false two_bytes two_bytes (fun _ _ => 255%Z) 4096 1 2 ex_index ex_low ex_part 2 6 ex_map ex_locals ex_unif me mem.

Lemma ex_part_ok : partition_contract ex_part.
Proof.
  intros i c f l. unfold ex_part. split; [|split].
  - induction l as [|x l IH]; [reflexivity|]. cbn [filter]. destruct (f x); cbn [negb app]; [apply perm_skip; assumption|]. rewrite <- Permutation_middle. apply perm_skip. assumption.
  - intros r Hr. apply filter_In in Hr. apply Hr.
  - intros r Hr. apply filter_In in Hr. destruct Hr as [_ Hr]. destruct (f r); [discriminate|reflexivity].
Qed.
Example C47_nonvacuous :
  placed ex_pos ex_dom (concat (map fst ex_users)) /\ placed ex_pos ex_dom (concat (map snd ex_users)) /\ partition_contract ex_part /\
  Forall (codec_ok two_bytes) (concat (map fst ex_users)) /\ counted ex_pos ex_pos ex_dom 1 false ex_users ex_locals ex_unif /\
  ex_end 0 [(0, 0); (2, 2); (1, 6); (3, 7)]%Z /\ ex_end 1 [(4, 0); (5, 1); (5, 1); (6, 3); (7, 7); (8, 8)]%Z.
Proof.
  split; [split; [|reflexivity]; intros x Hx; cbn in Hx; repeat (destruct Hx as [<-|Hx]; [intros []; vm_compute; split; discriminate|]); contradiction|].
  split; [split; [|reflexivity]; intros x Hx; cbn in Hx; repeat (destruct Hx as [<-|Hx]; [intros []; vm_compute; split; discriminate|]); contradiction|].
  split; [exact ex_part_ok|]. split; [apply Forall_forall; intros x _; apply two_bytes_ok|]. split.
  - split; [vm_compute; reflexivity|]. exists (RNode (RLeaf (local_counts _ _ (nth 1 ex_locals (mkSorted [] [] [], mkSorted [] [] [])))) (RLeaf (local_counts _ _ (nth 0 ex_locals (mkSorted [] [] [], mkSorted [] [] []))))).
    split; [vm_compute; apply perm_swap|vm_compute; reflexivity].
  - split; eexists _, _; (split; [vm_compute; reflexivity|]); (split; [vm_compute; reflexivity|]).
    + exists [(2, [(3, 7)%Z]); (0, [(2, 2)%Z])], (repeat (0, 0)%Z 4), [(0, 0); (2, 2); (1, 6); (3, 7)]%Z. split; [apply perm_swap|]. split; [reflexivity|]. split; vm_compute; reflexivity.
    + exists [(3, [(7, 7)%Z]); (1, [(5, 1); (6, 3)]%Z)], (repeat (0, 0)%Z 6), [(4, 0); (5, 1); (5, 1); (6, 3); (7, 7); (8, 8)]%Z. split; [apply perm_swap|]. split; [reflexivity|]. split; vm_compute; reflexivity.
Qed.
