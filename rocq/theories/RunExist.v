(** The trees of a whole evaluation are built. *)
From Coq Require Import Reals Qreals ZArith QArith List Bool Arith Lia Permutation.
From Verif Require Import Base ListFacts IndexModel IndexSpec GridModel GridSpec ArrayModel ArraySpec TreeModel TreeFacts RefineModel RefineSpec RefineProofs GeomModel GeomSpec GroupModel ReduceModel ReduceSpec
  MessageModel MessageSpec ExchangeModel ExchangeSpec MergeModel MergeSpec BuildModel BuildSpec BuildProofs DagModel WholeModel WholeSpec WholeGrow WholeProofs WholeDone WholeProps LapModel RunModel RunSpec RunTrees.
Import ListNotations.
Open Scope nat_scope.

Lemma choose_list {X} (P : nat -> X -> Prop) n : (forall me, me < n -> exists r, P me r) -> exists rs, length rs = n /\ forall me r, nth_error rs me = Some r -> P me r.
Proof.
  induction n as [|n IH]; intros H; [exists []; split; [reflexivity|intros [|me] r E; discriminate]|]. destruct IH as (rs & Ln & Hr); [intros me Hm; apply H; lia|]. destruct (H n ltac:(lia)) as (r & Pr). exists (rs ++ [r]). rewrite app_length. split; [cbn; lia|].
  intros me x E. destruct (Nat.lt_ge_cases me n) as [Lt|Ge]; [rewrite nth_error_app1 in E by lia; apply Hr, E|]. rewrite nth_error_app2 in E by lia. destruct (me - length rs) as [|k] eqn:K; cbn in E; [|destruct k; discriminate]. injection E as <-. replace me with n by lia. exact Pr.
Qed.
Lemma some_order vs : exists t, contribs t = vs.
Proof. induction vs as [|v vs (t & E)]; [exists RIdent; reflexivity|]. exists (RNode (RLeaf v) t). cbn. rewrite E. reflexivity. Qed.

Section Run.
Context {A B : Type} (pos_s : A -> point) (pos_t : B -> point) (q : A -> R) (d : domain) (Hd : (0 < dsize d)%Q).
Variable L : Z.
Hypothesis HL : (1 <= L <= 9)%Z.
Variable same : bool.
Variable users : list (list A * list B).
Variables (zs : serializer A) (zt : serializer B).
Notation srcs := (concat (map fst users)).
Notation tgts := (concat (map snd users)).
Hypothesis Pls : placed pos_s d srcs.
Hypothesis Plt : placed pos_t d tgts.
Hypothesis Zs : Forall (codec_ok zs) srcs.
Hypothesis Zt : same = false -> Forall (codec_ok zt) tgts.
Hypothesis Hsm : same = true -> forall u, In u users -> map pos_t (snd u) = map pos_s (fst u).
Hypothesis Nes : srcs <> [].
Hypothesis Net : tgts <> [].
Variables (junk : nat -> nat -> Z) (rw sm tm : Z).
Variables (part_s : index -> nat -> (A -> bool) -> list A -> list A * list A) (part_t : index -> nat -> (B -> bool) -> list B -> list B * list B) (pp : (A -> bool) -> list A -> nat).
Hypothesis Ps : partition_contract part_s.
Hypothesis Pt : partition_contract part_t.
Hypothesis Pp : partition_point_contract pp.
Variables (thr : nat) (rank_map : nat -> nat).
Hypothesis Ts : forall x, In x srcs -> length (filter (same_place pos_s x) srcs) <= thr.
Hypothesis Tt : forall x, In x tgts -> length (filter (same_place pos_t x) tgts) <= thr.

Lemma trees_exist : exists depth, forall fuel, depth <= fuel -> exists S T, trees_built pos_s pos_t q L same users zs zt junk rw sm tm d part_s part_t pp thr fuel rank_map S T.
Proof.
  destruct Pls as [Is Ns], Plt as [It Nt]. destruct (locals_ok A B pos_s pos_t d Hd L ltac:(lia) same users Is It) as (locals & El & F1 & F2). destruct (some_order (map (local_counts A B) locals)) as (t & Et).
  assert (Ht : Permutation (contribs t) (map (local_counts A B) locals)) by (rewrite Et; reflexivity).
  destruct (unif_ok A B pos_s pos_t d L ltac:(lia) same users Ns Nt locals F1 F2 t Ht) as (unif & Eu & Us & Ut).
  assert (Hc : counted pos_s pos_t d L same users locals unif) by (split; [exact El|]; exists t; auto).
  destruct (C73_builds A B pos_s pos_t d L same zs zt users locals unif rank_map junk rw sm tm part_s part_t thr Hd HL Pls Plt Zs Zt Ps Pt Hc Ts Tt) as (D & HD). exists D. intros fuel HF.
  assert (Log : forall me, exists log, arrivals A B L same zs zt junk rw sm tm rank_map locals me = Ok log).
  { intros me. destruct (arrivals_ok A B pos_s pos_t d L ltac:(lia) same users Is It Ns Nt locals F1 F2 zs zt Zs Zt rank_map junk rw sm tm me) as (log & E & _). exists log. exact E. }
  assert (Loc : forall me, me < length locals -> exists l, nth_error locals me = Some l) by (intros me Hm; destruct (nth_error locals me) as [l|] eqn:E; [exists l; reflexivity|apply nth_error_None in E; lia]).
  assert (Hs : exists sources, sources_built L same zs zt junk rw sm tm (fun a i x => below_centre d a i (pos_s x)) part_s thr fuel rank_map locals unif sources).
  { destruct srcs as [|x0 xs] eqn:E0; [contradiction|]. apply choose_list. intros me Hm. destruct (Loc me Hm) as (l & Eln), (Log me) as (log & Elog). destruct (HD fuel me l log HF Eln Elog) as [H _].
    destruct (H (to_sources log) (repeat x0 (num_points (Z.to_nat (8 ^ L)) rank_map me (count_src unif))) (Permutation_refl _) (repeat_length _ _)) as (mem & r & E1 & E2).
    exists r, l, log. split; [exact Eln|]. split; [exact Elog|]. eexists _, _, mem. split; [reflexivity|]. split; [apply repeat_length|]. split; [exact E1|exact E2]. }
  destruct Hs as (sources & Hb).
  assert (Htg : if same then exists targets, targets_built_same L (fun a i x => below_centre d a i (pos_s x)) pp thr fuel rank_map unif sources targets
                else exists targets, targets_built L same zs zt junk rw sm tm (fun a i x => below_centre d a i (pos_t x)) part_t thr fuel rank_map locals unif targets).
  { destruct same.
    - assert (St : forall i, length (of_cell (cell_at pos_t d L) i tgts) = length (of_cell (cell_at pos_s d L) i srcs)).
      { intros i. specialize (Hsm eq_refl). clear -Hsm. induction users as [|u us IH]; [reflexivity|]. cbn [map concat]. rewrite !of_cell_app, !app_length, IH by (intros v Hv; apply Hsm; right; assumption).
        rewrite (same_counts A B pos_s pos_t d L (u :: us) Hsm u i (or_introl eq_refl)). reflexivity. }
      assert (Gc : forall i, i < Z.to_nat (8 ^ L) -> count_tar L unif i = count_src unif i) by (intros i Hi; rewrite Ut, Us by exact Hi; apply St).
      exists sources. split; [reflexivity|]. intros me r s Er Es. rewrite Er in Es. injection Es as <-. destruct Hb as [Lr Hr]. destruct (Hr me r Er) as (l & log & Eln & Ea & evs & fresh & mem & Pe & Lf & Sg & Bs).
      destruct (arrivals_ok A B pos_s pos_t d L ltac:(lia) true users Is It Ns Nt locals F1 F2 zs zt Zs ltac:(discriminate) rank_map junk rw sm tm me) as (log' & E & T1 & _). rewrite Ea in E. injection E as <-.
      rewrite T1 in Pe. destruct (segment_ok (cell_at pos_s d L) (Z.to_nat (8 ^ L)) rank_map (map fst users) (map fst locals) F1 Ns (count_src unif) Us me (fst l) fresh evs (map_nth_error fst _ _ Eln) Lf Pe) as (mem1 & E1 & L1 & _). rewrite Sg in E1. injection E1 as <-.
      destruct r as [mem' bs]. cbn [fst]. rewrite (branches_ext (fun a i x => below_centre d a i (pos_s x)) (part_of_point pp) thr fuel (grid_index L) (Z.to_nat (8 ^ L)) rank_map me (count_tar L unif) (count_src unif) mem' Gc).
      exact (branches_point _ part_s Ps thr fuel (grid_index L) (Z.to_nat (8 ^ L)) rank_map me (count_src unif) pp mem mem' bs Pp L1 Bs).
    - destruct tgts as [|x0 xs] eqn:E0; [contradiction|]. apply choose_list. intros me Hm. destruct (Loc me Hm) as (l & Eln), (Log me) as (log & Elog). destruct (HD fuel me l log HF Eln Elog) as [_ H].
      destruct (H eq_refl (to_targets log) (repeat x0 (num_points (Z.to_nat (8 ^ L)) rank_map me (count_tar L unif))) (Permutation_refl _) (repeat_length _ _)) as (mem & r & E1 & E2).
      exists r, l, log. split; [exact Eln|]. split; [exact Elog|]. eexists _, _, mem. split; [reflexivity|]. split; [apply repeat_length|]. split; [exact E1|exact E2]. }
  eexists. destruct same eqn:Es; destruct Htg as (targets & Hb'); eexists; exists locals, unif, sources; (split; [exact Hc|]); (split; [exact Hb|]); (split; [reflexivity|]); exists targets; (split; [exact Hb'|reflexivity]).
Qed.
End Run.
