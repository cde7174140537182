(** C33: output edges are sent once per locality with every edge included. *)
From Coq Require Import ZArith List Bool Lia Sorted Permutation.
From Verif Require Import Base ListFacts EdgeGroupModel EdgeGroupSpec EdgeGroupProofs.
Import ListNotations.
Open Scope Z_scope.

(** For every edge list and every outcome of the sort: the groups together are
    a permutation of the edges, no two groups go to the same rank, no group is
    empty, each edge goes to the rank of its target, and a group is handled
    directly exactly when its rank is the local one. *)
Theorem C33_edges_once_per_rank : forall A (loc : A -> Z) my edges sorted, sort_outcome loc edges sorted ->
  exists acts, instigate_split loc my sorted = Ok acts /\
    Permutation (concat (map act_edges acts)) edges /\
    NoDup (map (act_rank my) acts) /\
    (forall a, In a acts -> act_edges a <> [] /\ (forall e, In e (act_edges a) -> loc e = act_rank my a) /\
        (act_rank my a = my <-> a = Work (act_edges a))) /\
    (forall e, In e edges -> exists a, In a acts /\ In e (act_edges a) /\ act_rank my a = loc e).
Proof.
  intros A loc my edges sorted [HP HS]. destruct (group_loop_ok loc my (length sorted) sorted ltac:(lia) HS) as (acts & E & C & F & SS & W).
  exists acts. split; [exact E|]. split; [rewrite C; symmetry; assumption|]. split; [apply ranks_nodup; assumption|].
  rewrite Forall_forall in F. split; [exact F|].
  intros e He. assert (Hs : In e (concat (map act_edges acts))) by (rewrite C; eapply Permutation_in; eassumption).
  apply in_concat in Hs. destruct Hs as (l & Hl & Hel). apply in_map_iff in Hl. destruct Hl as (a & <- & Ha).
  exists a. repeat split; try assumption. symmetry. apply F; assumption.
Qed.
Print Assumptions C33_edges_once_per_rank.

(** The same for expansion nodes, including the single-rank shortcut, when every
    target lives on a rank below [num_ranks]. *)
Theorem C33_out_edges_once_per_rank : forall A (loc : A -> Z) num_ranks my edges sorted, sort_outcome loc edges sorted ->
  0 <= my < num_ranks -> (forall e, In e edges -> 0 <= loc e < num_ranks) ->
  exists acts, out_edges_split loc num_ranks my sorted = Ok acts /\
    Permutation (concat (map act_edges acts)) edges /\
    NoDup (map (act_rank my) acts) /\
    (forall a, In a acts -> (forall e, In e (act_edges a) -> loc e = act_rank my a) /\
        (act_rank my a = my <-> a = Work (act_edges a))).
Proof.
  intros A loc num my edges sorted HO Hmy Hloc. unfold out_edges_split. destruct (Z.eqb_spec num 1) as [->|Hn].
  - destruct HO as [HP HS]. exists [Work sorted]. split; [reflexivity|]. cbn. rewrite app_nil_r. split; [symmetry; assumption|].
    split; [repeat constructor; intros []|]. intros a [<-|[]]. cbn. split; [|tauto].
    intros e He. assert (In e edges) by (eapply Permutation_in; [symmetry; eassumption|assumption]). specialize (Hloc e H). lia.
  - destruct (C33_edges_once_per_rank A loc my edges sorted HO) as (acts & E & P & N & F & _). exists acts. repeat split; try assumption; apply F; assumption.
Qed.
Print Assumptions C33_out_edges_once_per_rank.

Example C33_nonvacuous : 
  let edges := [(0, 2); (1, 0); (2, 1); (3, 2); (4, 1)] in
  let sorted := [(1, 0); (4, 1); (2, 1); (0, 2); (3, 2)] in
  sort_outcome snd edges sorted /\
  out_edges_split snd 3 1 sorted = Ok [Send 0 [(1, 0)]; Work [(4, 1); (2, 1)]; Send 2 [(0, 2); (3, 2)]].
Proof.
  cbn. split; [split|reflexivity].
  - apply NoDup_Permutation.
    + repeat constructor; cbn; intuition congruence.
    + repeat constructor; cbn; intuition congruence.
    + intros x. cbn. tauto.
  - repeat constructor; cbn; lia.
Qed.
