(** Distributing the records of both trees over the ranks: the data path of
    [create_dual_tree_handler], dualtree.h:1166-1299, up to the adaptive part of
    the trees.  The ranks' tasks touch disjoint memory except for the messages, so
    each rank's result is a function of the order in which its batches arrive. *)
From Coq Require Import ZArith QArith List Bool Arith Permutation.
From Verif Require Import Base IndexModel ArrayModel TreeModel RefineModel GeomModel GroupModel ReduceModel MessageModel ReduceSpec ExchangeModel ExchangeSpec MergeModel.
Import ListNotations.
Open Scope nat_scope.

(** An [int] array read as a function. *)
Definition ints (l : list Z) (i : nat) : nat := Z.to_nat (nth i l 0%Z).

(** What [sort_local_points] leaves of one tree's records: the grouped records, the
    counts and the offsets. *)
Record sorted (X : Type) := mkSorted { s_recs : list X; s_count : list Z; s_offset : list Z }.
Arguments mkSorted {X}. Arguments s_recs {X}. Arguments s_count {X}. Arguments s_offset {X}.

(** dualtree.h:789-839, one tree's share; without [group] only the counts are made. *)
Definition sort_tree {X} (pos : X -> point) (d : domain) (L : Z) (group : bool) (recs : list X) : res (sorted X) :=
  do a <- assign_points d L (map pos recs) (repeat 0%Z (Z.to_nat (8 ^ L)));
  let '(gid, count) := a in
  if group then
    do g <- group_points X recs (Z.of_nat (length recs)) (8 ^ L) gid count;
    Ok (mkSorted (fst g) count (snd g))
  else Ok (mkSorted recs count []).

Section Build.
Variables A B : Type.
Variable pos_s : A -> point.
Variable pos_t : B -> point.
Variable d : domain.
Variable L : Z.
Variable same : bool.
Variable zs : serializer A.
Variable zt : serializer B.
Let dim3 := Z.to_nat (8 ^ L).

(** dualtree.h:789-839 [sort_local_points] *)
Definition sort_local_points (u : list A * list B) : res (sorted A * sorted B) :=
  do s <- sort_tree pos_s d L true (fst u);
  do t <- sort_tree pos_t d L (negb same) (snd u);
  Ok (s, t).

(** dualtree.h:815-817: what a rank contributes to the reduction [unif_count_]. *)
Definition local_counts (l : sorted A * sorted B) : list Z := s_count (fst l) ++ s_count (snd l).
(** dualtree.h:112-121 [unif_count_src], [unif_count_tar] *)
Definition count_src (unif : list Z) (i : nat) : nat := ints unif i.
Definition count_tar (unif : list Z) (i : nat) : nat := ints unif (i + dim3).

(** dualtree.h:1232-1238 on the ranks other than [me]: what reaches [me]. *)
Definition arrivals (junk : nat -> nat -> Z) (rw sm tm : Z) (rank_map : nat -> nat) (locals : list (sorted A * sorted B)) (me : nat) : res (list (event A B)) :=
  foldM (fun log r =>
    if r =? me then Ok log else
    do l <- nth_res locals r;
    do msg <- send_points A B dim3 rank_map same zs zt (junk r) rw sm tm me (ints (s_count (fst l))) (ints (s_count (snd l)))
                (ints (s_offset (fst l))) (ints (s_offset (snd l))) (s_recs (fst l)) (s_recs (snd l));
    do evs <- recv_points A B dim3 rank_map same zs zt me msg;
    Ok (log ++ evs)) (seq 0 (length locals)) [].
End Build.

(** tree.h:214-270 and 361-410: rank [me]'s [sorted_data] once the batches [evs]
    have been merged in this order. *)
Definition segment {X} (dim3 : nat) (rank_map : nat -> nat) (me : nat) (gc : nat -> nat) (loc : sorted X) (fresh : list X) (evs : list (nat * list X)) : res (list X) :=
  do st <- init_exchange X dim3 rank_map me gc (ints (s_count loc)) (ints (s_offset loc)) (s_recs loc) fresh;
  do st <- foldM (merge_batch X dim3 rank_map me gc) evs st;
  Ok (st_mem st).

(** node.h:443-536 on every non-empty cell of the rank; the cells own disjoint parts
    of the array, so their order does not matter. *)
Definition partition_cells {X} low part thr fuel (cell_index : nat -> index) (dim3 : nat) (rank_map : nat -> nat) (me : nat) (gc : nat -> nat) (mem : list X) : res (list X) :=
  foldM (fun mem i =>
    if negb (owned rank_map me i) then Ok mem
    else if gc i =? 0 then Ok mem
    else
      let o := global_offset rank_map me gc i in
      do l <- read_range X mem o (o + gc i);
      do r <- refine low part thr fuel (cell_index i) o l;
      write_range X mem o (snd r)) (seq 0 dim3) mem.

(** One rank's array at the end, for some arrival order [evs] of the batches sent to
    it and some contents [fresh] of the new array (tree.h:234, [new T[num_points]]). *)
Definition tree_result {X} low part thr fuel (cell_index : nat -> index) (dim3 : nat) (rank_map : nat -> nat) (gc : nat -> nat)
    (loc : sorted X) (sent : list (nat * list X)) (me : nat) (mem' : list X) : Prop :=
  exists evs fresh mem, Permutation evs sent /\ length fresh = num_points dim3 rank_map me gc /\
    segment dim3 rank_map me gc loc fresh evs = Ok mem /\
    partition_cells low part thr fuel cell_index dim3 rank_map me gc mem = Ok mem'.

Section Runs.
Context {A B : Type}.
Variable pos_s : A -> point.
Variable pos_t : B -> point.
Variable d : domain.
Variable L : Z.
Variable same : bool.
Variable zs : serializer A.
Variable zt : serializer B.
Let dim3 := Z.to_nat (8 ^ L).

(** dualtree.h:1186-1201 on all ranks: [locals] after sorting, [unif] after the counts
    have been reduced in some order. *)
Definition counted (users : list (list A * list B)) (locals : list (sorted A * sorted B)) (unif : list Z) : Prop :=
  mapM (sort_local_points A B pos_s pos_t d L same) users = Ok locals /\
  exists t, Permutation (contribs t) (map (local_counts A B) locals) /\ reduce int_sum_op (int_sum_ident (2 * dim3)) t = Ok unif.

(** dualtree.h:1207-1299 on rank [me]: what [sources.replace] and [targets.replace]
    install. *)
Variable junk : nat -> nat -> Z.
Variables rw sm tm : Z.
Variable cell_index : nat -> index.
Definition sources_end low part thr fuel (rank_map : nat -> nat) locals unif (me : nat) (mem : list A) : Prop :=
  exists l log, nth_error locals me = Some l /\ arrivals A B L same zs zt junk rw sm tm rank_map locals me = Ok log /\
    tree_result low part thr fuel cell_index dim3 rank_map (count_src unif) (fst l) (to_sources log) me mem.
Definition targets_end low part thr fuel (rank_map : nat -> nat) locals unif (me : nat) (mem : list B) : Prop :=
  exists l log, nth_error locals me = Some l /\ arrivals A B L same zs zt junk rw sm tm rank_map locals me = Ok log /\
    tree_result low part thr fuel cell_index dim3 rank_map (count_tar L unif) (snd l) (to_targets log) me mem.
End Runs.
