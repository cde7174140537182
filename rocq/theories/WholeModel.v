(** The trees that the methods see: what the ranks have built, put together.  Each rank has
    the branches below its own uniform cells with their records, and copies of the shape of
    the others' (CompressModel); the records stay where they are. *)
From Coq Require Import ZArith List Bool Arith Permutation.
From Verif Require Import Base IndexModel GridModel ArrayModel TreeModel RefineModel GeomModel GroupModel MessageModel ExchangeModel ExchangeSpec MergeModel BuildModel.
Import ListNotations.
Open Scope nat_scope.

(** node.h:443-536 on every non-empty cell of the rank, as [partition_cells], but with the
    branches made: node.h:519-522. *)
Definition partition_branches {X} low part thr fuel (cell_index : nat -> index) (dim3 : nat) (rank_map : nat -> nat) (me : nat) (gc : nat -> nat) (mem : list X) : res (list X * list (nat * tree rnode)) :=
  foldM (fun st i =>
    let '(mem, bs) := st in
    if negb (owned rank_map me i) then Ok (mem, bs)
    else if gc i =? 0 then Ok (mem, bs)
    else
      let o := global_offset rank_map me gc i in
      do l <- read_range X mem o (o + gc i);
      do r <- refine low part thr fuel (cell_index i) o l;
      do mem' <- write_range X mem o (snd r);
      Ok (mem', bs ++ [(i, fst r)])) (seq 0 dim3) (mem, []).

(** One rank's array and branches at the end, for some order of the batches sent to it. *)
Definition rank_tree {X} low part thr fuel (cell_index : nat -> index) (dim3 : nat) (rank_map : nat -> nat) (gc : nat -> nat)
    (loc : sorted X) (sent : list (nat * list X)) (me : nat) (r : list X * list (nat * tree rnode)) : Prop :=
  exists evs fresh mem, Permutation evs sent /\ length fresh = num_points dim3 rank_map me gc /\
    segment dim3 rank_map me gc loc fresh evs = Ok mem /\
    partition_branches low part thr fuel cell_index dim3 rank_map me gc mem = Ok r.

(** node.h:519: each node's [parts] in the array of its rank. *)
Fixpoint fill {X} (mem : list X) (t : tree rnode) : tree (list X) :=
  match t with
  | T a cs => T (firstn (r_cnt a) (skipn (r_off a) mem)) (map (fun o => match o with Some c => Some (fill mem c) | None => None end) cs)
  end.
(** The branch of cell [i], on the rank that owns it. *)
Definition branch_of {X} (rank_map : nat -> nat) (ranks : list (list X * list (nat * tree rnode))) (i : nat) : option (tree (list X)) :=
  match nth_error ranks (rank_map i) with
  | Some (mem, bs) => match find (fun b => fst b =? i) bs with Some (_, t) => Some (fill mem t) | None => None end
  | None => None
  end.

Definition none {X} (o : option X) : bool := match o with None => true | Some _ => false end.
Definition parts_of {X} (o : option (tree (list X))) : list X := match o with Some c => info c | None => [] end.
(** tree.h:556-609 and 526-535: what is left of the [n] levels above the branches when the
    empty cells and the nodes with nothing below them are cut off.  In the code these nodes
    have no records; here they are given those below, which no method looks at. *)
Fixpoint above {X} (branch : index -> option (tree (list X))) (n : nat) (i : index) : option (tree (list X)) :=
  match n with
  | O => branch i
  | S n' =>
      let cs := map (fun w => above branch n' (child (Z.of_nat w) i)) (seq 0 8) in
      if forallb none cs then None else Some (T (flat_map parts_of cs) cs)
  end.
(** tree.h:566-569: the root is always there. *)
Definition whole {X} (L : Z) (rank_map : nat -> nat) (ranks : list (list X * list (nat * tree rnode))) : tree (list X) :=
  match above (fun i => branch_of rank_map ranks (Z.to_nat (get_unif_grid_index i L))) (Z.to_nat L) (mkIndex 0 0 0 0) with
  | Some t => t
  | None => T [] no_kids
  end.

(** tree.h:592-599: the index of the node [unif_grid_[k]]. *)
Definition grid_index (L : Z) (k : nat) : index :=
  match setup_basics (Z.to_nat L) with
  | Ok (b, ubase) => t_idx (b_at b (ubase + Z.of_nat k))
  | Fail _ => mkIndex 0 0 0 0
  end.

Section Runs.
Context {A B : Type}.
Variable L : Z.
Variable same : bool.
Variable zs : serializer A.
Variable zt : serializer B.
Let dim3 := Z.to_nat (8 ^ L).
Variable junk : nat -> nat -> Z.
Variables rw sm tm : Z.

(** dualtree.h:1207-1299 on all ranks: arrays and branches of the sources. *)
Definition sources_built low part thr fuel (rank_map : nat -> nat) (locals : list (sorted A * sorted B)) unif (ranks : list (list A * list (nat * tree rnode))) : Prop :=
  length ranks = length locals /\ forall me r, nth_error ranks me = Some r ->
  exists l log, nth_error locals me = Some l /\ arrivals A B L same zs zt junk rw sm tm rank_map locals me = Ok log /\
    rank_tree low part thr fuel (grid_index L) dim3 rank_map (count_src unif) (fst l) (to_sources log) me r.
(** The same of the targets. *)
Definition targets_built low part thr fuel (rank_map : nat -> nat) (locals : list (sorted A * sorted B)) unif (ranks : list (list B * list (nat * tree rnode))) : Prop :=
  length ranks = length locals /\ forall me r, nth_error ranks me = Some r ->
  exists l log, nth_error locals me = Some l /\ arrivals A B L same zs zt junk rw sm tm rank_map locals me = Ok log /\
    rank_tree low part thr fuel (grid_index L) dim3 rank_map (count_tar L unif) (snd l) (to_targets log) me r.
(** tree.h:290-342, node.h:485-494: with S == T the target tree is made over the sources'
    array, by searching the split points. *)
Definition targets_built_same {X} low pp thr fuel (rank_map : nat -> nat) unif (sources ranks : list (list X * list (nat * tree rnode))) : Prop :=
  length ranks = length sources /\ forall me r s, nth_error ranks me = Some r -> nth_error sources me = Some s ->
    partition_branches low (part_of_point pp) thr fuel (grid_index L) dim3 rank_map me (count_tar L unif) (fst s) = Ok r.
End Runs.
