(** Ranks for the DAG nodes: the localities set while the DAG is built (include/dashmm/dualtree.h)
    and the distribution policies (src/{bh,fmm97,random,singleloc}distro.cc).  Weights and their
    sums are unbounded integers. *)
From Coq Require Import ZArith List Bool Arith Permutation Sorted.
From Verif Require Import Base IndexModel TreeModel TreeFacts LookupModel GridModel DagModel LinkModel.
Import ListNotations.
Open Scope nat_scope.

(** dag.h:96-101: the members [locality] and [color] of all DAG nodes; dag.h:55-57: their
    initial values. *)
Record marks := mkMarks { loc : dnode -> Z; col : dnode -> Z }.
Definition marks0 : marks := mkMarks (fun _ => (-1)%Z) (fun _ => 0%Z).
(** dag.h:354-373 and the assignments through a checked pointer in the policies: nothing
    happens when the DAG node does not exist. *)
Definition set_loc (has : dnode -> bool) (x : dnode) (v : Z) (s : marks) : marks :=
  if has x then mkMarks (upd dnode_dec (loc s) x v) (col s) else s.
Definition set_col (has : dnode -> bool) (x : dnode) (v : Z) (s : marks) : marks :=
  if has x then mkMarks (loc s) (upd dnode_dec (col s) x v) else s.

(** The two static members of a policy, as functions of the nodes that exist, the tree node
    and the rank. *)
Record policy := mkPolicy {
  assign_for_source : (dnode -> bool) -> path -> Z -> marks -> marks;
  assign_for_target : (dnode -> bool) -> path -> Z -> marks -> marks }.
Definition lvl (p : path) : Z := ilevel (idx_of p).
(** bhdistro.cc:34-44, 47-57 *)
Definition bh_policy : policy := {|
  assign_for_source := fun has p _ s =>
    set_col has ((SrcTree, p), Interm) (-2 * lvl p + 1) (set_col has ((SrcTree, p), Normal) (-2 * lvl p) s);
  assign_for_target := fun has p _ s =>
    set_col has ((TgtTree, p), Interm) (2 * (lvl p + 1) - 1) (set_col has ((TgtTree, p), Normal) (2 * (lvl p + 1)) s) |}%Z.
(** fmm97distro.cc:39-49, 51-63 *)
Definition fmm97_policy : policy := {|
  assign_for_source := fun has p l s =>
    set_loc has ((SrcTree, p), Interm) l (set_loc has ((SrcTree, p), Normal) l s);
  assign_for_target := fun has p l s =>
    set_col has ((TgtTree, p), Interm) (2 * lvl p + 1)
      (set_col has ((TgtTree, p), Normal) (2 * lvl p) (set_loc has ((TgtTree, p), Normal) l s)) |}%Z.
(** randomdistro.h:33-34 and singlelocdistro.h:39-40 *)
Definition no_policy : policy := {| assign_for_source := fun _ _ _ s => s; assign_for_target := fun _ _ _ s => s |}.

(** dualtree.h:1751-1758, 1822-1824: the rank that owns the uniform cell above a node *)
Definition cell_rank (rank_map : list Z) (unif : nat) (p : path) : res Z :=
  nth_resZ rank_map (get_unif_grid_index (idx_of p) (Z.of_nat unif)).
(** dualtree.h:1720-1726, 1838-1843 *)
Definition inner_rank (rank_map : list Z) (unif : nat) (p : path) : res Z :=
  if unif <=? length p then cell_rank rank_map unif p else Ok 0%Z.

Section Place.
Context {A B : Type} (m : method A B) (unif_level : nat) (same : bool) (rank_map : list Z) (pol : policy).

(** The tree nodes the traversals visit, with what decides between the two branches: no
    children (dualtree.h:1749-1750), not refined (dualtree.h:1814).  Same recursions as
    [source_apply] and [target_apply]. *)
Fixpoint source_visits (fuel : nat) (n : path * tree A) : res (list (owner * bool)) :=
  match fuel with
  | O => Fail OutOfFuel
  | S fuel' =>
    if n_children (snd n) =? 0 then Ok [((SrcTree, fst n), true)]
    else do ts <- mapM (source_visits fuel') (children n); Ok (concat ts ++ [((SrcTree, fst n), false)])
  end.
Fixpoint target_visits (fuel : nat) (n : path * tree B) (parent_interm : bool) (consider : list (path * tree A)) : res (list (owner * bool)) :=
  match fuel with
  | O => Fail OutOfFuel
  | S fuel' =>
    let refine := refines m unif_level same n consider in
    let a1 := inherit m n parent_interm (negb refine) in
    do r <- process m n consider (negb refine);
    let '(a2, consider') := r in
    if refine then
      do ts <- mapM (fun c => target_visits fuel' c (existsb (is_add_interm (fst n)) (a1 ++ a2)) consider') (children n);
      Ok (((TgtTree, fst n), false) :: concat ts)
    else Ok [((TgtTree, fst n), true)]
  end.

(** dualtree.h:1717-1731 and 1750-1759 for a source node, 1816-1824 and 1838-1844 for a
    target node: what happens to the marks.  Each visit writes only to its own DAG nodes. *)
Definition place (has : dnode -> bool) (v : owner * bool) (s : marks) : res marks :=
  let '((sd, p), leaf) := v in
  match sd with
  | SrcTree =>
    if leaf then
      do r <- cell_rank rank_map unif_level p;
      Ok (assign_for_source pol has p r (set_loc has ((SrcTree, p), Normal) r (set_loc has ((SrcTree, p), Parts) r s)))
    else
      do r <- inner_rank rank_map unif_level p; Ok (assign_for_source pol has p r s)
  | TgtTree =>
    if leaf then
      do r <- cell_rank rank_map unif_level p;
      Ok (set_loc has ((TgtTree, p), Normal) r (set_loc has ((TgtTree, p), Parts) r s))
    else
      do r <- inner_rank rank_map unif_level p; Ok (assign_for_target pol has p r s)
  end.
(** All visits, in some order. *)
Definition place_all (has : dnode -> bool) (vs : list (owner * bool)) : res marks :=
  foldM (fun s v => place has v s) vs marks0.
End Place.

(** ** Collecting the nodes *)
(** dag.h:540-551 collect_DAG_nodes: the internal nodes and the particle node of one object *)
Definition collect_one (has : dnode -> bool) (o : owner) : list dnode * list dnode :=
  ((if has (o, Normal) then [(o, Normal)] else []) ++ (if has (o, Interm) then [(o, Interm)] else []),
   if has (o, Parts) then [(o, Parts)] else []).
(** dualtree.h:1322-1348 *)
Fixpoint collect {X} (has : dnode -> bool) (sd : side) (fuel : nat) (n : path * tree X) : res (list dnode * list dnode) :=
  match fuel with
  | O => Fail OutOfFuel
  | S fuel' =>
    do l <- mapM (collect has sd fuel') (children n);
    let c := collect_one has (sd, fst n) in
    Ok (concat (map fst l) ++ fst c, concat (map snd l) ++ snd c)
  end.

(** ** The policies *)
(** std::sort with color_comparison (bhdistro.cc:68-70, fmm97distro.cc:65-67): any order of the
    nodes with the colors not increasing. *)
Definition sort_by_color (s : marks) (l l' : list dnode) : Prop :=
  Permutation l l' /\ StronglySorted (fun a b => (col s b <= col s a)%Z) l'.

Section Choose.
(** [outs x] is out_edges of the DAG node, in the order of insertion; [weight] the weight the method
    gave to the edge. *)
Context (n_ranks : nat) (outs : dnode -> list edge) (weight : edge -> Z).
(** bhdistro.cc:92-98, fmm97distro.cc:82-88 *)
Definition bins (s : marks) (x : dnode) : res (list Z) :=
  foldM (fun b e =>
    let l := loc s (eto e) in
    do _ <- assert_ ((0 <=? l) && (l <? Z.of_nat n_ranks))%Z;
    do v <- nth_resZ b l;
    set_resZ b l (v + weight e)%Z) (outs x) (repeat 0%Z n_ranks).
(** bhdistro.cc:101-108, fmm97distro.cc:91-98 *)
Definition arg_max (b : list Z) : res Z :=
  do b0 <- nth_resZ b 0;
  do r <- foldM (fun '(maxval, maxidx) i =>
    do v <- nth_resZ b i;
    Ok (if (maxval <? v)%Z then (v, i) else (maxval, maxidx))) (zseq 1 (n_ranks - 1)) (b0, 0%Z);
  Ok (snd r).
(** bhdistro.cc:79-112, fmm97distro.cc:69-102.  A node without out-edges first gets 0, which the
    last assignment overwrites with the same value. *)
Definition compute_locality (s : marks) (x : dnode) : res marks :=
  if (0 <=? loc s x)%Z then Ok s else
  do b <- bins s x;
  do r <- arg_max b;
  Ok (mkMarks (upd dnode_dec (loc s) x r) (col s)).
(** bhdistro.cc:27-31, 72-77, with the sorted vectors *)
Definition bh_compute (targets sources : list dnode) (s : marks) : res marks :=
  do s1 <- foldM compute_locality targets s;
  foldM compute_locality sources s1.
Definition is_interm (x : dnode) : bool := match snd x with Interm => true | _ => false end.
(** fmm97distro.cc:29-37, with the sorted vector *)
Definition fmm97_compute (targets : list dnode) (s : marks) : res marks :=
  foldM (fun s x => if is_interm x then compute_locality s x else Ok s) targets s.
End Choose.

(** singlelocdistro.cc:25-37 *)
Definition single_compute (where_ : Z) (sources targets : list dnode) (s : marks) : marks :=
  fold_left (fun s x => if (loc s x <? 0)%Z then mkMarks (upd dnode_dec (loc s) x where_) (col s) else s) (sources ++ targets) s.
(** randomdistro.cc:30-54.  The engine is a stream of draws; [draw k] is the value of the k-th call. *)
Definition random_compute (draw : nat -> Z) (source_leaves source_nodes target_nodes target_leaves : list dnode) (s : marks) : res marks :=
  do _ <- foldM (fun _ x => assert_ (negb (loc s x =? -1)%Z)) (source_leaves ++ target_leaves) tt;
  Ok (fst (fold_left (fun '(s, k) x =>
    if (loc s x =? -1)%Z then (mkMarks (upd dnode_dec (loc s) x (draw k)) (col s), S k) else (s, k))
    (source_nodes ++ target_nodes) (s, 0))).
