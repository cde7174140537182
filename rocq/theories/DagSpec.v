(** What the DAG of a method has to be. *)
From Coq Require Import ZArith List Bool Arith Permutation.
From Verif Require Import Base IndexModel TreeModel TreeFacts LookupModel GeomModel DagModel MethodModel.
Import ListNotations.
Open Scope nat_scope.

Definition prefix (p q : path) : Prop := exists r, q = p ++ r.
(** [p] is a leaf of the tree. *)
Definition leaf_at {X} (t : tree X) (p : path) : Prop := exists n, sub t p = Some n /\ forall w, kid n w = None.
(** Eight slots everywhere; no leaf above the uniform level. *)
Definition eight {X} (t : tree X) : Prop := forall p n, sub t p = Some n -> length (kids n) = 8.
Definition deep {X} (u : nat) (t : tree X) : Prop := forall p, leaf_at t p -> u <= length p.
(** Every path of the tree is shorter than [h]. *)
Definition lower {X} (h : nat) (t : tree X) : Prop := forall p n, sub t p = Some n -> length p < h.

(** A chain of edges from [a] to [b]. *)
Fixpoint chain (E : list edge) (a : dnode) (es : list edge) (b : dnode) : Prop :=
  match es with
  | [] => a = b
  | e :: es' => In e E /\ efrom e = a /\ chain E (eto e) es' b
  end.

(** Two boxes of one level that are not neighbours. *)
Definition apart (i j : index) : Prop := exists a, (2 <= Z.abs (icoord a i - icoord a j))%Z.
(** The box [i] (the smaller) is at least its own side away from the box [j], which is
    not deeper, along some axis. *)
Definition clear_of (i j : index) : Prop :=
  (ilevel j <= ilevel i)%Z /\
  exists a, let d := (2 ^ (ilevel i - ilevel j))%Z in
    (icoord a i + 2 <= icoord a j * d)%Z \/ ((icoord a j + 1) * d + 1 <= icoord a i)%Z.
(** Shifting the intermediate expansion of a target box to a child serves only the source
    boxes not adjacent to that child (merge-and-shift). *)
Definition acts_on (e f : edge) : Prop :=
  match eop e, efrom e, eop f, eto f with
  | ItoI, ((_, c), _), ItoL, ((_, u), _) => apart (idx_of c) (idx_of u)
  | _, _, _, _ => True
  end.
Fixpoint effective (es : list edge) : Prop :=
  match es with
  | e :: ((f :: _) as tl) => acts_on e f /\ effective tl
  | _ => True
  end.

Definition links (l : list act) : list edge := flat_map (fun a => match a with Link e => [e] | Add _ => [] end) l.
Definition adds (l : list act) : list dnode := flat_map (fun a => match a with Add n => [n] | Link _ => [] end) l.
Definition all_edges (ts : list task) : list edge := flat_map (fun t => links (snd t)) ts.
Definition all_adds (ts : list task) : list dnode := flat_map (fun t => adds (snd t)) ts.

(** The targets the method stops at: those that got a target DAG node. *)
Definition stops (ts : list task) (q : path) : Prop := In ((TgtTree, q), Parts) (all_adds ts).

(** Task [a] is over before task [b] begins. *)
Definition before (a b : owner) : Prop :=
  match a, b with
  | (SrcTree, p), (SrcTree, q) => prefix q p /\ p <> q
  | (SrcTree, _), (TgtTree, _) => True
  | (TgtTree, p), (TgtTree, q) => prefix p q /\ p <> q
  | (TgtTree, _), (SrcTree, _) => False
  end.
(** An order in which the runtime can execute the actions of the tasks. *)
Definition actions_of (o : owner) (l : list (owner * act)) : list act :=
  flat_map (fun x => if owner_dec (fst x) o then [snd x] else []) l.
Definition schedule (ts : list task) (l : list (owner * act)) : Prop :=
  (forall o acts, In (o, acts) ts -> actions_of o l = acts) /\
  (forall o a, In (o, a) l -> exists acts, In (o, acts) ts) /\
  (forall l1 o a l2, l = l1 ++ (o, a) :: l2 -> forall o' a', before o' o -> In (o', a') l2 -> False).

(** The two kinds of route of the Barnes-Hut method. *)
Definition bh_route (s q : path) (es : list edge) : Prop :=
  es = [mkEdge StoT (src s, Parts) (tgt q, Parts)] \/
  exists c ups, prefix c s /\ Forall (fun e => eop e = MtoM) ups /\
    es = mkEdge StoM (src s, Parts) (src s, Normal) :: ups ++ [mkEdge MtoT (src c, Normal) (tgt q, Parts)].

(** The box [p] is far from some source: a source box of its level that is not a neighbour,
    or a larger source leaf at least one side of [p] away. *)
Definition far_source {X} (S : tree X) (p : path) : Prop :=
  (exists c, sub S c <> None /\ length c = length p /\ apart (idx_of c) (idx_of p)) \/
  (exists c, leaf_at S c /\ length c < length p /\ clear_of (idx_of p) (idx_of c)).
(** The same when the sources of the other boxes of the parent's level are merged. *)
Definition far_source97 {X} (S : tree X) (p : path) : Prop :=
  (exists c, sub S c <> None /\ length c = length p /\ parent_of c <> parent_of p) \/
  (exists c, leaf_at S c /\ length c < length p /\ clear_of (idx_of p) (idx_of c)).
(** The node receives something; it is a node no edge has to lead to. *)
Definition fed (ts : list task) (x : dnode) : Prop := exists e, In e (all_edges ts) /\ eto e = x.
Definition is_start {X} (S : tree X) (x : dnode) : Prop := exists s, leaf_at S s /\ x = (src s, Parts).

(** What every method has to build: no edge twice; from each source leaf exactly one effective
    chain to each target the method stops at; each target leaf lies below exactly one of
    these; and in every schedule all links find their two expansions, and the nodes and
    edges are those of the tasks. *)
Definition good_dag {A B} (S : tree A) (T : tree B) (ts : list task) : Prop :=
  NoDup (all_edges ts) /\
  (forall s q, leaf_at S s -> stops ts q -> exists! es, chain (all_edges ts) ((SrcTree, s), Parts) es ((TgtTree, q), Parts) /\ effective es) /\
  (forall t, leaf_at T t -> exists! q, stops ts q /\ prefix q t) /\
  (forall l, schedule ts l -> exists d, run (map snd l) = Ok d /\ Permutation (dnodes d) (all_adds ts) /\ Permutation (dedges d) (all_edges ts)).

(** The boxes an operator of the multipole methods joins. *)
Definition separated {X} (S : tree X) (e : edge) : Prop :=
  let '((ds, c), _) := efrom e in let '((dt, p), _) := eto e in
  match eop e with
  | MtoL => ds = SrcTree /\ dt = TgtTree /\ length c = length p /\ apart (idx_of c) (idx_of p)
  | StoL => ds = SrcTree /\ dt = TgtTree /\ leaf_at S c /\ clear_of (idx_of p) (idx_of c)
  | MtoT => ds = SrcTree /\ dt = TgtTree /\ length p <= length c /\ clear_of (idx_of c) (idx_of p)
  | StoT => ds = SrcTree /\ dt = TgtTree /\ leaf_at S c
  | ItoI => ds = SrcTree /\ dt = TgtTree /\ length c = Datatypes.S (length p)
  | ItoL => ds = TgtTree /\ dt = TgtTree /\ exists w, p = c ++ [w]
  | _ => True
  end.
(** No chain leads back to its start. *)
Definition acyclic (ts : list task) : Prop := forall a es, chain (all_edges ts) a es a -> es = [].

(** The two trees of a domain: eight slots, not deeper than the recursion, uniform above
    the cut. *)
Definition usable {A B} (unif fuel : nat) (S : tree A) (T : tree B) : Prop :=
  eight S /\ eight T /\ lower fuel S /\ lower fuel T /\ deep unif S /\ deep unif T.

(** A target box at which the multipole methods have nothing more to gain: at or below the
    uniform level, and a leaf or (unless sources and targets are the same) without a divided
    source box among its neighbours of the same level. *)
Definition finished {A B} (unif : nat) (same : bool) (S : tree A) (T : tree B) (q : path) : Prop :=
  sub T q <> None /\ unif <= length q /\
  (leaf_at T q \/
   (same = false /\ forall c, sub S c <> None -> length c = length q -> ~ apart (idx_of c) (idx_of q) -> leaf_at S c)).
(** The largest such boxes. *)
Definition first_finished {A B} (unif : nat) (same : bool) (S : tree A) (T : tree B) (q : path) : Prop :=
  finished unif same S T q /\ forall p, prefix p q -> p <> q -> ~ finished unif same S T p.
