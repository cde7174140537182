(** What a distribution of the DAG nodes over the ranks has to be. *)
From Coq Require Import ZArith List Bool Arith.
From Verif Require Import Base IndexModel GridSpec DagModel.
Import ListNotations.
Open Scope Z_scope.

Definition in_range (n : nat) (r : Z) : Prop := 0 <= r < Z.of_nat n.
(** The total weight of the edges of [es] whose destination is on rank [r]. *)
Definition weight_to (L : dnode -> Z) (weight : edge -> Z) (es : list edge) (r : Z) : Z :=
  fold_right (fun e a => (if L (eto e) =? r then weight e else 0) + a) 0 es.
(** [r] has the largest weight, and is the lowest such rank. *)
Definition heaviest (n : nat) (L : dnode -> Z) (weight : edge -> Z) (es : list edge) (r : Z) : Prop :=
  in_range n r /\
  forall r', in_range n r' -> (weight_to L weight es r' <= weight_to L weight es r) /\
    (r' < r -> weight_to L weight es r' < weight_to L weight es r).
(** The rank of the uniform cell a node lies in; 0 for the nodes above the cells. *)
Definition home (rank_map : list Z) (unif : nat) (p : path) : Z :=
  if (unif <=? length p)%nat then nth (Z.to_nat (slot_of (idx_of (firstn unif p)) (Z.of_nat unif))) rank_map (-1) else 0.
(** One rank per uniform cell, all ranks existing. *)
Definition good_map (n unif : nat) (rank_map : list Z) : Prop :=
  length rank_map = (8 ^ unif)%nat /\ Forall (in_range n) rank_map.
(** The edges of [es] that start at [x]. *)
Definition leaving (x : dnode) (es : list edge) : list edge :=
  filter (fun e => if dnode_dec (efrom e) x then true else false) es.
(** The nodes the Barnes-Hut policy finds already placed: the particles and the expansions of the boxes
    with particles; those the FMM97 policy finds: all but the intermediate expansions of target boxes. *)
Definition settled_bh (nodes : list dnode) (x : dnode) : Prop := In (fst x, Parts) nodes /\ snd x <> Interm.
Definition settled_fmm97 (x : dnode) : Prop := ~ (fst (fst x) = TgtTree /\ snd x = Interm).
(** All nodes have a rank; the settled ones are where their particles are; the others where most of the
    data they send goes. *)
Definition well_placed (n unif : nat) (rank_map : list Z) (nodes : list dnode) (edges : list edge) (weight : edge -> Z)
    (settled : dnode -> Prop) (L : dnode -> Z) : Prop :=
  forall x, In x nodes -> in_range n (L x) /\
    (settled x -> L x = home rank_map unif (snd (fst x))) /\
    (~ settled x -> heaviest n L weight (leaving x edges) (L x)).
