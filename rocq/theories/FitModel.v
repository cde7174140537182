(** The expansions the operations of a DAG make, and the memory of their views. *)
From Coq Require Import ZArith List Bool Arith.
From Verif Require Import Base IndexModel TreeModel LookupModel GeomModel DagModel MergeShiftModel.
Import ListNotations.
Open Scope Z_scope.

(** include/builtins/laplace.h, yukawa.h, helmholtz.h, laplace_com.h, laplace_com_acc.h and
    demo/user/user_expansion.h.  [S_to_M], [S_to_L] and [S_to_T] of the last take pointers to
    non-const sources, while expansionlco.h:200-232 and targetlco.h:199 pass pointers to const
    ones; it is modelled as if it took const sources like the other five. *)
Inductive expansion := Laplace | Yukawa | Helmholtz | LaplaceCOM | LaplaceCOMAcc | User.
(** types.h:65-71 [ExpansionRole] *)
Inductive role := SourcePrimary | SourceIntermediate | TargetPrimary | TargetIntermediate.

(** Where the bytes of a view are: in a block of the heap or inside a message. *)
Inductive ptr := Block (n : nat) | InMessage (n : nat).
Definition view : Type := Z * ptr.
(** The blocks in use, and the number of the next one. *)
Record heap := mkHeap { next : nat; live : list nat }.

(** [new char[bytes]], [k] times *)
Definition new (k : nat) (h : heap) : heap * list ptr :=
  (mkHeap (next h + k) (seq (next h) k ++ live h), map Block (seq (next h) k)).
(** [delete []]: of a block in use only. *)
Definition delete (h : heap) (p : ptr) : res heap :=
  match p with
  | Block n => if in_dec Nat.eq_dec n (live h) then Ok (mkHeap (next h) (remove Nat.eq_dec n (live h))) else Fail BadOp
  | InMessage _ => Fail BadOp
  end.

(** The views added by the constructor with a role (laplace.h:87-113, yukawa.h:90-118,
    helmholtz.h:53-106), in the order in which they are added.  The center of mass expansions
    (laplace_com.h:72-86, laplace_com_acc.h:71-86) and the one of the demo
    (user_expansion.h:89-99) have one block for each role. *)
Definition views_of (x : expansion) (r : role) : list Z :=
  let upto n := map Z.of_nat (seq 0 n) in
  match x, r with
  | Laplace, SourceIntermediate | Yukawa, SourceIntermediate => upto 6%nat
  | Laplace, TargetIntermediate | Yukawa, TargetIntermediate => upto 28%nat
  | Helmholtz, SourceIntermediate => upto 9%nat
  | Helmholtz, TargetIntermediate => upto 56%nat
  | _, _ => [0]
  end.
Definition construct (x : expansion) (r : role) (h : heap) : heap * list view :=
  let (h, ps) := new (length (views_of x r)) h in (h, combine (views_of x r) ps).
(** The destructors (laplace.h:117-124, yukawa.h:122-129, helmholtz.h:110-117,
    laplace_com.h:98-103): every view the object has. *)
Definition destroy (h : heap) (vs : list view) : res heap := foldM (fun h v => delete h (snd v)) vs h.
(** [release()] (laplace.h:126, laplace_com.h:105-107) *)
Definition release (vs : list view) : list view := [].

(** The tags of the row of the merge and shift table an [I_to_I] goes through. *)
Definition tags (x : expansion) (s t : index) : res (list Z) :=
  match x with
  | Laplace => do ps <- i_to_i Lap s t; Ok (map p_tag ps)
  | Yukawa => do ps <- i_to_i Yuk s t; Ok (map p_tag ps)
  | _ => do _ <- i_to_i HelEvan s t; do ps <- i_to_i HelProp s t; Ok (map p_tag ps)
  end.
(** The views of one tag: one, or for Helmholtz the propagating and the evanescent one. *)
Definition of_tag (x : expansion) (tag : Z) : list Z :=
  match x with Helmholtz => [2 * tag; 2 * tag + 1] | _ => [tag] end.
(** src/laplace.cc:400-447, src/yukawa.cc:642-690, helmholtz.h:683-748: three times one or
    two blocks are taken; those of the tags found become views, and of the others those of
    the second and the third are given back. *)
Definition I_to_I (x : expansion) (s t : index) (h : heap) : res (heap * list view) :=
  let w := length (of_tag x 0) in
  let (h, ps) := new (3 * w) h in
  do l <- tags x s t;
  let vs := combine (flat_map (of_tag x) l) ps in
  do h <- (if (1 <? length l)%nat then Ok h else foldM delete (firstn w (skipn w ps)) h);
  do h <- (if (2 <? length l)%nat then Ok h else foldM delete (skipn (2 * w) ps) h);
  Ok (h, vs).

(** The expansion an operation returns: [None] for those whose body is [return nullptr]
    (yukawa.h:202, helmholtz.h:317 [M_to_L]; laplace_com.h:171,184,188,240,244,248 and
    laplace_com_acc.h:171,184,188,267,271,275 [S_to_L], [M_to_L], [L_to_L], [M_to_I],
    [I_to_I], [I_to_L]; user_expansion.h:263,270,276 [M_to_I], [I_to_I], [I_to_L]).  What is
    written into the views, and the blocks a function takes and gives back while it runs,
    other than those of [I_to_I], are not modelled. *)
Definition make (x : expansion) (op : operation) (s t : index) (h : heap) : res (heap * option (list view)) :=
  let some r := let (h, vs) := construct x r h in Ok (h, Some vs) in
  match op, x with
  | StoM, _ | MtoM, _ => some SourcePrimary
  | StoL, LaplaceCOM | StoL, LaplaceCOMAcc => Ok (h, None)
  | StoL, _ => some TargetPrimary
  | MtoL, Laplace | MtoL, User => some TargetPrimary
  | MtoL, _ => Ok (h, None)
  | LtoL, LaplaceCOM | LtoL, LaplaceCOMAcc => Ok (h, None)
  | LtoL, _ => some TargetPrimary
  | MtoI, Laplace | MtoI, Yukawa | MtoI, Helmholtz => some SourceIntermediate
  | MtoI, _ => Ok (h, None)
  | ItoI, Laplace | ItoI, Yukawa | ItoI, Helmholtz => do r <- I_to_I x s t h; Ok (fst r, Some (snd r))
  | ItoI, _ => Ok (h, None)
  | ItoL, Laplace | ItoL, Yukawa | ItoL, Helmholtz => some TargetPrimary
  | ItoL, _ => Ok (h, None)
  | _, _ => Fail BadOp
  end.

(** dualtree.h:1371-1391,1438-1459: the role of the expansion of a node. *)
Definition role_of (v : dnode) : role :=
  match fst (fst v), snd v with
  | SrcTree, Interm => SourceIntermediate | SrcTree, _ => SourcePrimary
  | TgtTree, Interm => TargetIntermediate | TgtTree, _ => TargetPrimary
  end.

(** The expansions of the LCOs that have been allocated, and the messages on their way: where
    to, and the indices of the views in them. *)
Record state := mkState { mem : heap; held : list (dnode * list view); flying : list (dnode * list Z) }.
Definition start : state := mkState (mkHeap 0 []) [] [].

(** expansionlco.h:256-279 [contribute]: the views are copied into a parcel, and the object is
    deleted when the function is left. *)
Definition contribute (v : dnode) (made : option (list view)) (h : heap) (st : state) : res state :=
  match made with
  | None => Fail NullDeref
  | Some vs => do h <- destroy h vs; Ok (mkState h (held st) (flying st ++ [(v, map fst vs)]))
  end.

(** expansionlco.h:200-234,545-686: serving one edge.  The operations onto targets send the
    expansion or the sources as they are. *)
Definition serve (x : expansion) (e : edge) (st : state) : res state :=
  match eop e with
  | StoT | MtoT | LtoT => Ok st
  | _ => do r <- make x (eop e) (idx_of (snd (fst (efrom e)))) (idx_of (snd (fst (eto e)))) (mem st);
         contribute (eto e) (snd r) (fst r) st
  end.

Definition dnode_eqb (u v : dnode) : bool := if dnode_dec u v then true else false.
Definition data_of (v : dnode) (l : list (dnode * list view)) : option (list view) :=
  match find (fun q => dnode_eqb (fst q) v) l with Some q => Some (snd q) | None => None end.

(** laplace.h:322-337, yukawa.h:279-294, helmholtz.h:1044-1059 [add_expansion]: each view
    coming in is added to the view at the place its index says; the center of mass expansions
    (laplace_com.h:251-290, laplace_com_acc.h:278-320) read the view 0 of both, and the one of
    the demo (user_expansion.h:280-282) reads nothing. *)
Definition add_expansion (x : expansion) (mine incoming : list view) : res unit :=
  match x with
  | User => Ok tt
  | LaplaceCOM | LaplaceCOMAcc => do _ <- nth_resZ mine 0; do _ <- nth_resZ incoming 0; Ok tt
  | _ => foldM (fun _ v => do _ <- nth_resZ mine (fst v); Ok tt) incoming tt
  end.

(** expansionlco.h:337-360 [operation_handler]: the first message allocates the expansion; the
    views of the message stay in the message, and the object made of them is released before
    it is deleted. *)
Definition arrive (x : expansion) (v : dnode) (ixs : list Z) (st : state) : res state :=
  let '(h, mine, hl) := match data_of v (held st) with
    | Some vs => (mem st, vs, held st)
    | None => let (h, vs) := construct x (role_of v) (mem st) in (h, vs, held st ++ [(v, vs)])
    end in
  let incoming := combine ixs (map InMessage (seq 0 (length ixs))) in
  do _ <- add_expansion x mine incoming;
  do h <- destroy h (release incoming);
  Ok (mkState h hl (flying st)).

(** What can happen next: some edge is served, or one of the messages arrives. *)
Inductive event := Serve (e : edge) | Arrive (k : nat).
Definition step (x : expansion) (st : state) (ev : event) : res state :=
  match ev with
  | Serve e => serve x e st
  | Arrive k => match nth_error (flying st) k with
    | None => Ok st
    | Some (v, ixs) => arrive x v ixs (mkState (mem st) (held st) (firstn k (flying st) ++ skipn (S k) (flying st)))
    end
  end.
Definition evaluate (x : expansion) (evs : list event) : res state := foldM (step x) evs start.

(** The deletion of the data of all LCOs (see C99). *)
Definition finish (st : state) : res heap := foldM destroy (map snd (held st)) (mem st).
