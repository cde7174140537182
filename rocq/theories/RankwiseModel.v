(** RankWise and RankLocal (include/dashmm/rankwise.h:30-202).
    One machine with [num_ranks] ranks.  A global allocation is a block with one cell for each
    rank; a cell can be pinned only on its rank.  Every RankLocal object is a variable of some
    thread; a list of operations is any interleaving of the threads of all ranks.
    Simplified: a failing pin means that the cell is on another rank, as the comment of the
    constructor assumes (rankwise.h:45-46); hpx_gas_calloc_cyclic does not fail. *)
From Coq Require Import ZArith List Bool Arith.
From Verif Require Import Base.
Import ListNotations.
Open Scope Z_scope.

Section Rankwise.
  Context {T : Type} (zero : T) (num_ranks : Z).

  (** A block and the rank of one of its cells *)
  Definition gaddr : Type := (nat * Z)%type.
  Definition gaddr_eqb (a b : gaddr) : bool := Nat.eqb (fst a) (fst b) && (snd a =? snd b).
  (** What local_ points to: the cell itself or a registered copy *)
  Inductive place := Cell (a : gaddr) | Copy (c : nat).
  (** rankwise.h:114-116 *)
  Record rank_local := mkLocal { local_ : option place; global_ : option gaddr; remote_ : bool }.
  (** Blocks and registered copies; freed ones are None *)
  Record world := mkWorld { blocks : list (option (list T)); pins : gaddr -> Z; copies : list (option T); locals : list (option rank_local); wises : list (option nat) }.

  Definition with_blocks (w : world) x := mkWorld x (pins w) (copies w) (locals w) (wises w).
  Definition with_pins (w : world) x := mkWorld (blocks w) x (copies w) (locals w) (wises w).
  Definition with_copies (w : world) x := mkWorld (blocks w) (pins w) x (locals w) (wises w).
  Definition with_locals (w : world) x := mkWorld (blocks w) (pins w) (copies w) x (wises w).
  Definition with_wises (w : world) x := mkWorld (blocks w) (pins w) (copies w) (locals w) x.

  (** The runtime *)
  Definition block (w : world) (b : nat) : res (list T) :=
    do x <- nth_res (blocks w) b; match x with Some l => Ok l | None => Fail BadOp end.
  Definition load (w : world) (a : gaddr) : res T := do l <- block w (fst a); nth_resZ l (snd a).
  Definition pin (w : world) (a : gaddr) : world := with_pins w (fun x => pins w x + if gaddr_eqb x a then 1 else 0).
  (** hpx_gas_unpin of an address that has been freed or is not pinned is an error *)
  Definition unpin (w : world) (a : gaddr) : res world :=
    do _ <- load w a;
    if 0 <? pins w a then Ok (with_pins w (fun x => pins w x - if gaddr_eqb x a then 1 else 0)) else Fail BadOp.
  Definition copy (w : world) (c : nat) : res T :=
    do x <- nth_res (copies w) c; match x with Some v => Ok v | None => Fail BadOp end.
  Definition free_copy (w : world) (c : nat) : res world :=
    do _ <- copy w c; do l <- set_res (copies w) c None; Ok (with_copies w l).

  (** rankwise.h:40-55 on rank [me]; [room] tells whether hpx_malloc_registered succeeds *)
  Definition local_new (w : world) (me : Z) (g : option gaddr) (room : bool) : res (world * rank_local) :=
    match g with
    | None => Ok (w, mkLocal None None false)
    | Some a =>
        do v <- load w a;
        if snd a =? me then Ok (pin w a, mkLocal (Some (Cell a)) g false)
        else if room then Ok (with_copies w (copies w ++ [Some v]), mkLocal (Some (Copy (length (copies w)))) g true)
        else Ok (w, mkLocal None None false)
    end.
  (** rankwise.h:58-68 *)
  Definition local_end (w : world) (o : rank_local) : res world :=
    match local_ o with
    | None => Ok w
    | Some p =>
        if remote_ o then match p with Copy c => free_copy w c | Cell _ => Fail BadOp end
        else match global_ o with Some a => unpin w a | None => Fail BadOp end
    end.
  (** rankwise.h:75-82: the new object and the one moved from *)
  Definition local_move (o : rank_local) : rank_local * rank_local := (mkLocal (local_ o) (global_ o) (remote_ o), mkLocal None None false).
  (** rankwise.h:85-92: the stores of the assignment; what was held before is dropped *)
  Definition local_assign (target o : rank_local) : rank_local * rank_local := (mkLocal (local_ o) (global_ o) (remote_ o), mkLocal None None false).
  (** rankwise.h:96 *)
  Definition local_valid (o : rank_local) : bool := match global_ o, local_ o with Some _, Some _ => true | _, _ => false end.
  (** rankwise.h:106-111: reading and writing through the object *)
  Definition local_read (w : world) (o : rank_local) : res T :=
    match local_ o with None => Fail NullDeref | Some (Cell a) => load w a | Some (Copy c) => copy w c end.
  Definition local_write (w : world) (o : rank_local) (v : T) : res world :=
    match local_ o with
    | None => Fail NullDeref
    | Some (Cell a) => do l <- block w (fst a); do l' <- set_resZ l (snd a) v; do bs <- set_res (blocks w) (fst a) (Some l'); Ok (with_blocks w bs)
    | Some (Copy c) => do _ <- copy w c; do l <- set_res (copies w) c (Some v); Ok (with_copies w l)
    end.

  (** rankwise.h:152-155, 158-162: the data_ of an object before and after *)
  Definition wise_allocate (w : world) (d : option nat) : res (world * option nat) :=
    do _ <- assert_ (match d with None => true | Some _ => false end);
    Ok (with_blocks w (blocks w ++ [Some (repeat zero (Z.to_nat num_ranks))]), Some (length (blocks w))).
  Definition wise_destroy (w : world) (d : option nat) : res (world * option nat) :=
    match d with
    | None => Fail AssertFail
    | Some b => do _ <- block w b; do bs <- set_res (blocks w) b None; Ok (with_blocks w bs, None)
    end.
  (** rankwise.h:195-198 *)
  Definition address_at (d : option nat) (rank : Z) : res (option gaddr) :=
    match d with None => Fail AssertFail | Some b => Ok (Some (b, rank)) end.
  (** rankwise.h:181-191 *)
  Definition there (w : world) (d : option nat) (me rank : Z) (room : bool) : res (world * rank_local) :=
    do g <- address_at d rank; local_new w me g room.
  Definition here (w : world) (d : option nat) (me : Z) (room : bool) : res (world * rank_local) := there w d me me room.

  (** What threads do.  Objects are numbered as they are made; None is one that has ended. *)
  Inductive rop :=
  | WiseNew (d : option nat)                    (* RankWise r{address} *)
  | WiseAllocate (k : nat) | WiseDestroy (k : nat)
  | LocalNew (me : Z) (g : option gaddr) (room : bool)  (* RankLocal x{address} *)
  | LocalThere (me : Z) (k : nat) (rank : Z) (room : bool)   (* auto x = r.there(rank), or here *)
  | LocalMove (i : nat) | LocalAssign (i j : nat) | LocalEnd (i : nat)
  | LocalWrite (i : nat) (v : T).
  Definition the_local (w : world) (i : nat) : res rank_local :=
    do x <- nth_res (locals w) i; match x with Some o => Ok o | None => Fail BadOp end.
  Definition add_local (r : res (world * rank_local)) : res world :=
    do x <- r; let '(w, o) := x in Ok (with_locals w (locals w ++ [Some o])).
  Definition rstep (w : world) (o : rop) : res world :=
    match o with
    | WiseNew d => Ok (with_wises w (wises w ++ [d]))
    | WiseAllocate k => do d <- nth_res (wises w) k; do x <- wise_allocate w d; let '(w', d') := x in do l <- set_res (wises w') k d'; Ok (with_wises w' l)
    | WiseDestroy k => do d <- nth_res (wises w) k; do x <- wise_destroy w d; let '(w', d') := x in do l <- set_res (wises w') k d'; Ok (with_wises w' l)
    | LocalNew me g room => add_local (local_new w me g room)
    | LocalThere me k rank room => do d <- nth_res (wises w) k; add_local (there w d me rank room)
    | LocalMove i => do x <- the_local w i; let '(n, old) := local_move x in do l <- set_res (locals w) i (Some old); Ok (with_locals w (l ++ [Some n]))
    | LocalAssign i j => Fail BadOp   (* rankwise.h:85-92 ends without a return *)
    | LocalEnd i => do x <- the_local w i; do w' <- local_end w x; do l <- set_res (locals w') i None; Ok (with_locals w' l)
    | LocalWrite i v => do x <- the_local w i; local_write w x v
    end.
  Definition rsteps (w : world) (l : list rop) : res world := foldM rstep l w.
  Definition empty_world : world := mkWorld [] (fun _ => 0) [] [] [].

  (** dualtree.h:482-494, seen from rank [me]; the RankWise objects are number [k] (the dual tree)
      and [s] and [t] (the two trees inside it).  The new RankLocal is the last object. *)
  Definition dualtree_destroy (w : world) (me : Z) (k s t : nat) (room : bool) : list rop :=
    let tree := length (locals w) in
    [LocalThere me k me room; WiseDestroy s; WiseDestroy t; WiseDestroy k; LocalEnd tree].
End Rankwise.
Arguments world : clear implicits.
Arguments rop : clear implicits.
