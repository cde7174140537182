(** The built-in methods: include/builtins/{direct,bh,fmm,fmm97}_method.h. *)
From Coq Require Import ZArith List Bool Arith.
From Verif Require Import Base IndexModel TreeModel TreeFacts LookupModel DagModel.
Import ListNotations.
Open Scope nat_scope.

Section Methods.
Context {A B : Type}.
Let snode := (path * tree A)%type.
Let tnode := (path * tree B)%type.
Definition src (p : path) : owner := (SrcTree, p).
Definition tgt (p : path) : owner := (TgtTree, p).
Definition nil_list {X} (l : list X) : bool := match l with [] => true | _ => false end.

(** The do-while loop of Direct and BH: [step] says what one element of [consider] gives
    in DAG actions and in elements of [newcons]. *)
Fixpoint rounds (step : snode -> list act * list snode) (fuel : nat) (leaf : bool) (consider : list snode) : res (list act * list snode) :=
  match fuel with
  | O => Fail OutOfFuel
  | S fuel' =>
    let acts := flat_map (fun s => fst (step s)) consider in
    let newcons := flat_map (fun s => snd (step s)) consider in
    if leaf && negb (nil_list newcons) then
      do r <- rounds step fuel' leaf newcons;
      Ok (acts ++ fst r, snd r)
    else Ok (acts, newcons)
  end.

(** direct_method.h:58-61, 64, 67-72, 75-100, 109-112 *)
Definition direct_step (curr : tnode) (leaf : bool) (s : snode) : list act * list snode :=
  if is_leaf (snd s) then
    if leaf then ([do_StoT (tgt (fst curr)) (src (fst s))], []) else ([], [s])
  else ([], children s).
Definition direct (fuel : nat) : method A B := {|
  generate := fun n => [add_parts (src (fst n))];
  aggregate := fun _ => [];
  inherit := fun n _ leaf => if leaf then [add_parts (tgt (fst n))] else [];
  process := fun n consider leaf => rounds (direct_step n leaf) fuel leaf consider;
  refine_test := fun _ _ _ => true |}.

(** bh_method.h:70-75, 79-88, 91-96, 99-139, 142-145.  [accept] is the outcome of the
    acceptance test of lines 107-110, which depends on the two indices only. *)
Definition bh_step (accept : path -> path -> bool) (curr : tnode) (leaf : bool) (s : snode) : list act * list snode :=
  if accept (fst s) (fst curr) then
    if negb leaf then ([], [s]) else ([do_MtoT (src (fst s)) (tgt (fst curr))], [])
  else if is_leaf (snd s) then
    if leaf then ([do_StoT (tgt (fst curr)) (src (fst s))], []) else ([], [s])
  else ([], children s).
Definition bh (accept : path -> path -> bool) (fuel : nat) : method A B := {|
  generate := fun n => [add_parts (src (fst n)); add_normal (src (fst n)); do_StoM (src (fst n)) (src (fst n))];
  aggregate := fun n => add_normal (src (fst n)) :: map (fun k => do_MtoM (src (fst n)) (src (fst k))) (children n);
  inherit := fun n _ leaf => if leaf then [add_parts (tgt (fst n))] else [];
  process := fun n consider leaf => rounds (bh_step accept n leaf) fuel leaf consider;
  refine_test := fun _ _ _ => true |}.

(** fmm_method.h:186-193 and fmm97_method.h:213-220 *)
Definition well_sep (s t : index) : bool :=
  ((1 <? Z.abs (ix s - ix t)) || (1 <? Z.abs (iy s - iy t)) || (1 <? Z.abs (iz s - iz t)))%Z.
(** fmm_method.h:172-184 and fmm97_method.h:199-211.  Both callers have delta >= 0. *)
Definition well_sep_asym (smaller larger : index) : bool :=
  let delta := (ilevel smaller - ilevel larger)%Z in
  let shift := (Z.shiftl 1 delta - 1)%Z in
  let lx := Z.shiftl (ix larger) delta in
  let ly := Z.shiftl (iy larger) delta in
  let lz := Z.shiftl (iz larger) delta in
  ((1 <? lx - ix smaller) || (1 <? ix smaller - (lx + shift))
   || (1 <? ly - iy smaller) || (1 <? iy smaller - (ly + shift))
   || (1 <? lz - iz smaller) || (1 <? iz smaller - (lz + shift)))%Z.

(** fmm_method.h:195-213 and fmm97_method.h:222-239 *)
Fixpoint proc_coll_recur (fuel : nat) (curr : path) (s : snode) : res (list act) :=
  match fuel with
  | O => Fail OutOfFuel
  | S fuel' =>
    if well_sep_asym (idx_of (fst s)) (idx_of curr) then Ok [do_MtoT (src (fst s)) (tgt curr)]
    else if is_leaf (snd s) then Ok [do_StoT (tgt curr) (src (fst s))]
    else do l <- mapM (proc_coll_recur fuel' curr) (children s); Ok (concat l)
  end.

(** fmm_method.h:155-170 and fmm97_method.h:182-197 *)
Definition fmm_refine (same : bool) (curr : tnode) (consider : list snode) : bool :=
  same || existsb (fun s => (ilevel (idx_of (fst s)) =? ilevel (idx_of (fst curr)))%Z
                            && negb (well_sep (idx_of (fst s)) (idx_of (fst curr))) && negb (is_leaf (snd s))) consider.

(** The elements of [newcons] for a neighbour at the same level (fmm_method.h:135-148). *)
Definition descend (s : snode) : list snode := match children s with [] => [s] | ch => ch end.

(** fmm_method.h:103-117: one element of [consider] at a target leaf. *)
Definition fmm_leaf (fuel : nat) (curr : path) (s : snode) : res (list act) :=
  if (ilevel (idx_of (fst s)) <? ilevel (idx_of curr))%Z then
    if well_sep_asym (idx_of curr) (idx_of (fst s)) then Ok [do_StoL (tgt curr) (src (fst s))]
    else Ok [do_StoT (tgt curr) (src (fst s))]
  else if well_sep (idx_of (fst s)) (idx_of curr) then Ok [do_MtoL (tgt curr) (src (fst s))]
  else proc_coll_recur fuel curr s.
(** fmm_method.h:124-149: the same at an inner target node. *)
Definition fmm_inner (curr : path) (s : snode) : list act * list snode :=
  if (ilevel (idx_of (fst s)) <? ilevel (idx_of curr))%Z then
    if well_sep_asym (idx_of curr) (idx_of (fst s)) then ([do_StoL (tgt curr) (src (fst s))], [])
    else ([], [s])
  else if well_sep (idx_of (fst s)) (idx_of curr) then ([do_MtoL (tgt curr) (src (fst s))], [])
  else ([], descend s).
Definition level (n : path) : Z := ilevel (idx_of n).
Definition parent_of (p : path) : path := removelast p.

(** fmm_method.h:53-63, 65-76, 78-92, 94-153 *)
Definition fmm (fuel : nat) : method A B := {|
  generate := fun n => add_parts (src (fst n)) ::
    if (2 <=? level (fst n))%Z then [add_normal (src (fst n)); do_StoM (src (fst n)) (src (fst n))] else [];
  aggregate := fun n =>
    if (2 <=? level (fst n))%Z then add_normal (src (fst n)) :: map (fun k => do_MtoM (src (fst n)) (src (fst k))) (children n) else [];
  inherit := fun n _ leaf =>
    (if leaf then [add_parts (tgt (fst n))] else []) ++
    (if (2 <=? level (fst n))%Z then add_normal (tgt (fst n)) ::
       (if (3 <=? level (fst n))%Z then [do_LtoL (tgt (fst n)) (tgt (parent_of (fst n)))] else []) else []);
  process := fun n consider leaf =>
    if leaf then
      do l <- mapM (fmm_leaf fuel (fst n)) consider;
      Ok (concat l ++ (if (2 <=? level (fst n))%Z then [do_LtoT (tgt (fst n)) (tgt (fst n))] else []), consider)
    else Ok (flat_map (fun s => fst (fmm_inner (fst n) s)) consider, flat_map (fun s => snd (fmm_inner (fst n) s)) consider);
  refine_test := fmm_refine |}.

(** fmm97_method.h:115-129 *)
Definition fmm97_leaf (fuel : nat) (curr : path) (s : snode) : res (list act) :=
  if (ilevel (idx_of (fst s)) <? ilevel (idx_of curr))%Z then
    if well_sep_asym (idx_of curr) (idx_of (fst s)) then Ok [do_StoL (tgt curr) (src (fst s))]
    else Ok [do_StoT (tgt curr) (src (fst s))]
  else if negb (well_sep (idx_of (fst s)) (idx_of curr)) then proc_coll_recur fuel curr s
  else Ok [].
(** fmm97_method.h:138-170: DAG actions, [newcons], [merge]. *)
Definition fmm97_inner (curr : path) (s : snode) : list act * list snode * list snode :=
  if (ilevel (idx_of (fst s)) <? ilevel (idx_of curr))%Z then
    if well_sep_asym (idx_of curr) (idx_of (fst s)) then ([do_StoL (tgt curr) (src (fst s))], [], [])
    else ([], [s], [])
  else if negb (well_sep (idx_of (fst s)) (idx_of curr)) then
    let do_I2I := ((1 <=? level curr) && (negb (ix (idx_of (fst s)) =? ix (idx_of curr)) ||
                   negb (iy (idx_of (fst s)) =? iy (idx_of curr)) || negb (iz (idx_of (fst s)) =? iz (idx_of curr))))%Z in
    ([], descend s, if do_I2I then children s else [])
  else ([], [], []).

(** fmm97_method.h:53-67, 69-84, 86-104, 106-182 *)
Definition fmm97 (fuel : nat) : method A B := {|
  generate := fun n => add_parts (src (fst n)) ::
    if (2 <=? level (fst n))%Z then
      [add_normal (src (fst n)); do_StoM (src (fst n)) (src (fst n)); add_interm (src (fst n)); do_MtoI (src (fst n)) (src (fst n))] else [];
  aggregate := fun n =>
    if (2 <=? level (fst n))%Z then
      add_normal (src (fst n)) :: map (fun k => do_MtoM (src (fst n)) (src (fst k))) (children n)
      ++ [add_interm (src (fst n)); do_MtoI (src (fst n)) (src (fst n))] else [];
  inherit := fun n parent_interm leaf =>
    (if leaf then [add_parts (tgt (fst n))] else []) ++
    (if (2 <=? level (fst n))%Z then add_normal (tgt (fst n)) ::
       (if parent_interm then [do_ItoL (tgt (fst n)) (tgt (parent_of (fst n)))] else []) ++
       (if (3 <=? level (fst n))%Z then [do_LtoL (tgt (fst n)) (tgt (parent_of (fst n)))] else []) else []);
  process := fun n consider leaf =>
    if leaf then
      do l <- mapM (fmm97_leaf fuel (fst n)) consider;
      Ok (concat l ++ (if (2 <=? level (fst n))%Z then [do_LtoT (tgt (fst n)) (tgt (fst n))] else []), consider)
    else
      let merge := flat_map (fun s => snd (fmm97_inner (fst n) s)) consider in
      Ok (flat_map (fun s => fst (fst (fmm97_inner (fst n) s))) consider ++
          (if nil_list merge then [] else add_interm (tgt (fst n)) :: map (fun s => do_ItoI (tgt (fst n)) (src (fst s))) merge),
          flat_map (fun s => snd (fst (fmm97_inner (fst n) s))) consider);
  refine_test := fmm_refine |}.
End Methods.
