(** Model of [group_points_on_unif_grid_handler], include/dashmm/tree.h:664-710. *)
From Coq Require Import ZArith List.
From Verif Require Import Base.
Import ListNotations.
Local Open Scope Z_scope.

Section Group.
Variable Record : Type.

(** tree.h:670-675: [new int[dim3]()], [offset[0] = 0] and the prefix sums. *)
Definition initial_offsets (dim3 : Z) (count : list Z) : res (list Z) :=
  do offset <- set_resZ (repeat 0 (Z.to_nat dim3)) 0 0;
  foldM (fun offset i =>
    do o <- nth_resZ offset (i - 1);
    do c <- nth_resZ count (i - 1);
    set_resZ offset i (o + c)) (zseq 1 (Z.to_nat (dim3 - 1))) offset.

(** tree.h:679-683: gid becomes the final location; offset advances. *)
Definition final_locations (npts : Z) (gid offset : list Z) : res (list Z * list Z) :=
  foldM (fun st i =>
    let '(gid, offset) := st in
    do g <- nth_resZ gid i;
    do o <- nth_resZ offset g;
    do gid' <- set_resZ gid i o;
    do offset' <- set_resZ offset g (o + 1);
    Ok (gid', offset')) (zseq 0 (Z.to_nat npts)) (gid, offset).

(** tree.h:690-699: the body of the while loop. *)
Definition swap_step (p : list Record) (gid : list Z) (i : Z) : res (list Record * list Z) :=
  do gi <- nth_resZ gid i;
  do save <- nth_resZ p gi;
  do idx <- nth_resZ gid gi;
  do pi <- nth_resZ p i;
  do p <- set_resZ p gi pi;
  do gid <- set_resZ gid gi gi;
  do gid <- set_resZ gid i idx;
  do p <- set_resZ p i save;
  Ok (p, gid).

(** tree.h:690: [while (gid_of_points[i] != i)].  Not finishing within the fuel
    is a failure. *)
Fixpoint cycle_loop (fuel : nat) (p : list Record) (gid : list Z) (i : Z)
  : res (list Record * list Z) :=
  do gi <- nth_resZ gid i;
  if gi =? i then Ok (p, gid)
  else match fuel with
       | O => Fail OutOfFuel
       | S fuel' => do st <- swap_step p gid i; let '(p, gid) := st in cycle_loop fuel' p gid i
       end.

(** tree.h:689-700: the rearrangement loop. *)
Definition rearrange (npts : Z) (p : list Record) (gid : list Z) : res (list Record * list Z) :=
  foldM (fun st i => let '(p, gid) := st in cycle_loop (Z.to_nat npts) p gid i)
    (zseq 0 (Z.to_nat npts)) (p, gid).

(** tree.h:703-705: undo the advance of [offset]. *)
Definition correct_offsets (dim3 : Z) (offset count : list Z) : res (list Z) :=
  foldM (fun offset i =>
    do o <- nth_resZ offset i;
    do c <- nth_resZ count i;
    set_resZ offset i (o - c)) (zseq 0 (Z.to_nat dim3)) offset.

(** tree.h:664-710: the whole handler; returns the records and [*retval]. *)
Definition group_points (p_in : list Record) (npts dim3 : Z) (gid_of_points count : list Z)
  : res (list Record * list Z) :=
  do offset <- initial_offsets dim3 count;
  do st <- final_locations npts gid_of_points offset;
  let '(gid, offset) := st in
  do st <- rearrange npts p_in gid;
  let '(p, _) := st in
  do offset <- correct_offsets dim3 offset count;
  Ok (p, offset).

End Group.
