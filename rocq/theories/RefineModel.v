(** Adaptive refinement of a node (include/dashmm/node.h). *)
From Coq Require Import ZArith List Bool Arith.
From Verif Require Import Base IndexModel TreeModel.
Import ListNotations.
Open Scope nat_scope.

Inductive axis := AX | AY | AZ.

Section Refine.
(** The record type. *)
Context {R : Type}.

(** node.h:475-483: [a.position.x() < center_x] and so on.  The centre depends on
    the domain and on the node's index.  The test is a parameter: the results
    hold for the rounded tests of the program and for exact ones alike. *)
Variable low : axis -> index -> R -> bool.

(** node.h:485-509: one call of [std::partition], or of [std::partition_point]
    when [same_sandt] is set.  The first argument names the call (node index and
    the number of the split computed); the result is the contents of the range
    before and after the returned iterator.  What the two library functions
    promise is stated in RefineSpec. *)
Variable part : index -> nat -> (R -> bool) -> list R -> list R * list R.

(** [(size_t)threshold] *)
Variable thr : nat.

(** node.h:471-509: the contents of the ranges [splits[w], splits[w+1]). *)
Definition split8 (i : index) (l : list R) : list (list R) :=
  let '(z0, z1) := part i 4 (low AZ i) l in
  let '(y0, y1) := part i 2 (low AY i) z0 in
  let '(y2, y3) := part i 6 (low AY i) z1 in
  let '(x0, x1) := part i 1 (low AX i) y0 in
  let '(x2, x3) := part i 3 (low AX i) y1 in
  let '(x4, x5) := part i 5 (low AX i) y2 in
  let '(x6, x7) := part i 7 (low AX i) y3 in
  [x0; x1; x2; x3; x4; x5; x6; x7].

(** Index and [parts]: position of the first record in the array, and count. *)
Record rnode := mkR { r_idx : index; r_off : nat; r_cnt : nat }.

(** node.h:511-534: the loop creating the children.  [w] is the loop counter, [off]
    the position [offset[w]] in the whole array, [rec] the task started for a
    child.  Children own disjoint ranges, so the tasks are run in order here;
    the result is the list of children and the final contents of the ranges. *)
Fixpoint build (rec : index -> nat -> list R -> res (tree rnode * list R)) (i : index) (w : nat) (off : nat)
    (ps : list (list R)) : res (list (option (tree rnode)) * list R) :=
  match ps with
  | [] => Ok ([], [])
  | p :: ps' =>
      do a <- match p with
              | [] => Ok (None, [])
              | _ => do tr <- rec (child (Z.of_nat w) i) off p; Ok (Some (fst tr), snd tr)
              end;
      do b <- build rec i (S w) (off + length p) ps';
      Ok (fst a :: fst b, snd a ++ snd b)
  end.

(** node.h:443-536 [partition_node_handler].  The completion LCOs are modelled in
    GateModel.  [fuel] bounds the depth. *)
Fixpoint refine (fuel : nat) (i : index) (off : nat) (l : list R) : res (tree rnode * list R) :=
  do _ <- assert_ (1 <=? length l);
  if length l <=? thr then Ok (T (mkR i off (length l)) no_kids, l)
  else match fuel with
  | O => Fail OutOfFuel
  | S fuel' =>
      do b <- build (refine fuel') i 0 off (split8 i l);
      Ok (T (mkR i off (length l)) (fst b), snd b)
  end.
End Refine.

(** node.h:485-494: [std::partition_point] moves nothing; the ranges before and
    after the returned position. *)
Definition part_of_point {R} (pp : (R -> bool) -> list R -> nat) : index -> nat -> (R -> bool) -> list R -> list R * list R :=
  fun _ _ f l => (firstn (pp f l) l, skipn (pp f l) l).

(** Exact versions of the tests, for integer coordinates (every finite set of
    doubles is a set of integers after scaling by a power of two):
    [a < low + (idx + 1/2) * size / 2^level], node.h:464-467. *)
Definition exact_low {R} (pos : axis -> R -> Z) (lo : axis -> Z) (size : Z) (ax : axis) (i : index) (r : R) : bool :=
  let k := match ax with AX => ix i | AY => iy i | AZ => iz i end in
  ((pos ax r - lo ax) * 2 ^ (ilevel i + 1) <? (2 * k + 1) * size)%Z.
