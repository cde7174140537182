(** The program that makes the reference data of the tests, test/makepoints/makepoints.cc.
    Doubles are real numbers; srand(123456) starts the same sequence in every run, of which
    [rand i] is the i-th number.  What S_to_T adds to a target is a parameter.  The writing of
    the records is [make_file] of ToolsModel. *)
From Coq Require Import Ascii String.
From Coq Require Import ZArith Reals List Bool.
From Verif Require Import Base BasicModel ToolsModel.
Import ListNotations.
Open Scope Z_scope.

(** makepoints.cc:51-55 and 72-74 *)
Record input := mkIn { i_type : string; i_kernel : string; i_single : bool }.
Definition defaults : input := mkIn "cube" "laplace" false.
(** What getopt_long returns; [OBad] is '?' *)
Inductive opt := OData (s : string) | OKernel (s : string) | OSingle (s : string) | OHelp | OBad.
(** makepoints.cc:86-112 the loop; [None] is return -1 *)
Fixpoint read_options (a : input) (l : list opt) : option input :=
  match l with
  | [] => Some a
  | OData s :: l => read_options (mkIn s (i_kernel a) (i_single a)) l
  | OKernel s :: l => read_options (mkIn (i_type a) s (i_single a)) l
  | OSingle s :: l => read_options (mkIn (i_type a) (i_kernel a) (s =? "yes")%string) l
  | OHelp :: _ | OBad :: _ => None
  end.
(** makepoints.cc:115-120 *)
Definition accepted (a : input) : bool :=
  negb (negb (i_type a =? "cube")%string && negb (i_type a =? "sphere")%string && negb (i_type a =? "plummer")%string).
(** makepoints.cc:70-129 read_arguments *)
Definition read_arguments (l : list opt) : option input :=
  match read_options defaults l with None => None | Some a => if accepted a then Some a else None end.

(** stdlib.h of glibc *)
Definition rand_max : Z := 2147483647.

Section Run.
Variable rand : nat -> Z.
Definition draw (i : nat) : R := (IZR (rand i) / IZR rand_max)%R.
(** makepoints.cc:132-138 and 141-151: the same formulas as in testmain.cc; the second
    component is the number of numbers drawn so far *)
Definition cube_position (i : nat) : point * nat := (pick_cube_position (draw i) (draw (S i)) (draw (S (S i))), S (S (S i))).
Definition sphere_position (i : nat) : point * nat := (pick_sphere_position (draw i) (draw (S i)), S (S i)).
(** makepoints.cc:154-160 pick_charge: a single sign draws one number only *)
Definition charge_of (single : bool) (i : nat) : R * nat :=
  let retval := (draw i + 1)%R in
  if single then (retval, S i)
  else ((if Z.odd (rand (S i)) then (retval * -1)%R else retval), S (S i)).

(** common.h:19-23 and makepoints.cc:44-48: the position of a new record is the origin
    (point.h:34) and phi is 0; [None] is a member never set *)
Record psrc := mkP { p_pos : point; p_charge : option R; p_index : option Z }.
Record ptgt := mkQ { q_pos : point; q_phi : cpx; q_index : option Z }.
Definition origin : point := (0%R, 0%R, 0%R).
Definition zero : cpx := (0%R, 0%R).

(** makepoints.cc:166-170, 173-177: the loops, from record [k] on *)
Fixpoint fill_sources (pick : nat -> point * nat) (single : bool) (n : nat) (k : Z) (i : nat) : list psrc * nat :=
  match n with
  | O => ([], i)
  | S n =>
      let '(p, i1) := pick i in
      let '(q, i2) := charge_of single i1 in
      let '(l, j) := fill_sources pick single n (k + 1) i2 in
      (mkP p (Some q) (Some k) :: l, j)
  end.
(** makepoints.cc:163-186 *)
Definition set_sources (n : nat) (type : string) (single : bool) (i : nat) : list psrc * nat :=
  if (type =? "cube")%string then fill_sources cube_position single n 0 i
  else if (type =? "sphere")%string then fill_sources sphere_position single n 0 i
  else (repeat (mkP origin None None) n, i).
(** makepoints.cc:193-197, 200-204 *)
Fixpoint fill_targets (pick : nat -> point * nat) (n : nat) (k : Z) (i : nat) : list ptgt * nat :=
  match n with
  | O => ([], i)
  | S n =>
      let '(p, i1) := pick i in
      let '(l, j) := fill_targets pick n (k + 1) i1 in
      (mkQ p zero (Some k) :: l, j)
  end.
(** makepoints.cc:189-213 *)
Definition set_targets (n : nat) (type : string) (i : nat) : list ptgt * nat :=
  if (type =? "cube")%string then fill_targets cube_position n 0 i
  else if (type =? "sphere")%string then fill_targets sphere_position n 0 i
  else (repeat (mkQ origin zero None) n, i).

(** makepoints.cc:294 *)
Definition domain_size (is_cube_data : bool) : R := if is_cube_data then 1%R else 2%R.

(** makepoints.cc:311-312 *)
Definition points (ns nt : nat) (a : input) : list psrc * list ptgt :=
  let '(ss, i) := set_sources ns (i_type a) (i_single a) 0 in
  let '(ts, _) := set_targets nt (i_type a) i in
  (ss, ts).

(** makepoints.cc:233-238 *)
Definition fname (kernel shape : string) (single : bool) : string :=
  ("prepared." ++ kernel ++ "." ++ shape ++ (if single then ".single.dat" else ".dat"))%string.

(** The charge of every source, if all charges and indices have been set *)
Fixpoint settled (l : list psrc) : option (list (point * R)) :=
  match l with
  | [] => Some []
  | mkP p (Some q) (Some _) :: l => match settled l with Some r => Some ((p, q) :: r) | None => None end
  | _ => None
  end.
Fixpoint placed (l : list ptgt) : option (list (point * cpx)) :=
  match l with
  | [] => Some []
  | mkQ p v (Some _) :: l => match placed l with Some r => Some ((p, v) :: r) | None => None end
  | _ => None
  end.

(** How a run ends: refused, or a file of that name, or an exception nobody catches after the
    file has been opened, or undefined behaviour: a name too long for its 300 characters, or a
    value that was never set *)
Inductive result := Refused | Wrote (name : string) (f : file) | Uncaught (name : string) (e : exn) | LongName | Unset.

(** What S_to_T of the three kernels adds to the potential at a point: laplace.h:282-297,
    yukawa.h:236-252, helmholtz.h:480-497 *)
Variable pot : string -> list (point * R) -> point -> cpx.
(** makepoints.cc:315-330: no kernel of that name, nothing added *)
Definition evaluate (kernel : string) (ss : list (point * R)) (t : point * cpx) : point * cpx :=
  if (kernel =? "laplace")%string || (kernel =? "yukawa")%string || (kernel =? "helmholtz")%string
  then let v := pot kernel ss (fst t) in (fst t, ((fst (snd t) + fst v)%R, (snd (snd t) + snd v)%R))
  else t.
(** makepoints.cc:216-290 and 308-338; [checks] is false if the program has been compiled with
    NDEBUG: the calls of fwrite are inside of assert, so nothing is written *)
Definition compute_potential (checks : bool) (ns nt : nat) (a : input) : result :=
  let '(ss, ts) := points ns nt a in
  match settled ss, placed ts with
  | Some s, Some t =>
      let name := fname (i_kernel a) (i_type a) (i_single a) in
      if (300 <=? String.length name)%nat then LongName
      else match make_file (i_kernel a) s (map (evaluate (i_kernel a) s) t) with
           | Done f => Wrote name (if checks then f else mkFile None [] [])
           | Throw e => Uncaught name e
           end
  | _, _ => Unset
  end.
(** makepoints.cc:341-351 main; the value returned is 0 in any case.  The numbers of sources
    and targets are 1000000 (lines 36-37) *)
Definition main (checks : bool) (ns nt : nat) (l : list opt) : result :=
  match read_arguments l with
  | None => Refused
  | Some a => compute_potential checks ns nt a
  end.
End Run.
