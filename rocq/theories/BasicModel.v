(** The demonstration program demo/basic/testmain.cc.  Doubles are real numbers. *)
From Coq Require Import String.
From Coq Require Import ZArith Reals List Bool.
From Verif Require Import Base.
Import ListNotations.
Open Scope Z_scope.

Definition cpx : Type := (R * R)%type.
Definition point : Type := (R * R * R)%type.
(** testmain.cc:30-33 and 38-42 *)
Record source := mkS { s_pos : point; charge : R }.
Record target := mkT { pos : point; phi : cpx; index : Z }.

(** testmain.cc:68-78 *)
Record arguments := mkArgs { source_count : Z; source_type : string; target_count : Z; target_type : string; refinement_limit : Z; method : string; kernel : string; verify : bool; accuracy : Z }.
(** testmain.cc:108-116 *)
Definition defaults : arguments := mkArgs 10000 "cube" 10000 "cube" 40 "fmm97" "laplace" true 3.
(** What getopt_long returns; numbers as atoi makes them (text that is not a number is 0) *)
Inductive opt := OMethod (s : string) | ONsources (n : Z) | OSourcedata (s : string) | ONtargets (n : Z) | OTargetdata (s : string) | OThreshold (n : Z) | OVerify (s : string) | OAccuracy (n : Z) | OKernel (s : string) | OHelp | OUnknown.
(** testmain.cc:133-172 the loop; [None] is return -1 *)
Definition read_option (a : arguments) (o : opt) : option arguments :=
  let '(mkArgs sc st tc gt rl m k v ac) := a in
  match o with
  | OMethod s => Some (mkArgs sc st tc gt rl s k v ac)
  | ONsources n => Some (mkArgs n st tc gt rl m k v ac)
  | OSourcedata s => Some (mkArgs sc s tc gt rl m k v ac)
  | ONtargets n => Some (mkArgs sc st n gt rl m k v ac)
  | OTargetdata s => Some (mkArgs sc st tc s rl m k v ac)
  | OThreshold n => Some (mkArgs sc st tc gt n m k v ac)
  | OVerify s => Some (mkArgs sc st tc gt rl m k (s =? "yes")%string ac)
  | OAccuracy n => Some (mkArgs sc st tc gt rl m k v n)
  | OKernel s => Some (mkArgs sc st tc gt rl m s v ac)
  | OHelp | OUnknown => None
  end.
Fixpoint read_options (a : arguments) (l : list opt) : option arguments :=
  match l with [] => Some a | o :: l => match read_option a o with Some a => read_options a l | None => None end end.
(** testmain.cc:174-234 the tests of the inputs *)
Definition accepted (a : arguments) : bool :=
  let is := fun x y : string => (x =? y)%string in
  let three_or_six := (accuracy a =? 3) || (accuracy a =? 6) in
  if source_count a <? 1 then false
  else if target_count a <? 1 then false
  else if negb (is (method a) "bh"%string) && negb (is (method a) "fmm"%string) && negb (is (method a) "fmm97"%string) then false
  else if negb (is (source_type a) "cube"%string) && negb (is (source_type a) "sphere"%string) && negb (is (source_type a) "plummer"%string) then false
  else if negb (is (target_type a) "cube"%string) && negb (is (target_type a) "sphere"%string) && negb (is (target_type a) "plummer"%string) then false
  else if is (kernel a) "laplace"%string && is (method a) "fmm97"%string && negb three_or_six then false
  else if is (kernel a) "yukawa"%string && (negb (is (method a) "fmm97"%string) || negb three_or_six) then false
  else if is (kernel a) "helmholtz"%string && (negb (is (method a) "fmm97"%string) || negb three_or_six) then false
  else true.
(** testmain.cc:248-260: the share of one rank *)
Definition dole (ranks rank count : Z) : Z :=
  let share := count / ranks in
  let bonus := count mod ranks in
  if rank <? bonus then share + 1 else share.
(** testmain.cc:106-263 read_arguments *)
Definition read_arguments (ranks rank : Z) (l : list opt) : option arguments :=
  match read_options defaults l with
  | None => None
  | Some a =>
      if accepted a then Some (mkArgs (dole ranks rank (source_count a)) (source_type a) (dole ranks rank (target_count a)) (target_type a) (refinement_limit a) (method a) (kernel a) (verify a) (accuracy a))
      else None
  end.

(** testmain.cc:377-403 set_targets: offset and index *)
Definition index_of (rank count i : Z) : Z := i + count * rank.
Definition set_targets (rank count : Z) (place : Z -> point) : list target :=
  map (fun i => mkT (place i) (0%R, 0%R) (index_of rank count i)) (zseq 0 (Z.to_nat count)).
(** The targets of all ranks after testmain.cc:464; [place rank i] is the position picked for
    the i-th target of a rank *)
Definition all_targets (ranks count : Z) (place : Z -> Z -> point) : list target :=
  flat_map (fun rank => set_targets rank (dole ranks rank count) (place rank)) (zseq 0 (Z.to_nat ranks)).

(** testmain.cc:460-613 perform_evaluation_test: the collective calls of one rank, with the
    arguments that all ranks have to agree on *)
Inductive evaluator := LaplaceBH | LaplaceFMM | LaplaceFMM97 | LaplaceDirect | YukawaFMM97 (p : R) | YukawaDirect (p : R) | HelmholtzFMM97 (p : R) | HelmholtzDirect (p : R).
Inductive handle := Sources | Targets | Tests.
Inductive call := Allocate (h : handle) | Put (h : handle) | Evaluate (e : evaluator) (s t : handle) (limit digits : Z) | Length (h : handle) | Collect (h : handle) | Destroy (h : handle).
(** testmain.cc:471-527 *)
Definition fast (a : arguments) : option evaluator :=
  if (kernel a =? "laplace")%string then
    if (method a =? "bh")%string then Some LaplaceBH
    else if (method a =? "fmm")%string then Some LaplaceFMM
    else if (method a =? "fmm97")%string then Some LaplaceFMM97 else None
  else if (kernel a =? "yukawa")%string then if (method a =? "fmm97")%string then Some (YukawaFMM97 (/ 10)) else None
  else if (kernel a =? "helmholtz")%string then if (method a =? "fmm97")%string then Some (HelmholtzFMM97 (/ 10)) else None
  else None.
(** testmain.cc:572-595 *)
Definition slow (a : arguments) : option evaluator :=
  if (kernel a =? "laplace")%string then Some LaplaceDirect
  else if (kernel a =? "yukawa")%string then Some (YukawaDirect (/ 10))
  else if (kernel a =? "helmholtz")%string then Some (HelmholtzDirect (/ 10))
  else None.
Definition evaluate (a : arguments) (e : option evaluator) (s t : handle) : list call :=
  match e with Some e => [Evaluate e s t (refinement_limit a) (accuracy a)] | None => [] end.
Definition perform (a : arguments) : list call :=
  [Allocate Sources; Put Sources; Allocate Targets; Put Targets]
  ++ evaluate a (fast a) Sources Targets
  ++ (if verify a then
        [Length Targets; Collect Targets; Allocate Tests; Put Tests] ++ evaluate a (slow a) Sources Tests ++ [Collect Tests; Destroy Tests]
      else [])
  ++ [Destroy Sources; Destroy Targets].
(** testmain.cc:615-630 main: the calls of one rank and the value returned; the calls of init
    and finalize are left out, their asserts hold *)
Definition main (ranks rank : Z) (l : list opt) : list call * Z :=
  (match read_arguments ranks rank l with Some a => perform a | None => [] end, 0).

(** testmain.cc:532-539: how many targets are tested; [count] is that of the rank *)
Definition test_count (rank count : Z) : Z :=
  let n := if rank =? 0 then 400 else 0 in
  if n >? count then count else n.
(** testmain.cc:551-562: [targets] after collect and sort *)
Definition copy_test (n : Z) (targets : list target) (i : Z) : res target :=
  if n =? 0 then Fail DivZero
  else
    let total := Z.of_nat (length targets) in
    let idx := i * (total / n) in
    do _ <- assert_ (idx <? total);
    do t <- nth_resZ targets idx;
    Ok (mkT (pos t) (0%R, 0%R) (index t)).
Definition choose_tests (n : Z) (targets : list target) : res (list target) := mapM (copy_test n targets) (zseq 0 (Z.to_nat n)).

(** testmain.cc:433-437 the map; a later entry for the same index replaces an earlier one *)
Fixpoint offsets (i : Z) (l : list target) (m : list (Z * Z)) : list (Z * Z) :=
  match l with [] => m | t :: l => offsets (i + 1) l ((index t, i) :: m) end.
Fixpoint find (k : Z) (m : list (Z * Z)) : option Z :=
  match m with [] => None | (a, b) :: m => if a =? k then Some b else find k m end.

Open Scope R_scope.
Definition norm (z : cpx) : R := fst z * fst z + snd z * snd z.
Definition minus (a b : cpx) : cpx := (fst a - fst b, snd a - snd b).
(** A division by zero fails here; the code goes on with an infinity or a NaN *)
Definition div (a b : R) : res R := if Req_EM_T b 0 then Fail DivZero else Ok (a / b).
(** testmain.cc:439-454 *)
Definition compare_one (targets : list target) (m : list (Z * Z)) (st : R * R * R) (e : target) : res (R * R * R) :=
  let '(numerator, denominator, maxrel) := st in
  match find (index e) m with
  | None => Fail AssertFail
  | Some idx =>
      do t <- nth_resZ targets idx;
      let relerr := norm (minus (phi t) (phi e)) in
      let exnorm := norm (phi e) in
      do q <- div relerr exnorm;
      Ok (numerator + relerr, denominator + exnorm, if Rlt_dec maxrel (sqrt q) then sqrt q else maxrel)
  end.
(** testmain.cc:428-457 compare_results on rank 0: the error and the maximum printed *)
Definition compare_results (targets exacts : list target) : res (R * R) :=
  do st <- foldM (compare_one targets (offsets 0 targets [])) exacts (0, 0, 0);
  let '(num, den, maxrel) := st in
  do q <- div num den;
  Ok (sqrt q, maxrel).

(** testmain.cc:276-327 the positions and charges; the draws are rand() / RAND_MAX and whether
    rand() is odd; PI is the decimal number of lines 290 and 314 *)
Definition decimal_pi : R := 31415926535 / 10000000000.
Definition pick_cube_position (a b c : R) : point := (a - / 2, b - / 2, c - / 2).
Definition around (r u v : R) : point :=
  let ctheta := 2 * u - 1 in
  let stheta := sqrt (1 - ctheta * ctheta) in
  let phi := 2 * decimal_pi * v in
  (r * stheta * cos phi, r * stheta * sin phi, r * ctheta).
Definition pick_sphere_position (u v : R) : point := around 1 u v.
Definition pick_charge (use_negative : bool) (u : R) (odd : bool) : R :=
  let retval := u + 1 in if use_negative && odd then retval * -1 else retval.
(** pow(0, -2/3) is an infinity, of which the square root and the inverse are taken: 0 *)
Definition plummer_radius (unif : R) : res R :=
  if Req_EM_T unif 0 then Ok 0 else div 1 (sqrt (Rpower unif (-2 / 3) - 1)).
Definition pick_plummer_position (unif u v : R) : res point := do r <- plummer_radius unif; Ok (around r u v).
Definition pick_plummer_charge (count : Z) : res R := div 100 (IZR count).
(** testmain.cc:330-351 set_sources for one source: five draws, of which the distribution
    takes what it needs *)
Record draws := mkDraws { d1 : R; d2 : R; d3 : R; d4 : R; d_odd : bool }.
Definition set_source (count : Z) (type method : string) (d : draws) : res source :=
  let use_negative := negb (method =? "bh")%string in
  if (type =? "cube")%string then Ok (mkS (pick_cube_position (d1 d) (d2 d) (d3 d)) (pick_charge use_negative (d4 d) (d_odd d)))
  else if (type =? "sphere")%string then Ok (mkS (pick_sphere_position (d1 d) (d2 d)) (pick_charge use_negative (d3 d) (d_odd d)))
  else
    do p <- pick_plummer_position (d1 d) (d2 d) (d3 d);
    do q <- pick_plummer_charge count;
    Ok (mkS p q).
(** One rank's sources; [ds] are the draws *)
Definition set_sources (type method : string) (ds : list draws) : res (list source) :=
  mapM (set_source (Z.of_nat (length ds)) type method) ds.
