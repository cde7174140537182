(** The programs that test the accuracy of the library: test/common/common.h,
    test/makepoints/makepoints.cc, test/combinepoints/combine.cc and combiner.cc,
    test/collect/collect.cc.  Doubles are real numbers.  Files are lists of records: their
    bytes are not modelled. *)
From Coq Require Import String.
From Coq Require Import ZArith Reals List Bool.
From Verif Require Import Base.
Import ListNotations.
Open Scope Z_scope.

Definition cpx : Type := (R * R)%type.
(** common.h:8-17, 19-23 and 25-32 *)
Record header := mkHead { n_sources : Z; n_targets : Z; refinement : Z; has_laplace : bool; has_yukawa : bool; has_helmholtz : bool; yukawa_param : R; helmholtz_param : R }.
Record src := mkSrc { s_pos : R * R * R; s_charge : R; s_index : Z }.
Record tgt := mkTgt { t_pos : R * R * R; t_phi : cpx; t_laplace : cpx; t_yukawa : cpx; t_helmholtz : cpx; t_index : Z }.

(** What is thrown: std::ios_base::failure, std::runtime_error, std::bad_function_call,
    std::bad_array_new_length *)
Inductive exn := Ios | Runtime | BadCall | BadLength.
Inductive out (A : Type) := Done (a : A) | Throw (e : exn).
Arguments Done {A} a. Arguments Throw {A} e.
Definition andthen {A B} (x : out A) (f : A -> out B) : out B := match x with Done a => f a | Throw e => Throw e end.

(** A file: the header, if one can be read, and the records that follow *)
Record file := mkFile { f_head : option header; f_sources : list src; f_targets : list tgt }.
Definition filesystem := string -> option file.
Record combiner := mkComb { head : header; sources : list src; targets : list tgt }.

(** combiner.cc:28-39 and 41-54: the records of one kind, [None] if fread returns fewer.  A
    count of zero reads nothing; a negative one makes new[] throw. *)
Definition read_records {A} (n : Z) (l : list A) : out (list A) :=
  if n =? 0 then Done []
  else if n <? 0 then Throw BadLength
  else if n <=? Z.of_nat (length l) then Done (firstn (Z.to_nat n) l) else Throw Ios.
(** combiner.cc:9-57 the constructor *)
Definition open_file (fs : filesystem) (name : string) : out combiner :=
  match fs name with
  | None => Throw Ios
  | Some f =>
      match f_head f with
      | None => Throw Ios
      | Some h => andthen (read_records (n_sources h) (f_sources f)) (fun s => andthen (read_records (n_targets h) (f_targets f)) (fun t => Done (mkComb h s t)))
      end
  end.

(** combiner.cc:84-86, 98-100, 112-114: the three functions *)
Definition copy_laplace (a b : tgt) : tgt := mkTgt (t_pos a) (t_phi a) (t_laplace b) (t_yukawa a) (t_helmholtz a) (t_index a).
Definition copy_yukawa (a b : tgt) : tgt := mkTgt (t_pos a) (t_phi a) (t_laplace a) (t_yukawa b) (t_helmholtz a) (t_index a).
Definition copy_helmholtz (a b : tgt) : tgt := mkTgt (t_pos a) (t_phi a) (t_laplace a) (t_yukawa a) (t_helmholtz b) (t_index a).
Definition flags (h : header) (l y k : bool) : header := mkHead (n_sources h) (n_targets h) (refinement h) l y k (yukawa_param h) (helmholtz_param h).

(** combiner.cc:74-116: the header with one more flag and the function, empty if the other
    file has no kernel *)
Definition choose (h o : header) : out (header * option (tgt -> tgt -> tgt)) :=
  if has_laplace o then if has_laplace h then Throw Runtime else Done (flags h true (has_yukawa h) (has_helmholtz h), Some copy_laplace)
  else if has_yukawa o then if has_yukawa h then Throw Runtime else Done (flags h (has_laplace h) true (has_helmholtz h), Some copy_yukawa)
  else if has_helmholtz o then if has_helmholtz h then Throw Runtime else Done (flags h (has_laplace h) (has_yukawa h) true, Some copy_helmholtz)
  else Done (h, None).
(** combiner.cc:118-132 the loop; the lists have as many elements as the headers say *)
Fixpoint copy_all (f : option (tgt -> tgt -> tgt)) (a b : list tgt) : out (list tgt) :=
  match a, b with
  | x :: a, y :: b =>
      if t_index x =? t_index y then
        match f with None => Throw BadCall | Some g => andthen (copy_all f a b) (fun l => Done (g x y :: l)) end
      else Throw Runtime
  | _, _ => Done []
  end.
(** combiner.cc:59-133 Combine *)
Definition combine (c o : combiner) : out combiner :=
  if negb (n_sources (head c) =? n_sources (head o)) || negb (n_targets (head c) =? n_targets (head o)) then Throw Runtime
  else andthen (choose (head c) (head o)) (fun '(h, f) => andthen (copy_all f (targets c) (targets o)) (fun l => Done (mkComb h (sources c) l))).
(** combiner.cc:135-164 Write; [room] tells whether the file can be opened and written *)
Definition write_file (c : combiner) (room : bool) : out file := if room then Done (mkFile (Some (head c)) (sources c) (targets c)) else Throw Ios.

(** combine.cc:12-42 main: the value returned, [None] if an exception is not caught; whether
    it prints that the files were combined; the file it wrote *)
Record ending := mkEnd { exit_code : option Z; says_done : bool; wrote : option (string * file) }.
Definition combine_main (fs : filesystem) (argv : list string) (room : bool) : ending :=
  match argv with
  | one :: two :: three :: to :: _ =>
      match andthen (open_file fs one) (fun a => andthen (open_file fs three) (fun b => andthen (combine a b) (fun c => write_file c room))) with
      | Done f => mkEnd (Some 0) true (Some (to, f))
      | Throw Ios | Throw Runtime => mkEnd (Some 0) true None
      | Throw _ => mkEnd None false None
      end
  | _ => mkEnd (Some (-1)) false None
  end.

(** makepoints.cc:216-290 save_to_file, which takes the number of sources for that of targets
    (both are 1000000): sources and targets are in the order of their indices
    already, [phi] is what S_to_T computed *)
Definition saved (kernel : string) (pos : R * R * R) (phi : cpx) (index : Z) : out tgt :=
  let z : cpx := (0%R, 0%R) in
  if (kernel =? "laplace")%string then Done (mkTgt pos z phi z z index)
  else if (kernel =? "yukawa")%string then Done (mkTgt pos z z phi z index)
  else if (kernel =? "helmholtz")%string then Done (mkTgt pos z z z phi index)
  else Throw BadCall.
Fixpoint save_all (kernel : string) (i : Z) (l : list ((R * R * R) * cpx)) : out (list tgt) :=
  match l with
  | [] => Done []
  | (p, v) :: l => andthen (saved kernel p v i) (fun t => andthen (save_all kernel (i + 1) l) (fun r => Done (t :: r)))
  end.
Fixpoint save_sources (i : Z) (l : list ((R * R * R) * R)) : list src :=
  match l with [] => [] | (p, q) :: l => mkSrc p q i :: save_sources (i + 1) l end.
(** makepoints.cc:36-40: limit 40, both parameters 0.1; the counts are those of the lists *)
Definition make_file (kernel : string) (ss : list ((R * R * R) * R)) (ts : list ((R * R * R) * cpx)) : out file :=
  andthen (save_all kernel 0 ts) (fun l =>
    Done (mkFile (Some (mkHead (Z.of_nat (length ss)) (Z.of_nat (length ts)) 40 (kernel =? "laplace")%string (kernel =? "yukawa")%string (kernel =? "helmholtz")%string (/ 10) (/ 10)))
                 (save_sources 0 ss) l)).

(** collect.cc:53-61 and 81-187 read_arguments after the options have been read: true if
    accepted *)
Record arguments := mkArgs { datafile : string; limit : Z; method : string; kernel : string; accuracy : Z }.
Definition defaults : arguments := mkArgs "" 40 "fmm97" "laplace" 3.
Definition accepted (a : arguments) : bool :=
  let three_or_six := (accuracy a =? 3) || (accuracy a =? 6) in
  if (datafile a =? "")%string then false
  else if negb (method a =? "bh")%string && negb (method a =? "fmm")%string && negb (method a =? "fmm97")%string then false
  else if (kernel a =? "laplace")%string && (method a =? "fmm97")%string && negb three_or_six then false
  else if (kernel a =? "yukawa")%string && (negb (method a =? "fmm97")%string || negb three_or_six) then false
  else if (kernel a =? "helmholtz")%string && (negb (method a =? "fmm97")%string || negb three_or_six) then false
  else true.
(** collect.cc:201-225 read_input_data: other ranks than 0 get a header without kernels *)
Definition header_on (rank : Z) (h : header) : header := if rank =? 0 then h else mkHead 0 0 0 false false false 1 1.
(** collect.cc:337-345: the rank goes on to the collective calls of 347-426 *)
Definition goes_on (a : arguments) (h : header) : bool :=
  negb (((kernel a =? "laplace")%string && negb (has_laplace h)) || ((kernel a =? "yukawa")%string && negb (has_yukawa h)) || ((kernel a =? "helmholtz")%string && negb (has_helmholtz h))).
(** collect.cc:359-411: what is evaluated: the kernel and its parameters *)
Inductive evaluation := ByLaplace | ByYukawa (lambda : R) | ByHelmholtz (omega : R).
Definition evaluates (a : arguments) (h : header) : option evaluation :=
  if (kernel a =? "laplace")%string then if (method a =? "bh")%string || (method a =? "fmm")%string || (method a =? "fmm97")%string then Some ByLaplace else None
  else if (kernel a =? "yukawa")%string then if (method a =? "fmm97")%string then Some (ByYukawa (yukawa_param h)) else None
  else if (kernel a =? "helmholtz")%string then if (method a =? "fmm97")%string then Some (ByHelmholtz (helmholtz_param h)) else None
  else None.

Open Scope R_scope.
(** std::norm and the difference of complex numbers *)
Definition norm (z : cpx) : R := fst z * fst z + snd z * snd z.
Definition minus (a b : cpx) : cpx := (fst a - fst b, snd a - snd b).
Definition div (a b : R) : res R := if Req_EM_T b 0 then Fail DivZero else Ok (a / b).
(** collect.cc:252-298: the exact value and the relative error of one target *)
Definition exact (k : string) (t : tgt) : cpx :=
  if (k =? "laplace")%string then t_laplace t else if (k =? "yukawa")%string then t_yukawa t else t_helmholtz t.
Definition relative (k : string) (t : tgt) : res R :=
  let e := exact k t in
  if (k =? "laplace")%string || (k =? "yukawa")%string then do v <- div (fst (t_phi t) - fst e) (fst e); Ok (Rabs v)
  else do v <- div (norm (minus (t_phi t) e)) (norm e); Ok (sqrt v).
(** collect.cc:300-314: the error and the maximum that are printed; a division by zero fails here, where
    the code goes on with an infinity or a NaN *)
Definition compare_results (k : string) (ts : list tgt) : res (R * R) :=
  do (a, b, m) <- foldM (fun '(a, b, m) t =>
    do r <- relative k t; Ok (a + norm (minus (t_phi t) (exact k t)), b + norm (exact k t), if Rlt_dec m r then r else m)) ts (0, 0, 0);
  do v <- div a b; Ok (sqrt v, m).
