(** The table of numbers that a kernel keeps between the calls of the public functions:
    src/laplace_table.cc, src/yukawa_table.cc, src/helmholtz_table.cc,
    include/builtins/{laplace,yukawa,helmholtz}{,_table}.h and include/dashmm/evaluator.h.
    There is one table for each kernel in each process, a global variable.  Doubles are real
    numbers; rounding is not modelled, and a division by zero fails. *)
From Coq Require Import ZArith Reals List.
From Verif Require Import Base LapModel TranModel WaveModel.
Import ListNotations.
Open Scope R_scope.

(** The index [n_digits] of the arrays of lengths, an int *)
Definition digits_index (n : Z) : res nat := if (n <? 0)%Z then Fail Oob else Ok (Z.to_nat n).

(** laplace_table.h:67-91 the members: what was asked for, the scale of level 0, and the
    parts that TranModel and WaveModel describe *)
Record ltab := mkLtab { l_digits : Z; l_size : R; l_scale : R; l_parts : table * wtab }.
(** laplace_table.cc:27-192 the constructor *)
Definition laplace_new (n : Z) (size : R) : res ltab :=
  do s <- rdiv 1 size;
  do k <- digits_index n;
  do tb <- laplace_table k;
  do wt <- wave_table k;
  Ok (mkLtab n size s (tb, wt)).
(** laplace_table.h:63-66 update *)
Definition laplace_resize (t : ltab) (size : R) : res ltab :=
  do s <- rdiv 1 size; Ok (mkLtab (l_digits t) size s (l_parts t)).
(** laplace_table.h:43 scale *)
Definition laplace_scale (t : ltab) (lev : nat) : R := l_scale t * 2 ^ lev.

(** What a call of create_DAG passes on: the digits, the size of the domain of the tree and
    the parameters of the kernel *)
Record request := mkReq { r_digits : Z; r_size : R; r_params : list R }.

(** laplace_table.cc:480-496 update_laplace_table; laplace.h:339-342 update_table *)
Definition laplace_update (g : option ltab) (r : request) : res ltab :=
  match g with
  | None => laplace_new (r_digits r) (r_size r)
  | Some t =>
      if negb (l_digits t =? r_digits r)%Z then laplace_new (r_digits r) (r_size r)
      else if Req_EM_T (l_size t) (r_size r) then Ok t else laplace_resize t (r_size r)
  end.

(** The Yukawa and the Helmholtz kernel, whose tables differ in their parts only.  [order] is
    the array [p_table] (YukModel.yuk_p, HelmModel.helm_p); [make] is the rest of the
    constructor: a function of the digits, the size and lambda or omega, since the
    constructors read nothing else. *)
Section Par.
Context {C : Type}.
Variable order : nat -> res nat.
Variable make : nat -> R -> R -> res C.
(** yukawa_table.h:73-92, helmholtz_table.h:113-145: lambda_ or omega_ is [k_par] *)
Record ktab := mkKtab { k_digits : Z; k_size : R; k_par : R; k_scale : R; k_p : nat; k_parts : C }.
(** yukawa_table.cc:28-37, helmholtz_table.cc:27-37 the constructor *)
Definition par_new (n : Z) (size par : R) : res ktab :=
  do f <- (if Rlt_dec 1 (par * size) then rdiv 1 size else Ok par);
  do k <- digits_index n;
  do p <- order k;
  do c <- make k size par;
  Ok (mkKtab n size par (f * size) p c).
(** yukawa_table.h:67-71, helmholtz_table.h:107-111 update *)
Definition par_changed (t : ktab) (n : Z) (size par : R) : bool :=
  if negb (k_digits t =? n)%Z then true
  else if Req_EM_T (k_size t) size then if Req_EM_T (k_par t) par then false else true
  else true.
(** yukawa_table.cc:568-577, helmholtz_table.cc:917-926; yukawa.h:296-299 and
    helmholtz.h:1061-1064 take element 0 of the parameters *)
Definition par_update (g : option ktab) (r : request) : res ktab :=
  do par <- nth_res (r_params r) 0;
  match g with
  | None => par_new (r_digits r) (r_size r) par
  | Some t => if par_changed t (r_digits r) (r_size r) par then par_new (r_digits r) (r_size r) par else Ok t
  end.
End Par.
Arguments ktab : clear implicits.

(** The public functions, for trees of one kernel: evaluator.h:197-260 and 371-450.  create_DAG
    updates the table (line 380) and then makes the LCOs, which keep the scale of the table
    (dualtree.h:1370-1394 and 1438-1462, expansionlco.h:109-139).  execute_DAG, reset_DAG,
    destroy_DAG, create_tree and destroy_tree do not touch the table.  A DAG is identified by
    its number in the order of creation. *)
Inductive call := Create (r : request) | Execute (k : nat).
Section Calls.
Context {T : Type}.
Variable update : option T -> request -> res T.
(** [now]: the global table; [dags]: for each DAG the table at its creation; [log]: for each
    execution the table at the creation of its DAG and the table during the execution *)
Record state := mkSt { now : option T; dags : list T; log : list (T * T) }.
Definition initial : state := mkSt None [] [].
Definition step (s : state) (c : call) : res state :=
  match c with
  | Create r => do t <- update (now s) r; Ok (mkSt (Some t) (dags s ++ [t]) (log s))
  | Execute k =>
      do d <- nth_res (dags s) k;
      match now s with None => Fail NullDeref | Some t => Ok (mkSt (Some t) (dags s) (log s ++ [(d, t)])) end
  end.
Definition run (cs : list call) (s : state) : res state := foldM step cs s.
(** evaluator.h:301-345 evaluate: one call after the other *)
Fixpoint evaluations (k : nat) (rs : list request) : list call :=
  match rs with [] => [] | r :: rs => Create r :: Execute k :: evaluations (S k) rs end.
End Calls.
Arguments state : clear implicits.

(** What an execution computes from a source leaf with an expansion at [lev] around [c] for
    one target: expansionlco.h:200-209 S_to_M with the scale of the table in use,
    expansionlco.h:337-360 the LCO that allocates an expansion of the length of the table in
    use but keeps the scale of its creation, targetlco.h and laplace.h:260-269 M_to_T with the
    scale of the LCO. *)
Definition leaf (made used : ltab) (lev : nat) (c : pt) (l : list charge) (t : pt) (phi : R) : res R :=
  let tb := fst (l_parts used) in
  do M <- S_to_M (tb_p tb) (tb_sqf tb) (laplace_scale used lev) c l;
  do D <- add_expansion (new_expansion (tb_p tb)) M;
  M_to_T (tb_p tb) (tb_sqf tb) (laplace_scale made lev) c D t phi.
