(** What the tables of the kernels have to be.  Of the code only the records of the tables and
    of the calls appear here, and the functions that make the parts of the tables. *)
From Coq Require Import ZArith Reals List.
From Verif Require Import Base LapModel LapSpec TranModel WaveModel TablesModel.
Import ListNotations.
Open Scope R_scope.

(** The table is the one for this request. *)
Definition right_laplace (r : request) (t : ltab) : Prop :=
  l_digits t = r_digits r /\ l_size t = r_size r /\ l_scale t * r_size r = 1 /\ (0 <= r_digits r)%Z /\
  laplace_table (Z.to_nat (r_digits r)) = Ok (fst (l_parts t)) /\ wave_table (Z.to_nat (r_digits r)) = Ok (snd (l_parts t)).
Definition right_par {C} (order : nat -> res nat) (make : nat -> R -> R -> res C) (r : request) (t : ktab C) : Prop :=
  exists par rest, r_params r = par :: rest /\
  k_digits t = r_digits r /\ k_size t = r_size r /\ k_par t = par /\ k_scale t = Rmin 1 (par * r_size r) /\ (0 <= r_digits r)%Z /\
  order (Z.to_nat (r_digits r)) = Ok (k_p t) /\ make (Z.to_nat (r_digits r)) (r_size r) par = Ok (k_parts t).

(** The DAGs created by some calls, in order, and the number of executions. *)
Fixpoint created (cs : list call) : list request :=
  match cs with [] => [] | Create r :: cs => r :: created cs | Execute _ :: cs => created cs end.
Fixpoint executed (cs : list call) : nat :=
  match cs with [] => 0 | Create _ :: cs => executed cs | Execute _ :: cs => S (executed cs) end.

(** The charges moved away from [c], or towards it, by the factor [k]. *)
Definition stretch (k : R) (c : pt) (s : charge) : charge :=
  mkCharge (cq s) (mkPt (px c + k * (px (cpos s) - px c)) (py c + k * (py (cpos s) - py c)) (pz c + k * (pz (cpos s) - pz c))).
