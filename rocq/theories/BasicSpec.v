(** What the demonstration program should do.  Of the code only the records appear here. *)
From Coq Require Import String.
From Coq Require Import ZArith Reals List Bool Permutation Sorting.Sorted.
From Verif Require Import Base BasicModel.
Import ListNotations.

(** Sums. *)
Fixpoint total {A} (f : A -> R) (l : list A) : R := match l with [] => 0%R | t :: l => (f t + total f l)%R end.
Fixpoint totalZ {A} (f : A -> Z) (l : list A) : Z := match l with [] => 0%Z | t :: l => (f t + totalZ f l)%Z end.
(** The square of the absolute value of a difference. *)
Definition sq (a b : cpx) : R := ((fst a - fst b) ^ 2 + (snd a - snd b) ^ 2)%R.
(** The same records with other results, in any order: what an evaluation leaves. *)
Definition same_records (a b : list target) : Prop := Permutation (map (fun t => (pos t, index t)) a) (map (fun t => (pos t, index t)) b).
(** [s] is what std::sort makes of [l]; the order of records of the same index is open. *)
Definition sorts (l s : list target) : Prop := Permutation l s /\ StronglySorted (fun a b => (index a <= index b)%Z) s.
(** The exact results of [tests], in any order. *)
Definition exact_results (f : point -> cpx) (tests exacts : list target) : Prop :=
  Permutation exacts (map (fun t => mkT (pos t) (f (pos t)) (index t)) tests).
(** The largest of the numbers [f t], or 0. *)
Definition largest {A} (f : A -> R) (l : list A) (m : R) : Prop :=
  (0 <= m)%R /\ (forall t, In t l -> (f t <= m)%R) /\ (m = 0%R \/ exists t, In t l /\ m = f t).
Definition zero : cpx := (0%R, 0%R).
(** Numbers that rand() / RAND_MAX can give. *)
Definition unit_draw (u : R) : Prop := (0 <= u <= 1)%R.
Definition proper (d : draws) : Prop := unit_draw (d1 d) /\ unit_draw (d2 d) /\ unit_draw (d3 d) /\ unit_draw (d4 d).
(** The square of the distance from the origin. *)
Definition dist2 (p : point) : R := let '(x, y, z) := p in (x ^ 2 + y ^ 2 + z ^ 2)%R.
(** Charges between 1 and 2, negative ones for other methods than Barnes-Hut. *)
Definition good_charge (method : string) (q : R) : Prop := (1 <= q <= 2)%R \/ (method <> "bh"%string /\ (-2 <= q <= -1)%R).
(** What an evaluator computes, whether by direct summation, and which one the user asked for. *)
Inductive interaction := ILaplace | IYukawa (p : R) | IHelmholtz (p : R).
Definition interaction_of (e : evaluator) : interaction :=
  match e with
  | LaplaceBH | LaplaceFMM | LaplaceFMM97 | LaplaceDirect => ILaplace
  | YukawaFMM97 p | YukawaDirect p => IYukawa p
  | HelmholtzFMM97 p | HelmholtzDirect p => IHelmholtz p
  end.
Definition summation (e : evaluator) : bool := match e with LaplaceDirect | YukawaDirect _ | HelmholtzDirect _ => true | _ => false end.
Definition asked (kernel method : string) (e : evaluator) : Prop :=
  match e with
  | LaplaceBH => kernel = "laplace"%string /\ method = "bh"%string
  | LaplaceFMM => kernel = "laplace"%string /\ method = "fmm"%string
  | LaplaceFMM97 => kernel = "laplace"%string /\ method = "fmm97"%string
  | YukawaFMM97 _ => kernel = "yukawa"%string /\ method = "fmm97"%string
  | HelmholtzFMM97 _ => kernel = "helmholtz"%string /\ method = "fmm97"%string
  | _ => False
  end.
Definition is_evaluation (c : call) : bool := match c with Evaluate _ _ _ _ _ => true | _ => false end.
(** The value an option was given last, or its default. *)
Fixpoint setting {A} (get : opt -> option A) (default : A) (l : list opt) : A :=
  match l with [] => default | o :: l => setting get (match get o with Some v => v | None => default end) l end.
Definition nsources (o : opt) := match o with ONsources n => Some n | _ => None end.
Definition ntargets (o : opt) := match o with ONtargets n => Some n | _ => None end.
Definition sourcedata (o : opt) := match o with OSourcedata s => Some s | _ => None end.
Definition targetdata (o : opt) := match o with OTargetdata s => Some s | _ => None end.
Definition threshold (o : opt) := match o with OThreshold n => Some n | _ => None end.
Definition methodname (o : opt) := match o with OMethod s => Some s | _ => None end.
Definition kernelname (o : opt) := match o with OKernel s => Some s | _ => None end.
Definition verifying (o : opt) := match o with OVerify s => Some s | _ => None end.
Definition digits (o : opt) := match o with OAccuracy n => Some n | _ => None end.
