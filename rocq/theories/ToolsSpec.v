(** What the tools of the tests have to do.  Of the code only the records appear here. *)
From Coq Require Import String.
From Coq Require Import ZArith Reals List Bool.
From Verif Require Import Base ToolsModel.
Import ListNotations.

(** The three kernels, the flag of a header and the values of a target that belong to each. *)
Inductive ker := KLaplace | KYukawa | KHelmholtz.
Definition has (k : ker) (h : header) : bool := match k with KLaplace => has_laplace h | KYukawa => has_yukawa h | KHelmholtz => has_helmholtz h end.
Definition value (k : ker) (t : tgt) : cpx := match k with KLaplace => t_laplace t | KYukawa => t_yukawa t | KHelmholtz => t_helmholtz t end.
Definition name (k : ker) : string := (match k with KLaplace => "laplace" | KYukawa => "yukawa" | KHelmholtz => "helmholtz" end)%string.
Definition only (k : ker) (h : header) : Prop := has k h = true /\ forall k', k' <> k -> has k' h = false.

(** [r] is [a] with the values of kernel [k] taken from [b]. *)
Definition takes (k : ker) (a b r : tgt) : Prop :=
  t_pos r = t_pos a /\ t_phi r = t_phi a /\ t_index r = t_index a /\ value k r = value k b /\ forall k', k' <> k -> value k' r = value k' a.
(** The other entries of a header. *)
Definition same_but_flags (h g : header) : Prop :=
  n_sources h = n_sources g /\ n_targets h = n_targets g /\ refinement h = refinement g /\ yukawa_param h = yukawa_param g /\ helmholtz_param h = helmholtz_param g.
(** A combiner as the constructor leaves it. *)
Definition proper (c : combiner) : Prop := n_sources (head c) = Z.of_nat (length (sources c)) /\ n_targets (head c) = Z.of_nat (length (targets c)).
(** Sums over targets. *)
Fixpoint total (f : tgt -> R) (l : list tgt) : R := match l with [] => 0%R | t :: l => (f t + total f l)%R end.
(** The square of the absolute value of a difference. *)
Definition sq (a b : cpx) : R := ((fst a - fst b) ^ 2 + (snd a - snd b) ^ 2)%R.
