(** Moments of a set of charges, without reference to the code. *)
From Coq Require Import Reals List.
From Verif Require Import Base ComModel.
Import ListNotations.
Open Scope R_scope.

(** The sum of [f] over the sources, weighted with the charge. *)
Definition moment (f : source -> R) (l : list source) : R := fold_right (fun s a => charge s * f s + a) 0 l.
Definition total (l : list source) : R := moment (fun _ => 1) l.
(** The centre of charge. *)
Definition centre (c : source -> R) (l : list source) : R := moment c l / total l.
(** The quadrupole moment about the centre of charge: sum of q (3 d_i d_j - delta_ij |d|^2). *)
Definition dev (c : source -> R) (l : list source) (s : source) : R := c s - centre c l.
Definition dist2 (l : list source) (s : source) : R := dev sx l s * dev sx l s + dev sy l s * dev sy l s + dev sz l s * dev sz l s.
Definition quad (ci cj : source -> R) (l : list source) : R := moment (fun s => 3 * dev ci l s * dev cj l s) l.
Definition quad_diag (c : source -> R) (l : list source) : R := moment (fun s => 3 * dev c l s * dev c l s - dist2 l s) l.
Definition expansion_of (l : list source) (t : com) : Prop :=
  mtot t = total l /\ cx t = centre sx l /\ cy t = centre sy l /\ cz t = centre sz l /\
  qxx t = quad_diag sx l /\ qxy t = quad sx sy l /\ qxz t = quad sx sz l /\
  qyy t = quad_diag sy l /\ qyz t = quad sy sz l /\ qzz t = quad_diag sz l.

(** A way to combine expansions of groups of sources. *)
Inductive plan := Group (l : list source) | Merge (a b : plan).
Fixpoint members (p : plan) : list source := match p with Group l => l | Merge a b => members a ++ members b end.
(** No total met on the way is zero, except that of a group without sources (the value
    an expansion starts from). *)
Fixpoint no_zero (p : plan) : Prop :=
  match p with
  | Group l => l = [] \/ total l <> 0
  | Merge a b => total (members p) <> 0 /\ no_zero a /\ no_zero b
  end.
(** Carrying out a plan with the operations of the code. *)
Fixpoint combine (p : plan) : res com :=
  match p with
  | Group l => Ok (S_to_M l)
  | Merge a b => bind (combine a) (fun t => bind (combine b) (fun u => add_expansion t (M_to_M u)))
  end.

(** The potential at (x, y, z) of the sources when their distances to the centre of charge are
    scaled with [e]: at e = 1 it is the potential of the sources themselves. *)
Definition scaled_dist2 (l : list source) (x y z e : R) (s : source) : R :=
  (x - (centre sx l + e * dev sx l s)) ^ 2 + (y - (centre sy l + e * dev sy l s)) ^ 2 + (z - (centre sz l + e * dev sz l s)) ^ 2.
Definition scaled_potential (l : list source) (x y z e : R) : R := moment (fun s => / sqrt (scaled_dist2 l x y z e s)) l.
