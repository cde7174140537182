(** What the exponential expansions of the Laplace kernel have to be. *)
From Coq Require Import Reals ZArith List.
From Coquelicot Require Import Coquelicot.
From Verif Require Import Base IndexModel LapModel LapSpec TranModel TranSpec DagSpec MergeShiftModel MergeShiftSpec WaveModel.
Import ListNotations.
Open Scope C_scope.

Definition cis (a : R) : C := (cos a, sin a).
Fixpoint total (f : nat -> C) (n : nat) : C := match n with O => 0 | S k => total f k + f k end.
Fixpoint power (z : C) (n : nat) : C := match n with O => 1 | S k => power z k * z end.

(** The exponential function *)
Definition cexp (z : C) : C := RtoC (exp (fst z)) * cis (snd z).
(** The power series of the exponential function up to degree [p]. *)
Definition exp_upto (p : nat) (z : C) : C := total (fun n => power z n * RtoC (/ INR (fact n))) (S p).

(** A function of the angle [a] with the Fourier coefficients [c]. *)
Definition mode (c : Z -> C) (m : nat) (a : R) : C :=
  match m with O => c 0%Z | _ => c (Z.of_nat m) * cis (INR m * a) + c (- Z.of_nat m)%Z * cis (- (INR m * a)) end.
Definition fourier (N : nat) (c : Z -> C) (a : R) : C := total (fun m => mode c m a) (S N).

(** [h] is [g] without the frequencies above [f]. *)
Definition lowpass (f : nat) (g h : R -> C) : Prop :=
  exists N (c : Z -> C), (forall m, (Z.of_nat N < Z.abs m)%Z -> c m = 0) /\ (forall a, g a = fourier N c a) /\ (forall a, h a = fourier f c a).

(** A displacement as seen by a wave travelling in direction [d], as in MergeShiftSpec: the
    third coordinate is along the way. *)
Definition along (d : dir) (v : pt) : pt :=
  match d with
  | MZ => v | PZ => mkPt (- px v) (- py v) (- pz v)
  | MY => mkPt (pz v) (px v) (py v) | PY => mkPt (- pz v) (- px v) (- py v)
  | MX => mkPt (- pz v) (py v) (px v) | PX => mkPt (pz v) (- py v) (- px v)
  end.
(** The axis and whether the direction has the plus sign *)
Definition axis_of (d : dir) : axis := match d with PX | MX => AX | PY | MY => AY | PZ | MZ => AZ end.
Definition plus_dir (d : dir) : bool := match d with PX | PY | PZ => true | _ => false end.
(** The exponent of the wave of length [lam] and angle [a] over the displacement [v]: it
    decays along the way and oscillates across it.  The integral of exp of it over [lam] from
    0 to infinity and the mean over [a] is 1 / |v| for [v] pointing along the way. *)
Definition exponent (lam : R) (v : pt) (a : R) : C := ((- lam * pz v)%R, (lam * (px v * cos a + py v * sin a))%R).

(** What becomes of the wave over [v] of an expansion of degree [p] and at most [f]
    frequencies. *)
Definition wave (p f : nat) (lam : R) (v : pt) (h : R -> C) : Prop := lowpass f (fun a => exp_upto p (exponent lam v a)) h.

(** The entries of the tables: the [k]th wave length and weight, the number of angles, how
    many frequencies, the [j]th angle (from 1) and where it is stored. *)
Definition len (q : quad) (k : nat) : R := nth k (q_lambda q) 0%R.
Definition wgt (q : quad) (k : nat) : R := nth k (q_weight q) 0%R.
Definition cnt (q : quad) (k : nat) : nat := nth k (q_m q) 0%nat.
Definition frq (q : quad) (k : nat) : nat := nth k (q_f q) 0%nat.
Definition ang (q : quad) (k j : nat) : R := (2 * PI * INR j / INR (cnt q k))%R.
Fixpoint place (q : quad) (k : nat) : nat := match k with O => 0 | S k => place q k + cnt q k / 2 end.
(** [E] holds [v k j] for each length and for the angles up to pi. *)
Definition holds_waves (q : quad) (E : list cplx) (v : nat -> nat -> C) : Prop :=
  length E = q_nexp q /\ place q (q_s q) = q_nexp q /\
  forall k j, (k < q_s q)%nat -> (1 <= j <= cnt q k / 2)%nat -> nth_error E (place q k + (j - 1)) = Some (v k j).

(** The offset of [x] from [c] in units of [h] *)
Definition units (h : R) (c x : pt) : pt := mkPt ((px x - px c) / h) ((py x - py c) / h) ((pz x - pz c) / h).

(** The sum over charges, each times its charge *)
Definition over (l : list charge) (g : charge -> C) : C := fold_right (fun s v => RtoC (cq s) * g s + v) 0 l.

(** The quadrature: the weighted sum over the lengths of the means over the angles
    [2 pi j / m], j = 1, ..., m. *)
Fixpoint rtotal (f : nat -> R) (n : nat) : R := match n with O => 0%R | S k => (rtotal f k + f k)%R end.
Definition quadrature (q : quad) (g : nat -> R -> C) : R :=
  rtotal (fun k => wgt q k * (rtotal (fun j => fst (g k (ang q k (S j)))) (cnt q k) / INR (cnt q k)))%R (q_s q).

(** What a unit charge at [y] in the box [s] is worth at [x] in the box [u], in units of the
    boxes: the wave from [y] to the middle of [s], exactly that between the middles, and that
    from the middle of [u] to [x]. *)
Definition arrives (q : quad) (p : nat) (corner : pt) (size : R) (d : dir) (s u : index) (y x : pt) (v : R) : Prop :=
  exists h g, (forall k, wave p (frq q k) (len q k) (along d (units (side size (ilevel s)) (middle corner size s) y)) (h k)) /\
    (forall k, wave p (frq q k) (len q k) (along d (units (side size (ilevel u)) x (middle corner size u))) (g k)) /\
    v = quadrature q (fun k a => h k a * cexp (exponent (len q k) (along d (units (side size (ilevel u)) (middle corner size u) (middle corner size s))) a) * g k a).

(** The views of the intermediate expansion of [t] that can arise, with the source boxes that
    contributed and their charges.  laplace.h:100-110: the expansion starts with 28 views of
    zeros. *)
Inductive merged (tb : table) (wt : wtab) (corner : pt) (size : R) (t : index) : list (index * list charge) -> list (list cplx) -> Prop :=
| mg_new : merged tb wt corner size t [] (repeat (repeat (0, 0)%R (q_nexp (w_q wt))) 28)
| mg_add g V s l M views new V' : merged tb wt corner size t g V ->
    near_child t s -> ilevel s = (ilevel t + 1)%Z -> upward tb corner size s l M ->
    M_to_I tb wt M = Ok views -> I_to_I wt s t views = Ok new -> add_views V new = Ok V' -> merged tb wt corner size t (g ++ [(s, l)]) V'.

(** The sum over all charges of all boxes *)
Definition over_boxes (g : list (index * list charge)) (f : index -> charge -> R) : R :=
  fold_right (fun b v => fold_right (fun c v => cq c * f (fst b) c + v) v (snd b))%R 0%R g.
(** The charges of the boxes that do not touch [u] *)
Definition afar (u : index) (g : list (index * list charge)) : list charge :=
  flat_map (fun b => if ((2 <=? Z.abs (ix (fst b) - ix u)) || (2 <=? Z.abs (iy (fst b) - iy u)) || (2 <=? Z.abs (iz (fst b) - iz u)))%Z%bool then snd b else []) g.
