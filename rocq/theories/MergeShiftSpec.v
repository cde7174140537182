(** What merge-and-shift has to do. *)
From Coq Require Import ZArith List Bool.
From Verif Require Import Base IndexModel RefineModel GeomModel LookupModel MergeShiftModel DagSpec.
Import ListNotations.
Open Scope Z_scope.

(** The displacement (a, b, c), seen by a wave travelling in direction [d]: the third
    coordinate is the distance travelled, the first two are across.  A wave travels from the
    source to the target; the displacement is source minus target. *)
Definition seen_by (d : dir) (a b c : Z) : Z * Z * Z :=
  match d with
  | MZ => (a, b, c) | PZ => (- a, - b, - c)
  | MY => (c, a, b) | PY => (- c, - a, - b)
  | MX => (- c, b, a) | PX => (c, - b, - a)
  end.

(** The waves of a kernel in direction [d]: the view of M_to_I that holds them.  There is one
    view of Helmholtz propagating waves per axis; the conjugate travels the other way. *)
Definition waves (k : comp) (d : dir) : Z * bool :=
  match k, d with
  | HelProp, PX => (0, false) | HelProp, MX => (0, true)
  | HelProp, PY => (3, false) | HelProp, MY => (3, true)
  | HelProp, PZ => (6, false) | HelProp, MZ => (6, true)
  | HelEvan, PX => (1, false) | HelEvan, MX => (2, false)
  | HelEvan, PY => (4, false) | HelEvan, MY => (5, false)
  | HelEvan, PZ => (7, false) | HelEvan, MZ => (8, false)
  | _, PX => (0, false) | _, MX => (1, false)
  | _, PY => (2, false) | _, MY => (3, false)
  | _, PZ => (4, false) | _, MZ => (5, false)
  end.

(** [u] is a child of [t]; [s] a child of [t] or of a neighbour of [t] (anywhere, also
    outside the domain). *)
Definition child_of (t u : index) : Prop := forall a, 0 <= icoord a u /\ icoord a u / 2 = icoord a t.
Definition near_child (t s : index) : Prop := forall a, -1 <= icoord a s / 2 - icoord a t <= 1.

(** The one share a well separated child gets: waves of some direction [d], put with the waves
    of that direction, moved by the true displacement, at least two and at most three boxes
    along [d]. *)
Definition right_share (k : comp) (s u : index) (x : share) : Prop :=
  exists d, (c_view x, c_conj x) = waves k d /\ c_acc x = d /\
    (c_x x, c_y x, c_z x) = seen_by d (ix s - ix u) (iy s - iy u) (iz s - iz u) /\ 2 <= c_z x <= 3.
