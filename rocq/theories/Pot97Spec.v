(** What an evaluation with intermediate expansions has to compute, and what it relies on. *)
From Coq Require Import Reals ZArith List.
From Coquelicot Require Import Coquelicot.
From Verif Require Import Base DagModel LapModel LapSpec WaveModel WaveSpec PotModel PotSpec Pot97Model.
Import ListNotations.
Open Scope R_scope.

(** A point of the box of side one about the origin *)
Definition in_unit (a : pt) : Prop := Rabs (px a) <= 1 / 2 /\ Rabs (py a) <= 1 / 2 /\ Rabs (pz a) <= 1 / 2.

(** The quadrature is accurate to [eps]: for any two boxes of side one, the second two or
    three boxes away along the third axis and at most three along the others, it makes of the
    wave between two points in them the inverse of their distance.  As in the expansions, the
    waves within the boxes are cut off at the degree [p] and at the frequencies of the tables. *)
Definition accurate (q : quad) (p : nat) (eps : R) : Prop := forall a b i j k h g,
  in_unit a -> in_unit b -> (-3 <= i <= 3)%Z -> (-3 <= j <= 3)%Z -> (2 <= k <= 3)%Z ->
  (forall n, wave p (frq q n) (len q n) a (h n)) -> (forall n, wave p (frq q n) (len q n) b (g n)) ->
  Rabs (quadrature q (fun n al => (h n al * cexp (exponent (len q n) (mkPt (IZR i) (IZR j) (IZR k)) al) * g n al)%C)
        - / sqrt ((IZR i + px a + px b) ^ 2 + (IZR j + py a + py b) ^ 2 + (IZR k + pz a + pz b) ^ 2)) <= eps.

Definition delivers97 := delivers_in zero97 add97 (fun a => Plain (Array a)).
