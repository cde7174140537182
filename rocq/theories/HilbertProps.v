(** C05 and C06: the Hilbert numbering of the uniform cells. *)
From Coq Require Import ZArith List Lia.
From Verif Require Import Base HilbertModel HilbertSpec HilbertProofs.
Local Open Scope Z_scope.

(** C05. On a grid of 2^l cells per side the key is computed without failure,
    is below 8^l, and is one-to-one and onto [0, 8^l). *)
Theorem C05_hilbert_bijection : forall l : nat,
  (forall x y z, in_cube (2 ^ Z.of_nat l) x y z ->
     exists k, hilbert_key x y z (2 ^ Z.of_nat l) = Ok k /\ 0 <= k < 8 ^ Z.of_nat l) /\
  (forall x y z x' y' z',
     in_cube (2 ^ Z.of_nat l) x y z -> in_cube (2 ^ Z.of_nat l) x' y' z' ->
     hilbert_key x y z (2 ^ Z.of_nat l) = hilbert_key x' y' z' (2 ^ Z.of_nat l) ->
     x = x' /\ y = y' /\ z = z') /\
  (forall k, 0 <= k < 8 ^ Z.of_nat l ->
     exists x y z, in_cube (2 ^ Z.of_nat l) x y z /\ hilbert_key x y z (2 ^ Z.of_nat l) = Ok k).
Proof.
  intros l. split; [|split].
  - intros x y z Hc. exists (H l (zseq 0 8) x y z).
    split; [exact (hilbert_key_H l x y z Hc) | exact (H_bounds l _ x y z init_state Hc)].
  - intros x y z x' y' z' Hc Hc' E.
    rewrite (hilbert_key_H l x y z Hc), (hilbert_key_H l x' y' z' Hc') in E.
    injection E as E. exact (H_inj l _ x y z x' y' z' init_state Hc Hc' E).
  - intros k Hk. pose proof (cell_spec l _ k init_state Hk) as C.
    destruct (cell l (zseq 0 8) k) as [[x y] z]. destruct C as [Hc HH].
    exists x, y, z. split; [exact Hc|]. rewrite (hilbert_key_H l x y z Hc). congruence.
Qed.
Print Assumptions C05_hilbert_bijection.

(** C06. Cells with consecutive keys share a face. *)
Theorem C06_hilbert_continuous : forall (l : nat) x y z x' y' z' k,
  in_cube (2 ^ Z.of_nat l) x y z -> in_cube (2 ^ Z.of_nat l) x' y' z' ->
  hilbert_key x y z (2 ^ Z.of_nat l) = Ok k ->
  hilbert_key x' y' z' (2 ^ Z.of_nat l) = Ok (k + 1) ->
  face_neighbours x y z x' y' z'.
Proof.
  intros l x y z x' y' z' k Hc Hc' E E'.
  rewrite (hilbert_key_H l x y z Hc) in E. rewrite (hilbert_key_H l x' y' z' Hc') in E'.
  injection E as E. injection E' as E'.
  apply (H_adjacent l _ x y z x' y' z' init_state Hc Hc'). congruence.
Qed.
Print Assumptions C06_hilbert_continuous.

Example C05_C06_nonvacuous : in_cube (2 ^ Z.of_nat 3) 5 2 7 /\
  hilbert_key 5 2 7 (2 ^ Z.of_nat 3) = Ok 386 /\
  hilbert_key 5 3 7 (2 ^ Z.of_nat 3) = Ok 387.
Proof. repeat split; vm_compute; congruence. Qed.
