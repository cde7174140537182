(** C12: grouping the local points by uniform cell. *)
From Coq Require Import ZArith List Lia Permutation.
From Verif Require Import Base ListFacts GroupModel GroupSpec GroupProofs.
Import ListNotations.
Local Open Scope Z_scope.

(** For any records, cell numbers in range and matching counts the handler
    finishes without an out-of-bounds access, leaves the records grouped by
    cell in original order within a cell, and returns where each cell starts. *)
Theorem C12_group_stable : forall R (p : list R) (gid count : list Z) (dim3 : nat),
  length p = length gid -> (1 <= dim3)%nat ->
  Forall (fun g => 0 <= g < Z.of_nat dim3) gid ->
  (forall c, (c < dim3)%nat ->
     nth_error count c = Some (Z.of_nat (count_occ Z.eq_dec gid (Z.of_nat c)))) ->
  exists offset,
    group_points R p (Z.of_nat (length gid)) (Z.of_nat dim3) gid count = Ok (grouped p gid dim3, offset) /\
    length offset = dim3 /\
    forall c, (c < dim3)%nat -> nth_error offset c = Some (Z.of_nat (length (grouped p gid c))).
Proof.
  intros R p gid count dim3 HL Hd Hr Hc. exists (map (start gid) (seq 0 dim3)). split; [|split].
  - apply group_points_ok; try assumption. intros c Hlt. rewrite size_count_occ. apply Hc. assumption.
  - rewrite map_length, seq_length. reflexivity.
  - intros c Hlt. rewrite nth_error_map_seq by assumption. rewrite grouped_length by assumption. reflexivity.
Qed.
Print Assumptions C12_group_stable.

(** Nothing is lost or duplicated. *)
Theorem C12_group_permutation : forall R (p : list R) gid dim3, length p = length gid ->
  Forall (fun g => 0 <= g < Z.of_nat dim3) gid -> Permutation (grouped p gid dim3) p.
Proof. exact grouped_perm. Qed.
Print Assumptions C12_group_permutation.

Example C12_nonvacuous :
  group_points nat [10; 11; 12; 13; 14; 15]%nat 6 8 [3; 0; 3; 5; 0; 3] [2; 0; 0; 3; 0; 1; 0; 0]
  = Ok ([11; 14; 10; 12; 15; 13]%nat, [0; 2; 2; 2; 5; 5; 6; 6]).
Proof. vm_compute. reflexivity. Qed.
