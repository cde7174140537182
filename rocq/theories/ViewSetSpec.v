(** Well-formed view sets and what interpreting them must give back. *)
From Coq Require Import ZArith List.
From Verif Require Import Base ViewSetModel BufferModel.
Import ListNotations.
Open Scope nat_scope.

(** Field values in range, doubles of 8 bytes, each view's data as long as its
    size says, fewer than 2^31 views and a total size below 2^64. *)
Definition wf_vs (vs : viewset) : Prop :=
  (0 <= vs_role vs < 2 ^ 32)%Z /\
  length (vs_x vs) = 8 /\ length (vs_y vs) = 8 /\ length (vs_z vs) = 8 /\ length (vs_scale vs) = 8 /\
  (Z.of_nat (length (vs_views vs)) < 2 ^ 31)%Z /\
  Forall (fun v => (- 2 ^ 31 <= v_index v < 2 ^ 31)%Z /\ length (v_data v) = v_bytes v) (vs_views vs) /\
  (Z.of_nat (length (concat (map v_data (vs_views vs)))) + 40 + 12 * Z.of_nat (length (vs_views vs)) < 2 ^ 64)%Z.

(** The interpreted set describes the same expansion, its data pointers
    pointing at the same bytes inside [mem]. *)
Definition same_contents (mem : list Z) (vs : viewset) (ps : pviewset) : Prop :=
  ps_role ps = vs_role vs /\ ps_x ps = vs_x vs /\ ps_y ps = vs_y vs /\ ps_z ps = vs_z vs /\ ps_scale ps = vs_scale vs /\
  Forall2 (fun v p => p_index p = v_index v /\ p_bytes p = v_bytes v /\
             p_data p + p_bytes p <= length mem /\ firstn (p_bytes p) (skipn (p_data p) mem) = v_data v)
          (vs_views vs) (ps_views ps).
