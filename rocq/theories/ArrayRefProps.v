(** C26: ArrayRef::slice.  As stated (for all 64-bit arguments) the claim is
    false: the sum [offset + n] wraps. *)
From Coq Require Import ZArith Bool Lia.
From Verif Require Import ArrayRefModel.
Open Scope Z_scope.

Definition null_ref : aref := {| r_data := None; r_n := 0 |}.

(** When the sum does not wrap, the slice is exactly records
    [d+offset .. d+offset+n), and null when it would leave the reference. *)
Theorem C26_slice_no_wrap : forall d m offset n, 0 <= m < 2 ^ 64 -> 0 <= offset < 2 ^ 64 -> 0 <= n < 2 ^ 64 ->
  offset + n < 2 ^ 64 ->
  slice {| r_data := Some d; r_n := m |} offset n =
  if offset + n <=? m then {| r_data := Some (d + offset); r_n := n |} else null_ref.
Proof.
  intros d m offset n Hm Ho Hn Hs. unfold slice, u64. cbn [r_n r_data]. rewrite Z.mod_small by lia.
  destruct (Z.ltb_spec m offset), (Z.ltb_spec m (offset + n)), (Z.leb_spec (offset + n) m); try reflexivity; lia.
Qed.
Print Assumptions C26_slice_no_wrap.

(** Exactly which arguments give a valid slice reaching past the reference. *)
Theorem C26_slice_escapes_iff : forall d m offset n, 0 <= m < 2 ^ 64 -> 0 <= offset < 2 ^ 64 -> 0 <= n < 2 ^ 64 ->
  (valid (slice {| r_data := Some d; r_n := m |} offset n) = true /\ m < offset + n
   <-> offset <= m /\ 2 ^ 64 <= offset + n <= 2 ^ 64 + m).
Proof.
  intros d m offset n. unfold slice, u64, valid. cbn [r_n r_data]. generalize (2 ^ 64). intros W Hm Ho Hn.
  destruct (Z.ltb_spec m offset) as [A|A]; cbn [r_data].
  { split; intros [X Y]; [discriminate|lia]. }
  destruct (Z_lt_le_dec (offset + n) W) as [L|L].
  - rewrite Z.mod_small by lia. destruct (Z.ltb_spec m (offset + n)); cbn [r_data]; split; intros [X Y]; try discriminate; lia.
  - assert (E : (offset + n) mod W = offset + n - W) by (symmetry; apply (Z.mod_unique _ _ 1); lia).
    rewrite E. destruct (Z.ltb_spec m (offset + n - W)); cbn [r_data]; split; intros [X Y]; try discriminate; try lia.
Qed.
Print Assumptions C26_slice_escapes_iff.

(** slice(1, 2^64-1) of a 10-record reference claims 2^64-1 records. *)
Theorem C26_slice_wrap_refuted : 
  slice {| r_data := Some 0; r_n := 10 |} 1 (2 ^ 64 - 1) = {| r_data := Some 1; r_n := 2 ^ 64 - 1 |}.
Proof. reflexivity. Qed.
Print Assumptions C26_slice_wrap_refuted.

(** A slice of a slice is the slice at the summed offset. *)
Theorem C26_slice_compose : forall d m o1 n1 o2 n2, 0 <= m < 2 ^ 64 -> 0 <= o1 -> 0 <= n1 -> 0 <= o2 -> 0 <= n2 ->
  o1 + n1 <= m -> o2 + n2 <= n1 ->
  slice (slice {| r_data := Some d; r_n := m |} o1 n1) o2 n2 = slice {| r_data := Some d; r_n := m |} (o1 + o2) n2.
Proof.
  intros d m o1 n1 o2 n2 Hm H1 H2 H3 H4 H5 H6.
  rewrite (C26_slice_no_wrap d m o1 n1), (C26_slice_no_wrap d m (o1 + o2) n2) by lia.
  destruct (Z.leb_spec (o1 + n1) m); [|lia]. rewrite C26_slice_no_wrap by lia.
  destruct (Z.leb_spec (o2 + n2) n1), (Z.leb_spec (o1 + o2 + n2) m); try lia. f_equal. f_equal. lia.
Qed.
Print Assumptions C26_slice_compose.

Example C26_nonvacuous : slice {| r_data := Some 100; r_n := 10 |} 4 6 = {| r_data := Some 104; r_n := 6 |} /\
  slice {| r_data := Some 100; r_n := 10 |} 4 7 = null_ref /\ slice {| r_data := Some 100; r_n := 10 |} 10 0 = {| r_data := Some 110; r_n := 0 |}.
Proof. repeat split. Qed.
