(** What messages must deliver, without reference to their layout. *)
From Coq Require Import ZArith List.
From Verif Require Import Base IndexModel TreeModel LookupModel LookupSpec EdgeGroupModel MessageModel.
Import ListNotations.
Open Scope Z_scope.

(** The contract of a serializer for a record (serializer.h:38-73): it writes
    as many bytes as it reports, and reading them, whatever follows, gives the
    record back and moves the pointer behind them. *)
Definition codec_ok {A} (z : serializer A) (x : A) : Prop :=
  length (z_write z x) = z_size z x /\ forall rest, z_read z (z_write z x ++ rest) = Ok (x, z_size z x).

(** Values that fit the C++ types of the fields. *)
Definition int_ok (v : Z) : Prop := - 2 ^ 31 <= v < 2 ^ 31.
Definition u64_ok (v : Z) : Prop := 0 <= v < 2 ^ 64.
Definition index_ok (i : index) : Prop := int_ok (ix i) /\ int_ok (iy i) /\ int_ok (iz i) /\ int_ok (ilevel i).
Definition edge_ok (e : oedge) : Prop := u64_ok (o_addr e) /\ index_ok (o_idx e) /\ int_ok (o_loc e).

(** Operations out of source leaves, and out of expansions. *)
Definition from_source (o : operation) : Prop := o = StoM \/ o = StoL \/ o = StoT.
Definition from_expansion (o : operation) : Prop := o <> Nop /\ ~ from_source o.

(** The address an edge must end up with: the one known to the sender or,
    if that is null, the address of the DAG node the operation leads to, on the
    node with the edge's index in the tree the operation leads to. *)
Definition address_for (stree ttree : tree lnode) (e : oedge) (a : Z) : Prop :=
  (o_addr e <> 0 /\ a = o_addr e) \/
  (o_addr e = 0 /\ exists n, (ends_in_source (o_op e) /\ node_at stree (o_idx e) n \/ ~ ends_in_source (o_op e) /\ node_at ttree (o_idx e) n)
                             /\ slot_for (o_op e) (info n) = Some a).
