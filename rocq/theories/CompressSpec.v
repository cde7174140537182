(** What arrives on the other ranks. *)
From Coq Require Import ZArith List Bool Arith.
From Verif Require Import Base IndexModel TreeModel CompressModel.
Import ListNotations.
Open Scope Z_scope.

(** Node reached from [r] by following child slots in the rebuilt memory. *)
Fixpoint follow_links (m : emem) (r : Z) (p : list nat) : option Z :=
  match p with
  | [] => Some r
  | w :: p' =>
      match (if r <? 0 then Some (m_this m) else nth_error (m_block m) (Z.to_nat r)) with
      | Some n => match nth_error (e_child n) w with Some (Some r') => follow_links m r' p' | _ => None end
      | None => None
      end
  end.

(** The node behind a reference. *)
Definition node_behind (m : emem) (r : Z) : option enode := if r <? 0 then Some (m_this m) else nth_error (m_block m) (Z.to_nat r).
