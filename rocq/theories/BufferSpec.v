(** Sequences of buffer operations. *)
From Coq Require Import ZArith List Arith.
From Verif Require Import Base BufferModel.
Import ListNotations.

(** Consistent cursor. *)
Definition wf (b : buf) : Prop := b_off b + b_rem b = length (b_mem b).

Inductive bop :=
| OAdvance (n : nat)
| ORead (n : nat)
| OInterpret (n : nat)
| OWrite (data : list Z)
| OWriteArray (data : list Z)
| OWriteBuf (inp : buf).

(** Effect of an operation on the buffer. *)
Definition run_op (b : buf) (o : bop) : res buf :=
  match o with
  | OAdvance n => Ok (fst (advance b n))
  | ORead n => do r <- read b n; Ok (fst (fst r))
  | OInterpret n => Ok (fst (interpret b n))
  | OWrite d => do r <- write b d; Ok (fst r)
  | OWriteArray d => do r <- write_array b d; Ok (fst r)
  | OWriteBuf i => do r <- write_buf b i; Ok (fst (fst r))
  end.

Definition inputs_wf (o : bop) : Prop := match o with OWriteBuf i => wf i | _ => True end.

(** The three kinds of write, their payload, and their outcome. *)
Inductive wop := WBytes (d : list Z) | WArray (d : list Z) | WBuf (inp : buf).
Definition payload (w : wop) : list Z :=
  match w with WBytes d | WArray d => d | WBuf i => skipn (b_off i) (b_mem i) end.
Definition do_write (b : buf) (w : wop) : res (buf * bool) :=
  match w with
  | WBytes d => write b d
  | WArray d => write_array b d
  | WBuf i => do r <- write_buf b i; Ok (fst (fst r), snd r)
  end.

(** Runs writes, giving [None] as soon as one returns false. *)
Fixpoint write_all (b : buf) (ws : list wop) : res (option buf) :=
  match ws with
  | [] => Ok (Some b)
  | w :: ws' => do r <- do_write b w; if snd r then write_all (fst r) ws' else Ok None
  end.

(** Reads the given sizes in turn, collecting bytes and return values. *)
Fixpoint read_all (b : buf) (sizes : list nat) : res (list (list Z * bool)) :=
  match sizes with
  | [] => Ok []
  | n :: ns => do r <- read b n; do rest <- read_all (fst (fst r)) ns; Ok ((snd (fst r), snd r) :: rest)
  end.
