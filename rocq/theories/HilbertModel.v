(** Model of the Hilbert key, src/hilbert.cc:54-85. *)
From Coq Require Import ZArith List Bool.
From Verif Require Import Base.
Import ListNotations.
Local Open Scope Z_scope.

(** hilbert.cc:54 [h_indicies]. *)
Definition h_indicies : list Z := [0; 1; 3; 2; 7; 6; 4; 5].

(** hilbert.cc:55-64 [h_transforms]. *)
Definition h_transforms : list (list Z) :=
  [ [0; 7; 4; 3; 2; 5; 6; 1];
    [0; 3; 4; 7; 6; 5; 2; 1];
    [0; 3; 4; 7; 6; 5; 2; 1];
    [2; 1; 0; 3; 4; 7; 6; 5];
    [2; 1; 0; 3; 4; 7; 6; 5];
    [6; 5; 2; 1; 0; 3; 4; 7];
    [6; 5; 2; 1; 0; 3; 4; 7];
    [6; 1; 2; 5; 4; 3; 0; 7] ].


(** hilbert.cc:73-75 [m_index]; [%] and [/] truncate. *)
Definition m_index (x y z s : Z) : Z :=
  4 * (if Z.rem z s >=? Z.quot s 2 then 1 else 0)
  + 2 * (if Z.rem y s >=? Z.quot s 2 then 1 else 0)
  + (if Z.rem x s >=? Z.quot s 2 then 1 else 0).

(** hilbert.cc:76-81: the digit [offsets[h_indicies[m_index]]] and the new
    [offsets] array. *)
Definition hilbert_table_step (offsets : list Z) (m : Z) : res (Z * list Z) :=
  do hi <- nth_resZ h_indicies m;
  do d <- nth_resZ offsets hi;
  do next <- mapM (fun i =>
      do row <- nth_resZ h_transforms d;
      do oi <- nth_resZ offsets i;
      nth_resZ row oi) (zseq 0 8);
  Ok (d, next).

(** hilbert.cc:72-82: the loop [for (s = slen; s > 1; s /= 2)].  Fuel bounds
    the number of iterations; running out is a failure. *)
Fixpoint hilbert_loop (fuel : nat) (s x y z key : Z) (offsets : list Z) : res Z :=
  if s >? 1 then
    match fuel with
    | O => Fail OutOfFuel
    | S fuel' =>
        do r <- hilbert_table_step offsets (m_index x y z s);
        let '(d, next) := r in
        hilbert_loop fuel' (Z.quot s 2) x y z (key + Z.quot (s * s * s) 8 * d) next
    end
  else Ok key.

(** hilbert.cc:67-85 [hilbert_key]. *)
Definition hilbert_key (x y z slen : Z) : res Z :=
  hilbert_loop (Z.to_nat (Z.log2 slen)) slen x y z 0 (zseq 0 8).
