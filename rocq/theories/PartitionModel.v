(** Model of [partition] and [distribute_points_hilbert], src/hilbert.cc:89-178.
    [int] values are unbounded [Z]: every intermediate value is at most the
    total count, so the model is exact when the total fits in [int]. *)
From Coq Require Import ZArith List.
From Verif Require Import Base HilbertModel.
Import ListNotations.
Local Open Scope Z_scope.

(** hilbert.cc:94-98: [cumulative], len+1 entries.  The loop is written as a
    recursion over [counts], which has exactly [len] entries at the only call
    site (hilbert.cc:150,168). *)
Fixpoint prefix_sums (acc : Z) (counts : list Z) : list Z :=
  match counts with
  | [] => [acc]
  | c :: counts' => acc :: prefix_sums (c + acc) counts'
  end.

(** [std::partition_point]: number of leading elements satisfying [f]. *)
Fixpoint partition_point {A} (f : A -> bool) (l : list A) : nat :=
  match l with
  | [] => 0%nat
  | a :: l' => if f a then S (partition_point f l') else 0%nat
  end.

(** hilbert.cc:104-118: the body of the loop over [split]. *)
Definition cut (cumulative : list Z) (target_share split : Z) : res Z :=
  let my_target := target_share * split in
  let splitter := Z.of_nat (partition_point (fun a => a <? my_target) cumulative) in
  do at_splitter <- nth_resZ cumulative splitter;
  let upper_delta := at_splitter - my_target in
  do _ <- assert_ (upper_delta >=? 0);
  do before <- nth_resZ cumulative (splitter - 1);
  let lower_delta := my_target - before in
  do _ <- assert_ (lower_delta >=? 0);
  let split_index := if upper_delta <? lower_delta then splitter else splitter - 1 in
  let split_index := split_index - 1 in
  do _ <- assert_ (split_index >=? 0);
  Ok split_index.

(** hilbert.cc:127-129: inner fill loop [for (j = b; j <= e; ++j)]. *)
Definition fill_range (retval : list Z) (b e i : Z) : res (list Z) :=
  foldM (fun r j => set_resZ r j i) (zseq b (Z.to_nat (e - b + 1))) retval.

(** hilbert.cc:124-130: outer fill loop over the ranks. *)
Definition fill (cuts : list Z) (np : Z) (retval : list Z) : res (list Z) :=
  foldM (fun r i =>
    do b <- (if i =? 0 then Ok 0 else do c <- nth_resZ cuts (i - 1); Ok (c + 1));
    do e <- nth_resZ cuts i;
    fill_range r b e i) (zseq 0 (Z.to_nat np)) retval.

(** hilbert.cc:89-133 [partition].  [np <= 0] divides by zero or asks for a
    vector of negative size. *)
Definition partition (counts : list Z) (np : Z) : res (list Z) :=
  let len := Z.of_nat (length counts) in
  if np <=? 0 then Fail DivZero else
  let cumulative := prefix_sums 0 counts in
  do total <- nth_resZ cumulative len;
  let target_share := Z.quot total np in
  do cuts <- mapM (cut cumulative target_share) (zseq 1 (Z.to_nat (np - 1)));
  fill (cuts ++ [len - 1]) np (repeat 0 (length counts)).

(** hilbert.cc:150-168: the triple loop filling [counts] and [origin]. *)
Definition curve_counts (global : list Z) (len klen : Z) : res (list Z * list Z) :=
  foldM (fun st zidx =>
    foldM (fun st yidx =>
      foldM (fun st xidx =>
        let '(counts, origin) := st in
        let i := xidx + (zidx * klen * klen + yidx * klen) in
        do hidx <- hilbert_key xidx yidx zidx klen;
        do si <- nth_resZ global i;
        do ti <- nth_resZ global (len + i);
        do counts' <- set_resZ counts hidx (si + ti);
        do origin' <- set_resZ origin hidx i;
        Ok (counts', origin')) (zseq 0 (Z.to_nat klen)) st)
      (zseq 0 (Z.to_nat klen)) st)
    (zseq 0 (Z.to_nat klen)) (repeat 0 (Z.to_nat len), repeat 0 (Z.to_nat len)).

(** hilbert.cc:139-177 [distribute_points_hilbert].  The result is an array of
    uninitialised [int]s that the last loop fills: [None] is an element never
    written. *)
Definition distribute_points_hilbert (num_ranks : Z) (global : list Z) (len lvl : Z)
  : res (list (option Z)) :=
  let klen := Z.shiftl 1 lvl in
  do st <- curve_counts global len klen;
  let '(counts, origin) := st in
  do rm <- partition counts num_ranks;
  foldM (fun r hidx =>
    do o <- nth_resZ origin hidx;
    do v <- nth_resZ rm hidx;
    set_resZ r o (Some v)) (zseq 0 (Z.to_nat len)) (repeat None (Z.to_nat len)).
