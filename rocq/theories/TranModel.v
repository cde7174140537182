(** The tables and the translations of the Laplace expansions: src/laplace_table.cc,
    include/builtins/builtin_table.h, src/laplace.cc, include/builtins/laplace.h.  Doubles
    are real numbers, as in LapModel. *)
From Coq Require Import Reals ZArith List Bool.
From Verif Require Import Base LapModel IndexModel.
Import ListNotations.
Open Scope R_scope.

(** special_function.h:41-43 didx and 53-55 pow_m1 *)
Definition didx (n mp m : Z) : Z := (n * (n + 1) * (4 * n - 1) / 6 + mp * (2 * n + 1) + n + m)%Z.
Definition pow_m1 (m : Z) : R := if (Z.rem m 2 =? 0)%Z then 1 else -1.

(** laplace_table.cc:228-258 generate_sqbinom *)
Definition binom_row (n : nat) (b : list R) : res (list R) :=
  do b <- set_res b (midx n 0) 1;
  do b <- foldM (fun b m => do u <- nth_res b (midx (n - 1) 0 + m); do v <- nth_res b (midx (n - 1) 0 + (m - 1));
                            set_res b (midx n 0 + m) (u + v)) (seq 1 (n - 1)) b;
  set_res b (midx n 0 + n) 1.
Definition generate_sqbinom (p : nat) : res (list R) :=
  let N := (2 * p)%nat in
  let total := ((N + 1) * (N + 2) / 2)%nat in
  do b <- set_res (repeat 0 total) 0 1;
  do b <- set_res b 1 1;
  do b <- set_res b 2 1;
  do b <- foldM (fun b n => binom_row n b) (seq 2 (N - 1)) b;
  foldM (fun b i => do v <- nth_res b i; do s <- rsqrt v; set_res b i s) (seq 0 total) b.

(** laplace_table.cc:328-361: the right sides for [dpc[m]] in row 0 of degree [n] *)
Definition dmat_entry0 (cbeta sbeta : R) (n m : Z) (dp : list R) : res R :=
  let hi := do a <- rsqrt (IZR ((n - m) * (n - m - 1))); do d <- nth_resZ dp (didx (n - 1) 0 0 + (m + 1)); Ok (a * d) in
  let mid := do a <- rsqrt (IZR ((n - m) * (n + m))); do d <- nth_resZ dp (didx (n - 1) 0 0 + m); Ok (a * d) in
  let lo := do a <- rsqrt (IZR ((n + m) * (n + m - 1))); do d <- nth_resZ dp (didx (n - 1) 0 0 + (m - 1)); Ok (a * d) in
  if (m =? - n)%Z then do h <- hi; rdiv (- sbeta * (1 / 2) * h) (IZR n)
  else if (m =? - n + 1)%Z then do h <- hi; do k <- mid; rdiv (- sbeta * (1 / 2) * h + cbeta * k) (IZR n)
  else if (m <=? n - 2)%Z then do h <- hi; do k <- mid; do l <- lo; rdiv (- sbeta * (1 / 2) * h + cbeta * k + sbeta * (1 / 2) * l) (IZR n)
  else if (m =? n - 1)%Z then do k <- mid; do l <- lo; rdiv (cbeta * k + sbeta * (1 / 2) * l) (IZR n)
  else do l <- lo; rdiv (sbeta * (1 / 2) * l) (IZR n).

(** laplace_table.cc:364-398: the right sides for [dpc[m]] in row [mp] of degree [n] *)
Definition dmat_entry (s2beta2 c2beta2 sbeta : R) (n mp m : Z) (dp : list R) : res R :=
  do w <- rsqrt (IZR ((n + mp) * (n + mp - 1)));
  do factor <- rdiv 1 w;
  let hi := do a <- rsqrt (IZR ((n - m) * (n - m - 1))); do d <- nth_resZ dp (didx (n - 1) (mp - 1) 0 + (m + 1)); Ok (a * d) in
  let mid := do a <- rsqrt (IZR ((n + m) * (n - m))); do d <- nth_resZ dp (didx (n - 1) (mp - 1) 0 + m); Ok (a * d) in
  let lo := do a <- rsqrt (IZR ((n + m) * (n + m - 1))); do d <- nth_resZ dp (didx (n - 1) (mp - 1) 0 + (m - 1)); Ok (a * d) in
  if (m =? - n)%Z then do h <- hi; Ok (s2beta2 * h * factor)
  else if (m =? - n + 1)%Z then do h <- hi; do k <- mid; Ok ((s2beta2 * h - sbeta * k) * factor)
  else if (m <=? n - 2)%Z then do h <- hi; do l <- lo; do k <- mid; Ok ((s2beta2 * h + c2beta2 * l - sbeta * k) * factor)
  else if (m =? n - 1)%Z then do k <- mid; do l <- lo; Ok ((- sbeta * k + c2beta2 * l) * factor)
  else do l <- lo; Ok (c2beta2 * l * factor).

(** [dpc[m] = v; dmc[m] = v * sgn] *)
Definition dmat_put (i : Z) (v sgn : R) (d : list R * list R) : res (list R * list R) :=
  do dp <- set_resZ (fst d) i v; do dm <- set_resZ (snd d) i (v * sgn); Ok (dp, dm).

(** laplace_table.cc:296-401 generate_dmatrix_of_beta.  The statements for m = -n, -n + 1,
    the loop over m, and those for m = n - 1, n are one loop over m = -n..n here, in the same
    order. *)
Definition dmat_row0 (cbeta sbeta : R) (n : nat) (d : list R * list R) : res (list R * list R) :=
  foldM (fun d m => do v <- dmat_entry0 cbeta sbeta (Z.of_nat n) m (fst d);
                    dmat_put (didx (Z.of_nat n) 0 0 + m) v (pow_m1 m) d) (zseq (- Z.of_nat n) (2 * n + 1)) d.
Definition dmat_row (s2beta2 c2beta2 sbeta : R) (n mp : nat) (d : list R * list R) : res (list R * list R) :=
  foldM (fun d m => do v <- dmat_entry s2beta2 c2beta2 sbeta (Z.of_nat n) (Z.of_nat mp) m (fst d);
                    dmat_put (didx (Z.of_nat n) (Z.of_nat mp) 0 + m) v (pow_m1 (Z.of_nat mp - m)) d) (zseq (- Z.of_nat n) (2 * n + 1)) d.
Definition dmat_base (cbeta sbeta s2beta2 c2beta2 : R) (nd : nat) : res (list R * list R) :=
  let z := repeat 0 nd in
  do dp <- set_res z 0 1; do dm <- set_res z 0 1;
  do a <- rdiv (- sbeta) (sqrt 2); do b <- rdiv sbeta (sqrt 2);
  do dp <- set_res dp 1 a; do dp <- set_res dp 2 cbeta; do dp <- set_res dp 3 b;
  do dm <- set_res dm 1 (- a); do dm <- set_res dm 2 cbeta; do dm <- set_res dm 3 (- b);
  do dp <- set_res dp 4 s2beta2; do dp <- set_res dp 5 a; do dp <- set_res dp 6 c2beta2;
  do dm <- set_res dm 4 s2beta2; do dm <- set_res dm 5 (- a); do dm <- set_res dm 6 c2beta2;
  Ok (dp, dm).
Definition generate_dmatrix_of_beta (p : nat) (beta : R) : res (list R * list R) :=
  let cbeta := cos beta in
  let sbeta := sin beta in
  let s2beta2 := (1 - cbeta) / 2 in
  let c2beta2 := (1 + cbeta) / 2 in
  do d <- dmat_base cbeta sbeta s2beta2 c2beta2 ((p + 1) * (4 * p * p + 11 * p + 6) / 6);
  foldM (fun d n => do d <- dmat_row0 cbeta sbeta n d;
                    foldM (fun d mp => dmat_row s2beta2 c2beta2 sbeta n mp d) (seq 1 n) d) (seq 2 (p - 1)) d.

(** builtin_table.h:29-41: std::map with the comparator [builtin_cmp]; two keys of which
    neither is less are the same key.  The map is the list of its entries. *)
Definition builtin_cmp (a b : R) : bool :=
  let aa := IZR (Int_part (a * 1000000)) / 100000 in
  let bb := IZR (Int_part (b * 1000000)) / 100000 in
  if Req_EM_T aa bb then false else if Rlt_dec aa bb then true else false.
Definition same_key (a b : R) : bool := negb (builtin_cmp a b) && negb (builtin_cmp b a).
Definition dmap : Type := list (R * list R).
Fixpoint map_set (k : R) (v : list R) (m : dmap) : dmap :=
  match m with
  | [] => [(k, v)]
  | (k', v') :: m => if same_key k k' then (k', v) :: m else (k', v') :: map_set k v m
  end.
(** [at] throws std::out_of_range when the key is missing. *)
Fixpoint map_at (k : R) (m : dmap) : res (list R) :=
  match m with
  | [] => Fail Oob
  | (k', v') :: m => if same_key k k' then Ok v' else map_at k m
  end.

(** laplace_table.cc:264-271 *)
Definition cbetas : list R :=
  [1 / sqrt 5; 1 / sqrt 6; 1 / sqrt 9; 1 / sqrt 10; 1 / sqrt 11; 1 / sqrt 14; 1 / sqrt 19; 2 / sqrt 5; sqrt (2 / 3);
   sqrt (1 / 2); sqrt (4 / 9); sqrt (1 / 3); sqrt (4 / 13); sqrt (2 / 7); sqrt (4 / 17); sqrt (2 / 11); sqrt (9 / 10);
   sqrt (9 / 11); sqrt (9 / 13); sqrt (9 / 14); sqrt (9 / 17); sqrt (9 / 19); sqrt (9 / 22); 0].

(** laplace_table.cc:260-294 generate_wigner_dmatrix *)
Definition add_dmatrix (p : nat) (maps : dmap * dmap) (c : R) : res (dmap * dmap) :=
  do (dp, dm) <- generate_dmatrix_of_beta p (acos c);
  Ok (map_set c dp (fst maps), map_set c dm (snd maps)).
Definition generate_wigner_dmatrix (p : nat) : res (dmap * dmap) :=
  do maps <- foldM (add_dmatrix p) cbetas ([], []);
  foldM (add_dmatrix p) (map Ropp (firstn 23 cbetas)) maps.

(** laplace_table.h:38-50 what the translations use of the table, and laplace_table.cc:27-37
    the part of the constructor that makes it.  The tables of the exponential expansions are
    in WaveModel. *)
Record table := mkTable { tb_p : nat; tb_sqf : list R; tb_sqbinom : list R; tb_plus : dmap; tb_minus : dmap }.
Definition expan_length : list nat := [0; 4; 7; 9; 13; 16; 18; 23; 26; 29; 33; 36; 40; 43; 46]%nat.
Definition table_of_order (p : nat) : res table :=
  do sqf <- generate_sqf p;
  do sqbinom <- generate_sqbinom p;
  do (dp, dm) <- generate_wigner_dmatrix p;
  Ok (mkTable p sqf sqbinom dp dm).
Definition laplace_table (n_digits : nat) : res table :=
  do p <- nth_res expan_length n_digits; table_of_order p.
Definition dmat_plus (tb : table) (v : R) : res (list R) := map_at v (tb_plus tb).
Definition dmat_minus (tb : table) (v : R) : res (list R) := map_at v (tb_minus tb).

Definition conj (u : cplx) : cplx := (fst u, - snd u).

(** The double loop over n <= p and m <= n that writes W[offset], offset counting up: used
    by all the functions below. *)
Definition each_term (p : nat) (f : nat -> nat -> nat -> list cplx -> res cplx) (W : list cplx) : res (list cplx) :=
  do r <- foldM (fun '(W, off) n => foldM (fun '(W, off) m =>
    do v <- f n m off W; do W' <- set_res W off v; Ok (W', S off)) (seq 0 (S n)) (W, off)) (seq 0 (S p)) (W, 0%nat);
  Ok (fst r).

(** laplace.cc:23-42 lap_rotate_sph_z *)
Definition rotate_z (tb : table) (M : list cplx) (alpha : R) (MR : list cplx) : res (list cplx) :=
  let p := tb_p tb in
  let ealpha := (cos alpha, sin alpha) in
  do pe <- set_res (repeat (0, 0) (p + 1)) 0 (1, 0);
  do pe <- fill (fun v => Ok (cmul v ealpha)) p pe;
  each_term p (fun n m off _ => do v <- nth_res M off; do e <- nth_res pe m; Ok (cmul v e)) MR.

(** laplace.cc:44-66 lap_rotate_sph_y.  The sum is collected before it is stored in
    [MR[offset]]; the alternating signs [power_m] and [power_mp] are (-1)^m and (-1)^mp. *)
Definition rotate_y (tb : table) (M : list cplx) (d : list R) (MR : list cplx) : res (list cplx) :=
  each_term (tb_p tb) (fun n mp _ _ =>
    let coeff m := nth_resZ d (didx (Z.of_nat n) (Z.of_nat mp) 0 + m) in
    do v0 <- nth_res M (midx n 0 + 0); do c0 <- coeff 0%Z;
    do v <- foldM (fun v m => do a <- nth_res M (midx n 0 + m); do cp <- coeff (Z.of_nat m); do cm <- coeff (- Z.of_nat m)%Z;
                              Ok (cadd v (cadd (cscale (cscale a ((-1) ^ m)) cp) (cscale (conj a) cm)))) (seq 1 n) (cscale v0 c0);
    Ok (cscale v ((-1) ^ mp))) MR.

(** laplace.cc:164-168 and 230-234 *)
Definition powers (p : nat) (rho : R) : res (list R) :=
  do a <- set_res (repeat 0 (p + 1)) 0 1; fill (fun v => Ok (v * rho)) p a.

(** laplace.cc:187-197 in lap_m_to_m and 253-263 in lap_l_to_l: the shift along the z axis *)
Definition shift_m (tb : table) (T : list cplx) (pr : list R) (W : list cplx) : res (list cplx) :=
  each_term (tb_p tb) (fun n m off _ =>
    do v <- nth_res T off;
    foldM (fun v k => do t <- nth_res T (midx (n - k) m); do r <- nth_res pr k;
                      do a <- nth_res (tb_sqbinom tb) (midx (n - m) k); do b <- nth_res (tb_sqbinom tb) (midx (n + m) k);
                      Ok (cadd v (cscale (cscale (cscale t r) a) b))) (seq 1 (n - m)) v) W.
Definition shift_l (tb : table) (T : list cplx) (pr : list R) (W : list cplx) : res (list cplx) :=
  each_term (tb_p tb) (fun n m off _ =>
    do v <- nth_res T off;
    foldM (fun v k => do t <- nth_res T (midx (n + k) m); do r <- nth_res pr k;
                      do a <- nth_res (tb_sqbinom tb) (midx (n + k - m) k); do b <- nth_res (tb_sqbinom tb) (midx (n + k + m) k);
                      Ok (cadd v (cscale (cscale (cscale t r) a) b))) (seq 1 (tb_p tb - n)) v) W.

(** laplace.cc:173 and 239; M_PI_4 is a quarter of pi *)
Definition tab_alpha : list R := [1; 3; 7; 5; 1; 3; 7; 5].

(** laplace.cc:201-208 and 267-274: [temp] is 2^-n *)
Definition halve (p : nat) (W : list cplx) : res (list cplx) :=
  each_term p (fun n m off W => do v <- nth_res W off; Ok (cscale v ((1 / 2) ^ n))) W.

(** laplace.cc:145-209 lap_m_to_m and 211-275 lap_l_to_l; both differ only in the shift *)
Definition translate (tb : table) (shift : table -> list cplx -> list R -> list cplx -> res (list cplx)) (rho : R)
  (which : nat) (M W : list cplx) : res (list cplx) :=
  let p := tb_p tb in
  let v := if (which <? 4)%nat then 1 / sqrt 3 else - 1 / sqrt 3 in
  do d1 <- dmat_plus tb v;
  do d2 <- dmat_minus tb v;
  do pr <- powers p rho;
  let T := repeat (0, 0) ((p + 1) * (p + 2) / 2) in
  do k <- nth_res tab_alpha which;
  let alpha := k * (PI / 4) in
  do W <- rotate_z tb M alpha W;
  do T <- rotate_y tb W d1 T;
  do W <- shift tb T pr W;
  do T <- rotate_y tb W d2 T;
  do W <- rotate_z tb T (- alpha) W;
  halve p W.
Definition lap_m_to_m (tb : table) (from_child : nat) (M W : list cplx) : res (list cplx) :=
  translate tb shift_m (- sqrt 3 / 2) from_child M W.
Definition lap_l_to_l (tb : table) (to_child : nat) (L W : list cplx) : res (list cplx) :=
  translate tb shift_l (- sqrt 3 / 4) to_child L W.

(** laplace.h:187-193 M_to_M and 252-258 L_to_L *)
Definition M_to_M (tb : table) (from_child : nat) (M : list cplx) : res (list cplx) :=
  lap_m_to_m tb from_child M (new_expansion (tb_p tb)).
Definition L_to_L (tb : table) (to_child : nat) (L : list cplx) : res (list cplx) :=
  lap_l_to_l tb to_child L (new_expansion (tb_p tb)).

(** laplace.h:375-392 M_to_L_zp and 394-411 M_to_L_zm; [sgn] is the argument of pow_m1 *)
Definition M_to_L_z (tb : table) (sgn : Z -> Z -> Z -> Z) (scale : R) (M : list cplx) (rho : list R) (L : list cplx) : res (list cplx) :=
  let p := tb_p tb in
  each_term p (fun j k _ _ =>
    do v <- foldM (fun v n => do a <- nth_res M (midx n k); do r <- nth_res rho (j + n);
                              do b1 <- nth_res (tb_sqbinom tb) (midx (n + j) (n - k)); do b2 <- nth_res (tb_sqbinom tb) (midx (n + j) (n + k));
                              Ok (cadd v (cscale (cscale (cscale (cscale a (pow_m1 (sgn (Z.of_nat n) (Z.of_nat j) (Z.of_nat k)))) r) b1) b2)))
                  (seq k (p + 1 - k)) (0, 0);
    Ok (cscale v scale)) L.
Definition M_to_L_zp (tb : table) (scale : R) := M_to_L_z tb (fun n j k => n + k)%Z scale.
Definition M_to_L_zm (tb : table) (scale : R) := M_to_L_z tb (fun n j k => k + j)%Z scale.

(** laplace.h:195-250 M_to_L *)
Definition M_to_L (tb : table) (scale : R) (s_index t_index : index) (M : list cplx) : res (list cplx) :=
  let p := tb_p tb in
  let x := (ix s_index - ix t_index)%Z in
  let y := (iy s_index - iy t_index)%Z in
  let z := (iz s_index - iz t_index)%Z in
  let rho := sqrt (IZR (x * x + y * y + z * z)) in
  do r0 <- rdiv 1 rho;
  do pr <- set_res (repeat 0 (p * 2 + 1)) 0 r0;
  do pr <- fill (fun v => rdiv v rho) (p * 2) pr;
  let W1 := new_expansion p in
  let W2 := repeat (0, 0) ((p + 1) * (p + 2) / 2) in
  let proj := sqrt (IZR (x * x + y * y)) in
  if Rlt_dec proj tiny then
    if (0 <? z)%Z then M_to_L_zp tb scale M pr W1 else M_to_L_zm tb scale M pr W1
  else
    do q <- rdiv (IZR x) proj;
    let beta := if (y <? 0)%Z then 2 * PI - acos q else acos q in
    do v <- rdiv (IZR z) rho;
    do d1 <- dmat_plus tb v;
    do d2 <- dmat_minus tb v;
    do W1 <- rotate_z tb M beta W1;
    do W2 <- rotate_y tb W1 d1 W2;
    do W1 <- M_to_L_zp tb scale W2 pr W1;
    do W2 <- rotate_y tb W1 d2 W2;
    rotate_z tb W2 (- beta) W1.

(** laplace_table.h:43 scale(lev), the scale of the boxes of a level, for a domain of side
    [size] (laplace_table.cc:30) *)
Definition level_scale (size : R) (lev : Z) : R := 1 / size * powerRZ 2 lev.
(** domaingeometry.cc:51-55 center_from_index in real numbers *)
Definition box_center (corner : pt) (size : R) (i : index) : pt :=
  let s := size / powerRZ 2 (ilevel i) in
  mkPt ((IZR (ix i) + 1 / 2) * s + px corner) ((IZR (iy i) + 1 / 2) * s + py corner) ((IZR (iz i) + 1 / 2) * s + pz corner).
