(** The multipole and local expansions of the Laplace kernel: src/special_function.cc,
    src/laplace.cc, src/laplace_table.cc, include/builtins/laplace.h.  Doubles are real
    numbers and [dcomplex_t] a pair of them; rounding is not modelled.  A division by zero,
    which in the code gives an infinity or a NaN, and the root of a negative number fail. *)
From Coq Require Import Reals List.
From Verif Require Import Base.
Import ListNotations.
Open Scope R_scope.

Definition cplx : Type := R * R.
Definition cadd (u v : cplx) : cplx := (fst u + fst v, snd u + snd v).
Definition csub (u v : cplx) : cplx := (fst u - fst v, snd u - snd v).
Definition cmul (u v : cplx) : cplx := (fst u * fst v - snd u * snd v, fst u * snd v + snd u * fst v).
Definition cscale (u : cplx) (a : R) : cplx := (fst u * a, snd u * a).
Definition creal (u : cplx) : R := fst u.
Definition cimag (u : cplx) : R := snd u.

Definition rdiv (a b : R) : res R := if Req_EM_T b 0 then Fail DivZero else Ok (a / b).
Definition cdivr (u : cplx) (b : R) : res cplx := if Req_EM_T b 0 then Fail DivZero else Ok (fst u / b, snd u / b).
Definition rsqrt (a : R) : res R := if Rlt_dec a 0 then Fail DivZero else Ok (sqrt a).

(** point.h: a point, norm() 73-75 and point_sub *)
Record pt := mkPt { px : R; py : R; pz : R }.
Definition norm3 (d : pt) : R := sqrt (px d * px d + py d * py d + pz d * pz d).
Definition point_sub (a b : pt) : pt := mkPt (px a - px b) (py a - py b) (pz a - pz b).

(** special_function.h:31-33 midx *)
Definition midx (n m : nat) : nat := (n * (n + 1) / 2 + m)%nat.

(** special_function.cc:29-48 legendre_Plm *)
Definition plm_diag (n : nat) (u : R) (P : list R) : res (list R) :=
  foldM (fun P i => do v <- nth_res P (midx (i - 1) (i - 1)); set_res P (midx i i) (v * u * (2 * INR i - 1))) (seq 1 n) P.
Definition plm_sub (n : nat) (x : R) (P : list R) : res (list R) :=
  foldM (fun P i => do v <- nth_res P (midx i i); set_res P (midx (i + 1) i) (v * x * (2 * INR i + 1))) (seq 0 n) P.
Definition plm_column (n m : nat) (x : R) (P : list R) : res (list R) :=
  foldM (fun P l => do a <- nth_res P (midx (l - 1) m); do b <- nth_res P (midx (l - 2) m);
                    do v <- rdiv ((2 * INR l - 1) * x * a - (INR l + INR m - 1) * b) (INR l - INR m);
                    set_res P (midx l m) v) (seq (m + 2) (n - m - 1)) P.
Definition legendre_Plm (n : nat) (x : R) (P : list R) : res (list R) :=
  do s <- rsqrt (1 - x * x);
  let u := - s in
  do P <- set_res P (midx 0 0) 1;
  do P <- plm_diag n u P;
  do P <- plm_sub n x P;
  foldM (fun P m => plm_column n m x P) (seq 0 (S n)) P.

(** laplace_table.cc:220-226 generate_sqf, [sqf] of length 2 p + 3 *)
Definition generate_sqf (p : nat) : res (list R) :=
  do a <- set_res (repeat 0 (2 * p + 3)) 0 1;
  foldM (fun a i => do v <- nth_res a (i - 1); set_res a i (v * sqrt (INR i))) (seq 1 (2 * p + 2)) a.

(** [1e-14] *)
Definition tiny : R := / 10 ^ 14.

(** The distance, the cosine of the polar angle and exp(i sgn phi); sgn is -1 in
    laplace.cc:79-85 (lap_s_to_m) and 115-123 (lap_s_to_l), 1 in 785-793 (lap_m_to_t) and
    883-891 (lap_l_to_t). *)
Definition angles (sgn : R) (d : pt) : res (R * R * cplx) :=
  let proj := sqrt (px d * px d + py d * py d) in
  let r := norm3 d in
  do ctheta <- (if Rle_dec r tiny then Ok 1 else rdiv (pz d) r);
  do ratio <- rdiv proj r;
  do ephi <- (if Rle_dec ratio tiny then Ok (1, 0) else do c <- rdiv (px d) proj; do s <- rdiv (sgn * py d) proj; Ok (c, s));
  Ok (r, ctheta, ephi).

(** The loops that fill an array with powers: 89-90, 93-94, 128-133, 798-803, 896-900 *)
Definition fill {A} (f : A -> res A) (n : nat) (a : list A) : res (list A) :=
  foldM (fun a j => do v <- nth_res a (j - 1); do v' <- f v; set_res a j v') (seq 1 n) a.

(** The loop that adds to the coefficients: 98-103 and 137-142 *)
Definition add_terms (p : nat) (sqf : list R) (q : R) (pr : list R) (pe : list cplx) (leg : list R) (M : list cplx) : res (list cplx) :=
  foldM (fun M n => foldM (fun M m =>
    do a <- nth_res pr n; do e <- nth_res pe m; do l <- nth_res leg (midx n m);
    do f1 <- nth_res sqf (n - m); do f2 <- nth_res sqf (n + m);
    do t <- cdivr (cscale (cscale (cscale e (q * a)) l) f1) f2;
    do old <- nth_res M (midx n m); set_res M (midx n m) (cadd old t)) (seq 0 (S n)) M) (seq 0 (S p)) M.

(** laplace.cc:68-104 lap_s_to_m *)
Definition lap_s_to_m (p : nat) (sqf : list R) (d : pt) (q scale : R) (M : list cplx) : res (list cplx) :=
  do pr <- set_res (repeat 0 (p + 1)) 0 1;
  do pe <- set_res (repeat (0, 0) (p + 1)) 0 (1, 0);
  do (r, ctheta, ephi) <- angles (-1) d;
  let rs := r * scale in
  do pr <- fill (fun v => Ok (v * rs)) p pr;
  do pe <- fill (fun v => Ok (cmul v ephi)) p pe;
  do leg <- legendre_Plm p ctheta (repeat 0 ((p + 1) * (p + 2) / 2));
  add_terms p sqf q pr pe leg M.

(** laplace.cc:106-143 lap_s_to_l *)
Definition lap_s_to_l (p : nat) (sqf : list R) (d : pt) (q scale : R) (L : list cplx) : res (list cplx) :=
  do pe <- set_res (repeat (0, 0) (p + 1)) 0 (1, 0);
  do (r, ctheta, ephi) <- angles (-1) d;
  do v0 <- rdiv 1 r;
  do pr <- set_res (repeat 0 (p + 1)) 0 v0;
  let rs := r * scale in
  do pr <- fill (fun v => rdiv v rs) p pr;
  do pe <- fill (fun v => Ok (cmul v ephi)) p pe;
  do leg <- legendre_Plm p ctheta (repeat 0 ((p + 1) * (p + 2) / 2));
  add_terms p sqf q pr pe leg L.

(** The sums of 807-818 and 904-913: the potential *)
Definition potential_terms (p : nat) (sqf : list R) (pr : list R) (pe : list cplx) (leg : list R) (M : list cplx) : res cplx :=
  do phi <- foldM (fun phi n =>
    do c <- nth_res M (midx n 0); do a <- nth_res pr n; do l <- nth_res leg (midx n 0);
    Ok (cadd phi (cscale (cscale c a) l))) (seq 0 (S p)) (0, 0);
  foldM (fun phi n => foldM (fun phi m =>
    do c <- nth_res M (midx n m); do e <- nth_res pe m; do a <- nth_res pr n; do l <- nth_res leg (midx n m);
    do f1 <- nth_res sqf (n - m); do f2 <- nth_res sqf (n + m);
    do t <- rdiv (2 * creal (cmul c e) * a * l * f1) f2;
    Ok (cadd phi (t, 0))) (seq 1 n) phi) (seq 1 p) phi.

(** laplace.cc:772-820 lap_m_to_t, the potential (first entry of the result; the callers
    leave [g] false) *)
Definition lap_m_to_t (p : nat) (sqf : list R) (d : pt) (scale : R) (M : list cplx) : res R :=
  do pe <- set_res (repeat (0, 0) (p + 2)) 0 (1, 0);
  do (r, ctheta, ephi) <- angles 1 d;
  do v0 <- rdiv 1 r;
  do pr <- set_res (repeat 0 (p + 2)) 0 v0;
  let rs := r * scale in
  do pr <- fill (fun v => rdiv v rs) (p + 1) pr;
  do pe <- fill (fun v => Ok (cmul v ephi)) (p + 1) pe;
  do leg <- legendre_Plm (p + 1) ctheta (repeat 0 ((p + 2) * (p + 3) / 2));
  do phi <- potential_terms p sqf pr pe leg M;
  Ok (creal phi).

(** laplace.cc:869-915 lap_l_to_t, the potential *)
Definition lap_l_to_t (p : nat) (sqf : list R) (d : pt) (scale : R) (L : list cplx) : res R :=
  do pr <- set_res (repeat 0 (p + 2)) 0 1;
  do pe <- set_res (repeat (0, 0) (p + 2)) 0 (1, 0);
  do (r, ctheta, ephi) <- angles 1 d;
  let rs := r * scale in
  do pr <- fill (fun v => Ok (v * rs)) (p + 1) pr;
  do pe <- fill (fun v => Ok (cmul v ephi)) (p + 1) pe;
  do leg <- legendre_Plm (p + 1) ctheta (repeat 0 ((p + 2) * (p + 3) / 2));
  do phi <- potential_terms p sqf pr pe leg L;
  Ok (creal phi).

(** What the expansion uses of a source record. *)
Record charge := mkCharge { cq : R; cpos : pt }.

(** laplace.h:87-113 the constructor, one view of [nsh] zeros *)
Definition new_expansion (p : nat) : list cplx := repeat (0, 0) ((p + 1) * (p + 2) / 2).

(** laplace.h:161-172 S_to_M *)
Definition S_to_M (p : nat) (sqf : list R) (scale : R) (center : pt) (l : list charge) : res (list cplx) :=
  foldM (fun M s => lap_s_to_m p sqf (point_sub (cpos s) center) (cq s) scale M) l (new_expansion p).
(** laplace.h:174-185 S_to_L *)
Definition S_to_L (p : nat) (sqf : list R) (scale : R) (center : pt) (l : list charge) : res (list cplx) :=
  foldM (fun L s => lap_s_to_l p sqf (point_sub (cpos s) center) (cq s) scale L) l (new_expansion p).
(** laplace.h:260-269 M_to_T and 271-280 L_to_T for one target *)
Definition M_to_T (p : nat) (sqf : list R) (scale : R) (center : pt) (M : list cplx) (t : pt) (phi : R) : res R :=
  do v <- lap_m_to_t p sqf (point_sub t center) scale M; Ok (phi + v).
Definition L_to_T (p : nat) (sqf : list R) (scale : R) (center : pt) (L : list cplx) (t : pt) (phi : R) : res R :=
  do v <- lap_l_to_t p sqf (point_sub t center) scale L; Ok (phi + v).
(** laplace.h:322-337 add_expansion for the view of a primary expansion: [lhs] gets [rhs] *)
Definition add_expansion (lhs rhs : list cplx) : res (list cplx) :=
  foldM (fun lhs j => do a <- nth_res lhs j; do b <- nth_res rhs j; set_res lhs j (cadd a b)) (seq 0 (length rhs)) lhs.
