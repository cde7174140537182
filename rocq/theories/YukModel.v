(** The multipole and local expansions of the Yukawa kernel: src/special_function.cc,
    src/yukawa.cc, src/yukawa_table.cc, include/builtins/yukawa.h.  Doubles are real numbers;
    rounding is not modelled.  The directions, the Legendre functions and the layout of the
    coefficients are those of the Laplace expansions (LapModel). *)
From Coq Require Import Reals List.
From Verif Require Import Base LapModel.
Import ListNotations.
Open Scope R_scope.

(** special_function.cc:960-1264 bessel_In(nb, 0.5, x, 1, B) is a parameter here: [bIn nb x] is
    what the call leaves in B[0], ..., B[nb - 1]; it fails if the call does not return nb,
    which the caller asserts (line 1322).  BesInModel.v has the function itself. *)
Definition bessel_I : Type := nat -> R -> res (list R).

(** [1e-4], [1e-300], [4.46e-308], [1.79e308], [1e8] of 1299-1300 and 1335-1337 *)
Definition ensig : R := / 10 ^ 4.
Definition enmten : R := / 10 ^ 300.
Definition xmin : R := 446 / 10 ^ 310.
Definition xinf : R := 179 * 10 ^ 306.
Definition xlarge : R := 10 ^ 8.

(** special_function.cc:1298-1332 bessel_in_scaled; the factor 2 i + 1 is an int *)
Definition bessel_in_scaled (bIn : bessel_I) (nb : nat) (x scale : R) (B : list R) : res (list R) :=
  if Rle_dec x ensig then
    do scale_x <- rdiv x scale;
    let t2 := 5 / 10 * x * x in
    do B <- set_res B 0 (1 * (1 + t2 / 3));
    do (t1, B) <- foldM (fun '(t1, B) i =>
      do t1 <- rdiv (t1 * scale_x) (2 * INR i + 1);
      let t1 := if Rle_dec t1 enmten then 0 else t1 in
      do c <- rdiv t2 (2 * INR i + 3);
      do B <- set_res B i (t1 * (1 + c));
      Ok (t1, B)) (seq 1 nb) (1, B);
    Ok B
  else if Rlt_dec (10 ^ 2) x then foldM (fun B i => set_res B i 0) (seq 0 (S nb)) B
  else
    do h <- rdiv (PI / 2) x;
    do factor <- rsqrt h;
    do vals <- bIn (nb + 1)%nat x;
    do (factor, B) <- foldM (fun '(factor, B) i =>
      do v <- nth_res vals i;
      let b := v * factor in
      do B <- set_res B i b;
      do factor <- rdiv factor scale;
      Ok (if Rle_dec (Rabs b) enmten then 0 else factor, B)) (seq 0 (S nb)) (factor, B);
    Ok B.

(** special_function.cc:1334-1365 bessel_kn_scaled, for nb >= 0.  The loop state says whether
    the loop of 1349-1355 is still running; outside the range of x ncalc is -1 (1362). *)
Definition bessel_kn_scaled (nb : nat) (x scale : R) (B : list R) : res (list R) :=
  if Rle_dec xmin x then if Rlt_dec x xlarge then
    let p := exp (- x) / x * (PI / 2) in
    do B <- set_res B 0 p;
    do B <- set_res B 1 (p * scale * (1 + 1 / x));
    let u1 := scale / x in
    let u2 := scale * scale in
    do (go, ncalc, B) <- foldM (fun '(go, ncalc, B) n =>
      if (go : bool) then
        do b1 <- nth_res B (n - 1);
        do lim <- rdiv xinf (2 * INR n - 1);
        if Rle_dec lim (Rabs b1 * u1) then Ok (false, ncalc, B)
        else do b2 <- nth_res B (n - 2);
             do B <- set_res B n ((2 * INR n - 1) * u1 * b1 + u2 * b2);
             Ok (true, S ncalc, B)
      else Ok (go, ncalc, B)) (seq 2 (nb - 1)) (true, 1%nat, B);
    do B <- foldM (fun B n => set_res B n 0) (seq (ncalc + 1) (nb - ncalc)) B;
    do _ <- assert_ (Nat.eqb ncalc nb);
    Ok B
  else Fail AssertFail else Fail AssertFail.

(** yukawa_table.cc:306-324 generate_sqf *)
Definition generate_sqf (p : nat) : res (list R) :=
  do temp <- set_res (repeat 0 (2 * p + 1)) 0 1;
  do temp <- foldM (fun a i => do v <- nth_res a (i - 1); set_res a i (v * INR i)) (seq 1 (2 * p)) temp;
  do (idx, sqf) <- foldM (fun st n => foldM (fun '(idx, sqf) m =>
    do a <- nth_res temp (n - m); do b <- nth_res temp (n + m);
    do v <- rdiv ((2 * INR n + 1) * a) b;
    do sqf <- set_res sqf idx v; Ok (S idx, sqf)) (seq 0 (S n)) st) (seq 0 (S p)) (0%nat, repeat 0 ((p + 1) * (p + 2) / 2));
  Ok sqf.

(** yukawa_table.cc:36 scale_ and yukawa_table.h:41 scale(lev) *)
Definition yuk_scale (lambda size : R) (lev : nat) : R :=
  (if Rlt_dec 1 (lambda * size) then 1 / size else lambda) * size / 2 ^ lev.

(** yukawa_table.cc:30, 37 the degree for a number of digits *)
Definition yuk_p_table : list nat := [0; 0; 0; 9; 0; 0; 18; 0; 0; 0; 0; 0; 0; 0; 0]%nat.
Definition yuk_p (n_digits : nat) : res nat := nth_res yuk_p_table n_digits.

Section Yukawa.
Variables (bIn : bessel_I) (p : nat) (lambda : R) (sqf : list R).

(** The loops of yukawa.cc:98-104 and 138-143 *)
Definition yuk_add_terms (q : R) (bessel : list R) (pe : list cplx) (leg : list R) (M : list cplx) : res (list cplx) :=
  foldM (fun M n => foldM (fun M m =>
    do b <- nth_res bessel n; do f <- nth_res sqf (midx n m); do l <- nth_res leg (midx n m); do e <- nth_res pe m;
    do old <- nth_res M (midx n m); set_res M (midx n m) (cadd old (cscale e (q * b * f * l)))) (seq 0 (S n)) M) (seq 0 (S p)) M.

(** yukawa.cc:68-105 yuk_s_to_m *)
Definition yuk_s_to_m (d : pt) (q scale : R) (M : list cplx) : res (list cplx) :=
  do (r, ctheta, ephi) <- angles (-1) d;
  do pe <- set_res (repeat (0, 0) (p + 1)) 0 (1, 0);
  do pe <- fill (fun v => Ok (cmul v ephi)) p pe;
  do bessel <- bessel_in_scaled bIn p (lambda * r) scale (repeat 0 (p + 1));
  do leg <- legendre_Plm p ctheta (repeat 0 ((p + 1) * (p + 2) / 2));
  yuk_add_terms q bessel pe leg M.

(** yukawa.cc:107-144 yuk_s_to_l *)
Definition yuk_s_to_l (d : pt) (q scale : R) (L : list cplx) : res (list cplx) :=
  do (r, ctheta, ephi) <- angles (-1) d;
  do pe <- set_res (repeat (0, 0) (p + 1)) 0 (1, 0);
  do pe <- fill (fun v => Ok (cmul v ephi)) p pe;
  do bessel <- bessel_kn_scaled p (lambda * r) scale (repeat 0 (p + 1));
  do leg <- legendre_Plm p ctheta (repeat 0 ((p + 1) * (p + 2) / 2));
  yuk_add_terms q bessel pe leg L.

(** The sums of 261-273 and 399-411; the array [temp], which only the field values (not asked
    for by any caller) read again, is left out. *)
Definition yuk_potential_terms (bessel : list R) (pe : list cplx) (leg : list R) (M : list cplx) : res cplx :=
  do phi <- foldM (fun phi n =>
    do b <- nth_res bessel n; do l <- nth_res leg (midx n 0); do c <- nth_res M (midx n 0);
    Ok (cadd phi (cscale c (b * l)))) (seq 0 (S p)) (0, 0);
  foldM (fun phi n => foldM (fun phi m =>
    do b <- nth_res bessel n; do l <- nth_res leg (midx n m); do e <- nth_res pe m; do c <- nth_res M (midx n m);
    Ok (cadd phi (2 * creal (cmul c (cscale e (b * l))), 0))) (seq 1 n) phi) (seq 1 p) phi.

(** yukawa.cc:227-275 yuk_m_to_t, the potential (first entry of the result) *)
Definition yuk_m_to_t (d : pt) (scale : R) (M : list cplx) : res R :=
  do (r, ctheta, ephi) <- angles 1 d;
  do pe <- set_res (repeat (0, 0) (p + 2)) 0 (1, 0);
  do pe <- fill (fun v => Ok (cmul v ephi)) (p + 1) pe;
  do bessel <- bessel_kn_scaled (p + 1) (lambda * r) scale (repeat 0 (p + 2));
  do leg <- legendre_Plm (p + 1) ctheta (repeat 0 ((p + 2) * (p + 3) / 2));
  do phi <- yuk_potential_terms bessel pe leg M;
  Ok (creal phi).

(** yukawa.cc:365-413 yuk_l_to_t, the potential *)
Definition yuk_l_to_t (d : pt) (scale : R) (L : list cplx) : res R :=
  do (r, ctheta, ephi) <- angles 1 d;
  do pe <- set_res (repeat (0, 0) (p + 2)) 0 (1, 0);
  do pe <- fill (fun v => Ok (cmul v ephi)) (p + 1) pe;
  do bessel <- bessel_in_scaled bIn (p + 1) (lambda * r) scale (repeat 0 (p + 2));
  do leg <- legendre_Plm (p + 1) ctheta (repeat 0 ((p + 2) * (p + 3) / 2));
  do phi <- yuk_potential_terms bessel pe leg L;
  Ok (creal phi).

(** yukawa.h:166-177 S_to_M and 179-190 S_to_L *)
Definition yuk_S_to_M (scale : R) (center : pt) (l : list charge) : res (list cplx) :=
  foldM (fun M s => yuk_s_to_m (point_sub (cpos s) center) (cq s) scale M) l (new_expansion p).
Definition yuk_S_to_L (scale : R) (center : pt) (l : list charge) : res (list cplx) :=
  foldM (fun L s => yuk_s_to_l (point_sub (cpos s) center) (cq s) scale L) l (new_expansion p).
(** yukawa.h:214-223 M_to_T and 225-234 L_to_T for one target *)
Definition yuk_M_to_T (scale : R) (center : pt) (M : list cplx) (t : pt) (phi : R) : res R :=
  do v <- yuk_m_to_t (point_sub t center) scale M; Ok (phi + v).
Definition yuk_L_to_T (scale : R) (center : pt) (L : list cplx) (t : pt) (phi : R) : res R :=
  do v <- yuk_l_to_t (point_sub t center) scale L; Ok (phi + v).
(** yukawa.h:236-253 S_to_T for one target *)
Definition yuk_S_to_T (l : list charge) (t : pt) (phi : R) : R :=
  phi + fold_left (fun v s => let d := lambda * norm3 (point_sub t (cpos s)) in
                              if Rlt_dec 0 d then v + cq s * exp (- d) / d else v) l 0 * (PI / 2).
End Yukawa.
