(** The multipole and local expansions of the Helmholtz kernel: src/special_function.cc,
    src/helmholtz_table.cc, include/builtins/helmholtz_table.h, include/builtins/helmholtz.h.
    Doubles are real numbers; rounding is not modelled.  The Legendre functions and the layout
    of the multipole coefficients are those of the Laplace expansions (LapModel); the table
    sqf is filled by the code of the Yukawa table (generate_sqf, helmholtz_table.cc:640-658). *)
From Coq Require Import Reals ZArith List.
From Verif Require Import Base LapModel YukModel.
Import ListNotations.
Open Scope R_scope.

(** special_function.cc: bessel_Jn(nb, 0.5, x, B) and bessel_Yn(nb, 0.5, x, B) are not
    modelled: [bJn nb x] is what the call leaves in B[0], ..., B[nb - 1]; it fails if the call
    does not return nb, which the callers assert (1286, 1395, 1396). *)
Definition bessel_half : Type := nat -> R -> res (list R).

(** special_function.cc:1266-1296 bessel_jn_scaled; the factor 2 i + 1 is an int *)
Definition bessel_jn_scaled (bJn : bessel_half) (nb : nat) (x scale : R) (B : list R) : res (list R) :=
  if Rle_dec x ensig then
    do scale_x <- rdiv x scale;
    let t2 := 5 / 10 * x * x in
    do B <- set_res B 0 (1 * (1 - t2 / 3));
    do (t1, B) <- foldM (fun '(t1, B) i =>
      do t1 <- rdiv (t1 * scale_x) (2 * INR i + 1);
      let t1 := if Rle_dec t1 enmten then 0 else t1 in
      do c <- rdiv t2 (2 * INR i + 3);
      do B <- set_res B i (t1 * (1 - c));
      Ok (t1, B)) (seq 1 nb) (1, B);
    Ok B
  else
    do h <- rdiv (PI / 2) x;
    do factor <- rsqrt h;
    do vals <- bJn (nb + 1)%nat x;
    do (factor, B) <- foldM (fun '(factor, B) i =>
      do v <- nth_res vals i;
      let b := v * factor in
      do B <- set_res B i b;
      do factor <- rdiv factor scale;
      Ok (if Rle_dec (Rabs b) enmten then 0 else factor, B)) (seq 0 (S nb)) (factor, B);
    Ok B.

(** special_function.cc:1367-1406 bessel_hn_scaled.  The temporary arrays Jn and Yn, which are
    never freed, hold what is stored in B and are left out of the first branch; 1 - 2 i is an
    int. *)
Definition bessel_hn_scaled (bJn bYn : bessel_half) (nb : nat) (x scale : R) (B : list cplx) : res (list cplx) :=
  if Rlt_dec x ensig then
    let xscale1 := x * scale in
    do xscale2 <- rdiv scale x;
    let factor := 5 / 10 * x * x in
    do y0 <- rdiv (- (1 - factor)) x;
    do B <- set_res B 0 (1 * (1 - factor / 3), y0);
    do (t1, t2, B) <- foldM (fun '(t1, t2, B) i =>
      do t1 <- rdiv (t1 * xscale1) (2 * INR i + 1);
      let t2 := t2 * xscale2 * (2 * INR i - 1) in
      let t1 := if Rle_dec t1 enmten then 0 else t1 in
      do c <- rdiv factor (2 * INR i + 3);
      do c' <- rdiv factor (1 - 2 * INR i);
      do B <- set_res B i (t1 * (1 - c), - t2 * (1 - c'));
      Ok (t1, t2, B)) (seq 1 nb) (1, 1, B);
    Ok B
  else
    do h <- rdiv (PI / 2) x;
    do factor <- rsqrt h;
    do Jn <- bJn (nb + 1)%nat x;
    do Yn <- bYn (nb + 1)%nat x;
    do B <- foldM (fun B i => do j <- nth_res Jn i; do y <- nth_res Yn i; set_res B i (j, y)) (seq 0 (S nb)) B;
    do (factor, B) <- foldM (fun '(factor, B) i =>
      do b <- nth_res B i; do B <- set_res B i (cscale b factor); Ok (factor * scale, B)) (seq 0 (S nb)) (factor, B);
    Ok B.

(** helmholtz_table.cc:34, helmholtz_table.h:39 scale(lev) *)
Definition helm_scale (omega size : R) (lev : nat) : R :=
  (if Rlt_dec 1 (omega * size) then 1 / size else omega) * size / 2 ^ lev.

(** helmholtz_table.h:149 level(scale): the conversion of a double to an int drops the
    fraction *)
Definition trunc (x : R) : Z := if Rle_dec 0 x then Int_part x else (- Int_part (- x))%Z.
Definition helm_level (scale_ scale : R) : res Z :=
  do q <- rdiv scale_ scale; Ok (trunc (ln q / ln 2)).

(** helmholtz_table.cc:23, 48, 60: n_e_ and n_p_ have an entry for each level up to maxlev.
    [n_e] and [n_p] stand for them below; what is in them does not matter here. *)
Definition maxlev : nat := 21.

(** helmholtz_table.cc:27, 35 the degree for a number of digits *)
Definition helm_p_table : list nat := [0; 0; 0; 9; 0; 0; 18; 0; 0; 0; 0; 0; 0; 0; 0]%nat.
Definition helm_p (n_digits : nat) : res nat := nth_res helm_p_table n_digits.

(** helmholtz.h:226-234 in S_to_L: as [angles], but the azimuth of a direction taken to be
    along the axis is given the value 0 + 0 i *)
Definition angles_l (d : pt) : res (R * R * cplx) :=
  let proj := sqrt (px d * px d + py d * py d) in
  let r := norm3 d in
  do ctheta <- (if Rle_dec r tiny then Ok 1 else rdiv (pz d) r);
  do ratio <- rdiv proj r;
  do ephi <- (if Rle_dec ratio tiny then Ok (0, 0) else do c <- rdiv (px d) proj; do s <- rdiv (- py d) proj; Ok (c, s));
  Ok (r, ctheta, ephi).

Definition conj (u : cplx) : cplx := (fst u, - snd u).
(** division of complex numbers *)
Definition cdiv (u v : cplx) : res cplx :=
  cdivr (cmul u (conj v)) (fst v * fst v + snd v * snd v).

(** The powers of both signs: helmholtz.h:237-241 and 451-455 *)
Definition both_powers (p : nat) (ephi : cplx) : res (list cplx) :=
  do pe <- set_res (repeat (0, 0) (2 * p + 1)) p (1, 0);
  foldM (fun pe j =>
    do v <- nth_res pe (p + j - 1);
    do pe <- set_res pe (p + j) (cmul v ephi);
    do v <- nth_res pe (p + j);
    set_res pe (p - j) (conj v)) (seq 1 p) pe.

Section Helmholtz.
Variables (bJn bYn : bessel_half) (n_e n_p : list Z) (p : nat) (omega size : R) (sqf : list R).

(** helmholtz.h:53-67 the constructor for the roles kSourcePrimary (n entries: (p + 1) (p + 2)
    / 2) and kTargetPrimary ((p + 1) (p + 1)): the sizes of the plane wave views are read
    whatever the role *)
Definition helm_new (scale : R) (n : nat) : res (list cplx) :=
  do lev <- helm_level (helm_scale omega size 0) scale;
  do _ <- nth_resZ n_e lev;
  do _ <- nth_resZ n_p lev;
  Ok (repeat (0, 0) n).

(** helmholtz.h:169-199, the body of the loop of S_to_M; its arithmetic is that of the Yukawa
    expansion but for the Bessel functions *)
Definition helm_s_to_m (d : pt) (q scale : R) (M : list cplx) : res (list cplx) :=
  do (r, ctheta, ephi) <- angles (-1) d;
  do pe <- set_res (repeat (0, 0) (p + 1)) 0 (1, 0);
  do pe <- fill (fun v => Ok (cmul v ephi)) p pe;
  do bessel <- bessel_jn_scaled bJn p (omega * r) scale (repeat 0 (p + 1));
  do leg <- legendre_Plm p ctheta (repeat 0 ((p + 1) * (p + 2) / 2));
  yuk_add_terms p sqf q bessel pe leg M.

(** helmholtz.h:250-257; [j] is m + n *)
Definition helm_add_terms (q : R) (bessel pe : list cplx) (leg : list R) (L : list cplx) : res (list cplx) :=
  do (curr, L) <- foldM (fun st n => foldM (fun '(curr, L) j =>
    let m := (if n <=? j then j - n else n - j)%nat in
    do b <- nth_res bessel n; do f <- nth_res sqf (midx n m); do l <- nth_res leg (midx n m); do e <- nth_res pe (p + j - n);
    do old <- nth_res L curr; do L <- set_res L curr (cadd old (cmul (cscale (cscale (cscale b q) f) l) e));
    Ok (S curr, L)) (seq 0 (2 * n + 1)) st) (seq 0 (S p)) (0%nat, L);
  Ok L.

(** helmholtz.h:224-257, the body of the loop of S_to_L *)
Definition helm_s_to_l (d : pt) (q scale : R) (L : list cplx) : res (list cplx) :=
  do (r, ctheta, ephi) <- angles_l d;
  do pe <- both_powers p ephi;
  do bessel <- bessel_hn_scaled bJn bYn p (omega * r) scale (repeat (0, 0) (p + 1));
  do leg <- legendre_Plm p ctheta (repeat 0 ((p + 1) * (p + 2) / 2));
  helm_add_terms q bessel pe leg L.

(** helmholtz.h:407-418 *)
Definition helm_potential_m (bessel pe : list cplx) (leg : list R) (M : list cplx) : res cplx :=
  do phi <- foldM (fun phi n =>
    do c <- nth_res M (midx n 0); do l <- nth_res leg (midx n 0); do b <- nth_res bessel n;
    Ok (cadd phi (cmul (cscale c l) b))) (seq 0 (S p)) (0, 0);
  foldM (fun phi n => foldM (fun phi m =>
    do c <- nth_res M (midx n m); do e <- nth_res pe m; do b <- nth_res bessel n; do l <- nth_res leg (midx n m);
    Ok (cadd phi (cscale (cscale b (2 * creal (cmul c e))) l))) (seq 1 n) phi) (seq 1 p) phi.

(** helmholtz.h:383-418, the body of the loop of M_to_T *)
Definition helm_m_to_t (d : pt) (scale : R) (M : list cplx) : res cplx :=
  do (r, ctheta, ephi) <- angles 1 d;
  do pe <- set_res (repeat (0, 0) (p + 1)) 0 (1, 0);
  do pe <- fill (fun v => Ok (cmul v ephi)) p pe;
  do bessel <- bessel_hn_scaled bJn bYn p (omega * r) scale (repeat (0, 0) (p + 1));
  do leg <- legendre_Plm p ctheta (repeat 0 ((p + 1) * (p + 2) / 2));
  helm_potential_m bessel pe leg M.

(** helmholtz.h:464-470 *)
Definition helm_potential_l (bessel : list R) (pe : list cplx) (leg : list R) (L : list cplx) : res cplx :=
  do (curr, phi) <- foldM (fun st n => foldM (fun '(curr, phi) j =>
    let m := (if n <=? j then j - n else n - j)%nat in
    do c <- nth_res L curr; do e <- nth_res pe (p + j - n); do b <- nth_res bessel n; do l <- nth_res leg (midx n m);
    Ok (S curr, cadd phi (cscale (cscale (cmul c e) b) l))) (seq 0 (2 * n + 1)) st) (seq 0 (S p)) (0%nat, (0, 0));
  Ok phi.

(** helmholtz.h:438-470, the body of the loop of L_to_T *)
Definition helm_l_to_t (d : pt) (scale : R) (L : list cplx) : res cplx :=
  do (r, ctheta, ephi) <- angles 1 d;
  do pe <- both_powers p ephi;
  do bessel <- bessel_jn_scaled bJn p (omega * r) scale (repeat 0 (p + 1));
  do leg <- legendre_Plm p ctheta (repeat 0 ((p + 1) * (p + 2) / 2));
  helm_potential_l bessel pe leg L.

(** helmholtz.h:154-207 S_to_M and 209-264 S_to_L; the new expansion has the scale of the old
    one in the first, the default scale 1.0 in the second *)
Definition helm_S_to_M (scale : R) (center : pt) (l : list charge) : res (list cplx) :=
  do M <- helm_new scale ((p + 1) * (p + 2) / 2);
  foldM (fun M s => helm_s_to_m (point_sub (cpos s) center) (cq s) scale M) l M.
Definition helm_S_to_L (scale : R) (center : pt) (l : list charge) : res (list cplx) :=
  do L <- helm_new 1 ((p + 1) * (p + 1));
  foldM (fun L s => helm_s_to_l (point_sub (cpos s) center) (cq s) scale L) l L.
(** helmholtz.h:373-426 M_to_T and 428-477 L_to_T for one target *)
Definition helm_M_to_T (scale : R) (center : pt) (M : list cplx) (t : pt) (phi : cplx) : res cplx :=
  do v <- helm_m_to_t (point_sub t center) scale M; Ok (cadd phi v).
Definition helm_L_to_T (scale : R) (center : pt) (L : list cplx) (t : pt) (phi : cplx) : res cplx :=
  do v <- helm_l_to_t (point_sub t center) scale L; Ok (cadd phi v).
(** helmholtz.h:480-497 S_to_T for one target; exp(0 + i d) = cos d + i sin d *)
Definition helm_S_to_T (l : list charge) (t : pt) (phi : cplx) : res cplx :=
  do v <- foldM (fun v s =>
    let d := omega * norm3 (point_sub t (cpos s)) in
    if Rlt_dec 0 d then do e <- cdiv (cscale (cos d, sin d) (cq s)) (0, d); Ok (cadd v e) else Ok v) l (0, 0);
  Ok (cadd phi v).
End Helmholtz.
