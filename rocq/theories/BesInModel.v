(** The modified Bessel functions of half-integral order as src/special_function.cc computes
    them: bessel_In (960-1264), by Miller's algorithm, and the part of Gamma (116-240) it needs.
    Doubles are real numbers; rounding is not modelled.  bessel_In is modelled for the arguments
    it is called with, alpha = 0.5 and ize = 1 (line 1322); what the branches do that cannot be
    reached from there is said where they are left out. *)
From Coq Require Import Reals List Arith.
From Verif Require Import Base LapModel.
Import ListNotations.
Open Scope R_scope.

(** 130-148: the coefficients of the rational approximation over (1, 2) *)
Definition gamma_p : list R :=
  [IZR (-171618513886549492533811) / 10 ^ 23; IZR 247656508055759199108314 / 10 ^ 22; IZR (-379804256470945635097577) / 10 ^ 21;
   IZR 629331155312818442661052 / 10 ^ 21; IZR 866966202790413211295064 / 10 ^ 21; IZR (-314512729688483675254357) / 10 ^ 19;
   IZR (-361444134186911729807069) / 10 ^ 19; IZR 664561438202405440627855 / 10 ^ 19].
Definition gamma_q : list R :=
  [IZR (-308402300119738975254353) / 10 ^ 22; IZR 315350626979604161529144 / 10 ^ 21; IZR (-101515636749021914166146) / 10 ^ 20;
   IZR (-310777167157231109440444) / 10 ^ 20; IZR 225381184209801510330112 / 10 ^ 19; IZR 475584627752788110767815 / 10 ^ 20;
   IZR (-134659959864969306392456) / 10 ^ 18; IZR (-115132259675553483497211) / 10 ^ 18].

(** 188-217 Gamma for 1 <= x < 12; the other ranges of x are not modelled (the only argument is
    alpha + 1 = 1.5) *)
Definition Gamma (x : R) : res R :=
  if Rle_dec 1 x then
    if Rlt_dec x 12 then
      let n := Z.to_nat (Int_part x - 1) in
      let y := x - INR n in
      let z := y - 1 in
      let '(xnum, xden) := fold_left (fun '(xnum, xden) '(p, q) => ((xnum + p) * z, xden * z + q)) (combine gamma_p gamma_q) (0, 1) in
      do r <- rdiv xnum xden;
      let '(r, y) := fold_left (fun '(r, y) _ => (r * y, y + 1)) (seq 0 n) (r + 1, y) in
      Ok r
    else Fail BadOp
  else Fail BadOp.

(** 962-981: the constants; [1e292] is enten / ensig of 1013 *)
Definition bI_nsig : nat := 16.
Definition bI_exparg : R := 709.
Definition bI_ensig : R := 10 ^ 16.
Definition bI_rtnsig : R := / 10 ^ 4.
Definition bI_enmten : R := 89 / 10 ^ 309.
Definition bI_tover : R := 10 ^ 292.
Definition alpha : R := 5 / 10.

Section Miller.
Variables (nb : nat) (x : R).

(** 1016-1022: one step of the p-sequence before n = nb - 1.  The branch 1022-1062 for
    p > 1e292, which rescales the sequence and may shorten the result, is not modelled: here it
    is a failure. *)
Definition climb_to (st : R * R * R) (k : nat) : res (R * R * R) :=
  let '(en, plast, p) := st in
  let en := en + 2 in
  let p' := en * p / INR k + plast in
  if Rlt_dec bI_tover p' then Fail Overflow else Ok (en, p, p').

(** 1073-1082: the p-sequence until the test is met; OutOfFuel stands for a loop that has not
    ended after [fuel] rounds *)
Fixpoint climb (fuel : nat) (test : R) (n : nat) (en plast p : R) : res (nat * R * R) :=
  match fuel with
  | O => Fail OutOfFuel
  | S fuel =>
      let n := (n + 1)%nat in
      let en := en + 2 in
      let p' := en * p / x + plast in
      if Rlt_dec p' test then climb fuel test n en p p' else Ok (n, en, p')
  end.

(** 996-1082: n, en and p when the backward recursion starts *)
Definition start : res (nat * R * R) :=
  let magx := Z.to_nat (Int_part x) in
  let n := (magx + 1)%nat in
  let en := INR (n + n) + (alpha + alpha) in
  let p := en / x in
  let test := bI_ensig + bI_ensig in
  let test := if (5 * bI_nsig <? 2 * magx)%nat then sqrt (test * p) else test / (1585 / 1000) ^ magx in
  if (magx + 3 <=? nb)%nat then
    do (st, p) <- foldM climb_to (seq (magx + 2) (nb - 1 - (magx + 2) + 1)) (en, 1, p);
    let '(_, plast) := st in
    let n := (nb - 1)%nat in
    let en := INR (n + n) + (alpha + alpha) in
    let test := Rmax test (sqrt (plast * bI_ensig) * sqrt (p + p)) in
    climb 1000 test n en plast p
  else climb 1000 test n en 1 p.

(** The variables of the backward recursion *)
Record back := mkBack { b_n : nat; b_en : R; b_em : R; b_empal : R; b_emp2al : R; b_sum : R }.

(** 1111-1120, 1174-1180, 1191-1197: counting down and adding to the sum; the term is [v] *)
Definition count (n : nat) (s : back) (v : R) : res back :=
  let em := b_em s - 1 in
  let emp2al := b_emp2al s - 1 in
  let emp2al := if (n =? 2)%nat then 1 else emp2al in
  let empal := b_empal s - 1 in
  do sum <- rdiv ((b_sum s + v * empal) * emp2al) em;
  Ok (mkBack n (b_en s) em empal emp2al sum).

(** 1105-1121: the recursion down to n = nb without storing; the break of 1113 *)
Fixpoint fall (rounds : nat) (s : back) (tempa tempb : R) : res (back * R * R) :=
  match rounds with
  | O => Ok (s, tempa, tempb)
  | S rounds =>
      let n := (b_n s - 1)%nat in
      let en := b_en s - 2 in
      let tempa' := en * tempa / x + tempb in
      if (n =? 1)%nat then Ok (mkBack n en (b_em s - 1) (b_empal s) (b_emp2al s - 1) (b_sum s), tempa', tempa)
      else
        do s' <- count n (mkBack n en (b_em s) (b_empal s) (b_emp2al s) (b_sum s)) tempa';
        fall rounds s' tempa' tempa
  end.

(** 1127-1143, 1154-1170, 1206-1222: the normalization *)
Definition normalize (B : list R) (sum : R) : res (list R) :=
  do g <- Gamma (alpha + 1);
  do h <- rsqrt (x * (5 / 10));
  do pow <- rdiv 1 h;
  let sum := sum * g * pow * exp (- x) in
  let tempa := if Rlt_dec 1 sum then bI_enmten * sum else bI_enmten in
  foldM (fun B n => do b <- nth_res B n; do v <- rdiv (if Rlt_dec b tempa then 0 else b) sum; set_res B n v) (seq 0 nb) B.

(** 1183-1203: the rest, stored in B *)
Definition descend (s : back) (B : list R) : res (list R) :=
  do (s, B) <- foldM (fun '(s, B) _ =>
      let n := (b_n s - 1)%nat in
      let en := b_en s - 2 in
      do b1 <- nth_res B n; do b2 <- nth_res B (n + 1);
      let v := en * b1 / x + b2 in
      do B <- set_res B (n - 1) v;
      do s <- count n (mkBack n en (b_em s) (b_empal s) (b_emp2al s) (b_sum s)) v;
      Ok (s, B)) (seq 0 (b_n s - 2)) (s, B);
  do b1 <- nth_res B 1; do b2 <- nth_res B 2;
  let v := 2 * b_empal s * b1 / x + b2 in
  do B <- set_res B 0 v;
  normalize B ((b_sum s + b_sum s) + v).

(** 1084-1203: the backward recursion *)
Definition recur (n : nat) (en p : R) (B : list R) : res (list R) :=
  let n := (n + 1)%nat in
  let en := en + 2 in
  do tempa <- rdiv 1 p;
  let em := INR n - 1 in
  let empal := em + alpha in
  let emp2al := (em - 1) + (alpha + alpha) in
  do sum <- rdiv (tempa * empal * emp2al) em;
  let s := mkBack n en em empal emp2al sum in
  if (n <? nb)%nat then
    do B <- set_res B (n - 1) tempa;
    do B <- foldM (fun B l => set_res B (n + l) 0) (seq 0 (nb - n)) B;
    descend s B
  else
    do (sa, tempb) <- fall (n - nb) s tempa 0;
    let '(s, tempa) := sa in
    do B <- set_res B (b_n s - 1) tempa;
    if (nb <=? 1)%nat then normalize B ((b_sum s + b_sum s) + tempa)
    else
      let n := (b_n s - 1)%nat in
      let en := b_en s - 2 in
      let v := en * tempa / x + tempb in
      do B <- set_res B (n - 1) v;
      if (n =? 1)%nat then normalize B ((b_sum s + b_sum s) + v)
      else
        do s <- count n (mkBack n en (b_em s) (b_empal s) (b_emp2al s) (b_sum s)) v;
        descend s B.
End Miller.

(** 960-1264 bessel_In(nb, 0.5, x, 1, B), with B of nb entries; a failure where the value
    returned is not nb (983-988).  The branch 1223-1261 for x < 1e-4 is not modelled: it is a
    failure here, the caller has its own series for x <= 1e-4. *)
Definition bessel_In (nb : nat) (x : R) : res (list R) :=
  if (nb <=? 0)%nat then Fail AssertFail
  else if Rlt_dec x 0 then Fail AssertFail
  else if Rlt_dec bI_exparg x then Fail AssertFail
  else if Rle_dec bI_rtnsig x then
    do (ne, p) <- start nb x;
    let '(n, en) := ne in
    recur nb x n en p (repeat 0 nb)
  else Fail BadOp.
