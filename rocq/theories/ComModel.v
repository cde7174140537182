(** The centre-of-mass expansion: include/builtins/laplace_com.h.  Doubles are real numbers;
    rounding is not modelled. *)
From Coq Require Import Reals List.
From Verif Require Import Base.
Import ListNotations.
Open Scope R_scope.

(** What the expansion uses of a source record. *)
Record source := mkSource { charge : R; sx : R; sy : R; sz : R }.
(** laplace_com.h:38-42 LaplaceCOMData: mtot, xcom[3], Q[6] (xx, xy, xz, yy, yz, zz) *)
Record com := mkCom { mtot : R; cx : R; cy : R; cz : R; qxx : R; qxy : R; qxz : R; qyy : R; qyz : R; qzz : R }.

(** laplace_com.h:72-87, the constructor *)
Definition com_zero : com := mkCom 0 0 0 0 0 0 0 0 0 0.

(** laplace_com.h:343-349 calc_mtot *)
Definition calc_mtot (l : list source) : R := fold_left (fun a s => a + charge s) l 0.
(** laplace_com.h:355-372 calc_xcom *)
Definition calc_xcom (m : R) (l : list source) : R * R * R :=
  let x := fold_left (fun a s => a + charge s * sx s) l 0 in
  let y := fold_left (fun a s => a + charge s * sy s) l 0 in
  let z := fold_left (fun a s => a + charge s * sz s) l 0 in
  if Req_EM_T m 0 then (x, y, z)
  else let oomtot := 1 / m in (x * oomtot, y * oomtot, z * oomtot).
(** laplace_com.h:377-396 calc_Q *)
Definition calc_Q (x y z : R) (l : list source) : R * R * R * R * R * R :=
  fold_left (fun '(a, b, c, d, e, f) s =>
    let dx := sx s - x in let dy := sy s - y in let dz := sz s - z in
    let mag := dx * dx + dy * dy + dz * dz in
    (a + charge s * (3 * dx * dx - mag), b + charge s * 3 * dx * dy, c + charge s * 3 * dx * dz,
     d + charge s * (3 * dy * dy - mag), e + charge s * 3 * dy * dz, f + charge s * (3 * dz * dz - mag)))
    l (0, 0, 0, 0, 0, 0).
(** laplace_com.h:160-167 S_to_M *)
Definition S_to_M (l : list source) : com :=
  let m := calc_mtot l in
  let '(x, y, z) := calc_xcom m l in
  let '(a, b, c, d, e, f) := calc_Q x y z l in
  mkCom m x y z a b c d e f.
(** laplace_com.h:174-181 M_to_M *)
Definition M_to_M (t : com) : com := t.

(** laplace_com.h:251-298 add_expansion: [data_] is [t], the argument [u].  A division by
    zero gives infinities or NaNs. *)
Definition add_expansion (t u : com) : res com :=
  let Mp := mtot t + mtot u in
  if Req_EM_T Mp 0 then Fail DivZero else
  let dx := (mtot t * cx t + mtot u * cx u) / Mp in
  let dy := (mtot t * cy t + mtot u * cy u) / Mp in
  let dz := (mtot t * cz t + mtot u * cz u) / Mp in
  let ax := cx t - dx in let ay := cy t - dy in let az := cz t - dz in
  let amag := ax * ax + ay * ay + az * az in
  let bx := cx u - dx in let by_ := cy u - dy in let bz := cz u - dz in
  let bmag := bx * bx + by_ * by_ + bz * bz in
  Ok (mkCom Mp dx dy dz
    (mtot t * (3 * ax * ax - amag) + qxx t + (mtot u * (3 * bx * bx - bmag) + qxx u))
    (mtot t * (3 * ax * ay) + qxy t + (mtot u * (3 * bx * by_) + qxy u))
    (mtot t * (3 * ax * az) + qxz t + (mtot u * (3 * bx * bz) + qxz u))
    (mtot t * (3 * ay * ay - amag) + qyy t + (mtot u * (3 * by_ * by_ - bmag) + qyy u))
    (mtot t * (3 * ay * az) + qyz t + (mtot u * (3 * by_ * bz) + qyz u))
    (mtot t * (3 * az * az - amag) + qzz t + (mtot u * (3 * bz * bz - bmag) + qzz u))).

(** laplace_com.h:191-215 M_to_T, what is added to phi of a target at (x, y, z) *)
Definition M_to_T (t : com) (x y z : R) : R :=
  let dx := x - cx t in let dy := y - cy t in let dz := z - cz t in
  let diff2mag := dx * dx + dy * dy + dz * dz in
  let diffmag := sqrt diff2mag in
  let quaddenom := - 1 / (2 * diff2mag * diff2mag * diffmag) in
  let qsum := qxx t * dx * dx + 2 * qxy t * dx * dy + 2 * qxz t * dx * dz + qyy t * dy * dy + 2 * qyz t * dy * dz + qzz t * dz * dz in
  mtot t / diffmag + qsum * quaddenom.
(** laplace_com.h:219-236 S_to_T *)
Definition S_to_T (l : list source) (x y z : R) : R :=
  fold_left (fun sum s =>
    let dx := x - sx s in let dy := y - sy s in let dz := z - sz s in
    let mag := dx * dx + dy * dy + dz * dz in
    if Rlt_dec 0 mag then sum + charge s / sqrt mag else sum) l 0.
