(** The centre-of-mass expansion that yields accelerations: include/builtins/laplace_com_acc.h.  Doubles are real numbers;
    rounding is not modelled.  Views, roles and the memory of the data block (71-140) are not modelled. *)
From Coq Require Import Reals List.
From Verif Require Import Base ComModel.
Import ListNotations.
Open Scope R_scope.

(** laplace_com_acc.h:37-41 LaplaceCOMAccData has the members of [com]; 71-86, the constructor *)
Definition acc_zero : com := mkCom 0 0 0 0 0 0 0 0 0 0.

(** laplace_com_acc.h:378-384 calc_mtot *)
Definition acc_mtot (l : list source) : R := fold_left (fun a s => a + charge s) l 0.
(** laplace_com_acc.h:390-406 calc_xcom *)
Definition acc_xcom (m : R) (l : list source) : R * R * R :=
  let '(x, y, z) := fold_left (fun '(x, y, z) s => (x + charge s * sx s, y + charge s * sy s, z + charge s * sz s)) l (0, 0, 0) in
  if Req_EM_T m 0 then (x, y, z)
  else let oomtot := 1 / m in (x * oomtot, y * oomtot, z * oomtot).
(** laplace_com_acc.h:412-430 calc_Q *)
Definition acc_Q (x y z : R) (l : list source) : R * R * R * R * R * R :=
  fold_left (fun '(a, b, c, d, e, f) s =>
    let dx := sx s - x in let dy := sy s - y in let dz := sz s - z in
    let diffmag := dx * dx + dy * dy + dz * dz in
    (a + charge s * (3 * dx * dx - diffmag), b + charge s * 3 * dx * dy, c + charge s * 3 * dx * dz,
     d + charge s * (3 * dy * dy - diffmag), e + charge s * 3 * dy * dz, f + charge s * (3 * dz * dz - diffmag)))
    l (0, 0, 0, 0, 0, 0).
(** laplace_com_acc.h:160-167 S_to_M *)
Definition acc_S_to_M (l : list source) : com :=
  let m := acc_mtot l in
  let '(x, y, z) := acc_xcom m l in
  let '(a, b, c, d, e, f) := acc_Q x y z l in
  mkCom m x y z a b c d e f.
(** laplace_com_acc.h:174-181 M_to_M: a copy *)
Definition acc_M_to_M (t : com) : com :=
  mkCom (mtot t) (cx t) (cy t) (cz t) (qxx t) (qxy t) (qxz t) (qyy t) (qyz t) (qzz t).

(** laplace_com_acc.h:278-327 add_expansion: [data_] is [t], the argument [u].  Where the total is zero the centre
    stays at the origin (293-298). *)
Definition acc_add (t u : com) : com :=
  let Mp := mtot t + mtot u in
  let '(dx, dy, dz) :=
    if Req_EM_T Mp 0 then (0, 0, 0)
    else ((mtot t * cx t + mtot u * cx u) / Mp, (mtot t * cy t + mtot u * cy u) / Mp, (mtot t * cz t + mtot u * cz u) / Mp) in
  let ax := cx t - dx in let ay := cy t - dy in let az := cz t - dz in
  let amag := ax * ax + ay * ay + az * az in
  let bx := cx u - dx in let by_ := cy u - dy in let bz := cz u - dz in
  let bmag := bx * bx + by_ * by_ + bz * bz in
  mkCom Mp dx dy dz
    (mtot t * (3 * ax * ax - amag) + qxx t + (mtot u * (3 * bx * bx - bmag) + qxx u))
    (mtot t * (3 * ax * ay) + qxy t + (mtot u * (3 * bx * by_) + qxy u))
    (mtot t * (3 * ax * az) + qxz t + (mtot u * (3 * bx * bz) + qxz u))
    (mtot t * (3 * ay * ay - amag) + qyy t + (mtot u * (3 * by_ * by_ - bmag) + qyy u))
    (mtot t * (3 * ay * az) + qyz t + (mtot u * (3 * by_ * bz) + qyz u))
    (mtot t * (3 * az * az - amag) + qzz t + (mtot u * (3 * bz * bz - bmag) + qzz u)).

(** laplace_com_acc.h:191-237 M_to_T, what is added to the acceleration of a target at (x, y, z).  A target at the
    centre divides by zero. *)
Definition acc_M_to_T (t : com) (x y z : R) : res (R * R * R) :=
  let dx := x - cx t in let dy := y - cy t in let dz := z - cz t in
  let diff2mag := dx * dx + dy * dy + dz * dz in
  let diffmag := sqrt diff2mag in
  if Req_EM_T diff2mag 0 then Fail DivZero else
  let nx := dx / diffmag in let ny := dy / diffmag in let nz := dz / diffmag in
  let diff4mag := diff2mag * diff2mag in
  let mono := mtot t / diff2mag in
  let qsum := (qxx t * nx * nx + 2 * qxy t * nx * ny + 2 * qxz t * nx * nz + qyy t * ny * ny + 2 * qyz t * ny * nz + qzz t * nz * nz) * (5 / (2 * diff4mag)) in
  Ok (mono * nx + qsum * nx - (qxx t * nx + qxy t * ny + qxz t * nz) / diff4mag,
      mono * ny + qsum * ny - (qxy t * nx + qyy t * ny + qyz t * nz) / diff4mag,
      mono * nz + qsum * nz - (qxz t * nx + qyz t * ny + qzz t * nz) / diff4mag).
(** laplace_com_acc.h:241-264 S_to_T *)
Definition acc_S_to_T (l : list source) (x y z : R) : R * R * R :=
  fold_left (fun '(a, b, c) s =>
    let dx := x - sx s in let dy := y - sy s in let dz := z - sz s in
    let mag := dx * dx + dy * dy + dz * dz in
    let sqrtmag := sqrt mag in
    if Rlt_dec 0 mag then (a + charge s * dx / (mag * sqrtmag), b + charge s * dy / (mag * sqrtmag), c + charge s * dz / (mag * sqrtmag))
    else (a, b, c)) l (0, 0, 0).
