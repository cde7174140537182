(** Merge-and-shift: the tables and the translations between intermediate (plane wave)
    expansions of the FMM97 method, for the Laplace, Yukawa and Helmholtz kernels. *)
From Coq Require Import ZArith List Bool.
From Verif Require Import Base IndexModel LookupModel.
Import ListNotations.
Open Scope Z_scope.

(** The six directions a wave can travel.  Source view order px, mx, py, my, pz, mz
    (src/laplace.cc:279-284, src/yukawa.cc, same names); on the target side the
    accumulators S_mz, S_pz, ... (src/laplace.cc:487-492). *)
Inductive dir := PX | MX | PY | MY | PZ | MZ.

(** include/builtins/merge_shift.h:27-56 [MergedList] *)
Definition uall : Z := 0.
Definition u1234 : Z := 1.
Definition nall : Z := 2.
Definition n1256 : Z := 3.
Definition n12 : Z := 4.
Definition n56 : Z := 5.
Definition eall : Z := 6.
Definition e1357 : Z := 7.
Definition e13 : Z := 8.
Definition e57 : Z := 9.
Definition e1 : Z := 10.
Definition e3 : Z := 11.
Definition e5 : Z := 12.
Definition e7 : Z := 13.
Definition dall : Z := 14.
Definition d5678 : Z := 15.
Definition sall : Z := 16.
Definition s3478 : Z := 17.
Definition s34 : Z := 18.
Definition s78 : Z := 19.
Definition wall : Z := 20.
Definition w2468 : Z := 21.
Definition w24 : Z := 22.
Definition w68 : Z := 23.
Definition w2 : Z := 24.
Definition w4 : Z := 25.
Definition w6 : Z := 26.
Definition w8 : Z := 27.

(** The kinds of expansion shifted: Laplace and Yukawa have one, Helmholtz has the
    evanescent and the propagating waves. *)
Inductive comp := Lap | Yuk | HelEvan | HelProp.

(** One translation [e_to_e(S_dir, E[tag], x, y, z)] of I_to_L. *)
Record move := mv { m_acc : dir; m_tag : Z; m_x : Z; m_y : Z; m_z : Z }.

(** src/merge_shift.cc:25-186 [merge_and_shift_table], subscripts [dx + 2][dy + 2][dz + 2][i] *)
Definition merge_and_shift_table : list (list (list (list Z))) := [
  [
    [[dall; (-1); (-1)]; [sall; (-1); (-1)]; [sall; (-1); (-1)]; [sall; (-1); (-1)]; [sall; (-1); (-1)]; [uall; (-1); (-1)]];
    [[dall; (-1); (-1)]; [wall; (-1); (-1)]; [wall; (-1); (-1)]; [wall; (-1); (-1)]; [wall; (-1); (-1)]; [uall; (-1); (-1)]];
    [[dall; (-1); (-1)]; [wall; (-1); (-1)]; [wall; (-1); (-1)]; [wall; (-1); (-1)]; [wall; (-1); (-1)]; [uall; (-1); (-1)]];
    [[dall; (-1); (-1)]; [wall; (-1); (-1)]; [wall; (-1); (-1)]; [wall; (-1); (-1)]; [wall; (-1); (-1)]; [uall; (-1); (-1)]];
    [[dall; (-1); (-1)]; [wall; (-1); (-1)]; [wall; (-1); (-1)]; [wall; (-1); (-1)]; [wall; (-1); (-1)]; [uall; (-1); (-1)]];
    [[dall; (-1); (-1)]; [nall; (-1); (-1)]; [nall; (-1); (-1)]; [nall; (-1); (-1)]; [nall; (-1); (-1)]; [uall; (-1); (-1)]]];
  [
    [[dall; (-1); (-1)]; [sall; (-1); (-1)]; [sall; (-1); (-1)]; [sall; (-1); (-1)]; [sall; (-1); (-1)]; [uall; (-1); (-1)]];
    [[dall; (-1); (-1)]; [d5678; s34; w2]; [s3478; w2; w6]; [s3478; w2; w6]; [u1234; s78; w6]; [uall; (-1); (-1)]];
    [[dall; (-1); (-1)]; [d5678; w24; (-1)]; [w2468; (-1); (-1)]; [w2468; (-1); (-1)]; [u1234; w68; (-1)]; [uall; (-1); (-1)]];
    [[dall; (-1); (-1)]; [d5678; w24; (-1)]; [w2468; (-1); (-1)]; [w2468; (-1); (-1)]; [u1234; w68; (-1)]; [uall; (-1); (-1)]];
    [[dall; (-1); (-1)]; [d5678; n12; w4]; [n1256; w4; w8]; [n1256; w4; w8]; [u1234; n56; w8]; [uall; (-1); (-1)]];
    [[dall; (-1); (-1)]; [nall; (-1); (-1)]; [nall; (-1); (-1)]; [nall; (-1); (-1)]; [nall; (-1); (-1)]; [uall; (-1); (-1)]]];
  [
    [[dall; (-1); (-1)]; [sall; (-1); (-1)]; [sall; (-1); (-1)]; [sall; (-1); (-1)]; [sall; (-1); (-1)]; [uall; (-1); (-1)]];
    [[dall; (-1); (-1)]; [d5678; s34; (-1)]; [s3478; (-1); (-1)]; [s3478; (-1); (-1)]; [u1234; s78; (-1)]; [uall; (-1); (-1)]];
    [[dall; (-1); (-1)]; [d5678; (-1); (-1)]; [(-1); (-1); (-1)]; [(-1); (-1); (-1)]; [u1234; (-1); (-1)]; [uall; (-1); (-1)]];
    [[dall; (-1); (-1)]; [d5678; (-1); (-1)]; [(-1); (-1); (-1)]; [(-1); (-1); (-1)]; [u1234; (-1); (-1)]; [uall; (-1); (-1)]];
    [[dall; (-1); (-1)]; [d5678; n12; (-1)]; [n1256; (-1); (-1)]; [n1256; (-1); (-1)]; [u1234; n56; (-1)]; [uall; (-1); (-1)]];
    [[dall; (-1); (-1)]; [nall; (-1); (-1)]; [nall; (-1); (-1)]; [nall; (-1); (-1)]; [nall; (-1); (-1)]; [uall; (-1); (-1)]]];
  [
    [[dall; (-1); (-1)]; [sall; (-1); (-1)]; [sall; (-1); (-1)]; [sall; (-1); (-1)]; [sall; (-1); (-1)]; [uall; (-1); (-1)]];
    [[dall; (-1); (-1)]; [d5678; s34; (-1)]; [s3478; (-1); (-1)]; [s3478; (-1); (-1)]; [u1234; s78; (-1)]; [uall; (-1); (-1)]];
    [[dall; (-1); (-1)]; [d5678; (-1); (-1)]; [(-1); (-1); (-1)]; [(-1); (-1); (-1)]; [u1234; (-1); (-1)]; [uall; (-1); (-1)]];
    [[dall; (-1); (-1)]; [d5678; (-1); (-1)]; [(-1); (-1); (-1)]; [(-1); (-1); (-1)]; [u1234; (-1); (-1)]; [uall; (-1); (-1)]];
    [[dall; (-1); (-1)]; [d5678; n12; (-1)]; [n1256; (-1); (-1)]; [n1256; (-1); (-1)]; [u1234; n56; (-1)]; [uall; (-1); (-1)]];
    [[dall; (-1); (-1)]; [nall; (-1); (-1)]; [nall; (-1); (-1)]; [nall; (-1); (-1)]; [nall; (-1); (-1)]; [uall; (-1); (-1)]]];
  [
    [[dall; (-1); (-1)]; [sall; (-1); (-1)]; [sall; (-1); (-1)]; [sall; (-1); (-1)]; [sall; (-1); (-1)]; [uall; (-1); (-1)]];
    [[dall; (-1); (-1)]; [d5678; s34; e1]; [s3478; e1; e5]; [s3478; e1; e5]; [u1234; s78; e5]; [uall; (-1); (-1)]];
    [[dall; (-1); (-1)]; [d5678; e13; (-1)]; [e1357; (-1); (-1)]; [e1357; (-1); (-1)]; [u1234; e57; (-1)]; [uall; (-1); (-1)]];
    [[dall; (-1); (-1)]; [d5678; e13; (-1)]; [e1357; (-1); (-1)]; [e1357; (-1); (-1)]; [u1234; e57; (-1)]; [uall; (-1); (-1)]];
    [[dall; (-1); (-1)]; [d5678; n12; e3]; [n1256; e3; e7]; [n1256; e3; e7]; [u1234; n56; e7]; [uall; (-1); (-1)]];
    [[dall; (-1); (-1)]; [nall; (-1); (-1)]; [nall; (-1); (-1)]; [nall; (-1); (-1)]; [nall; (-1); (-1)]; [uall; (-1); (-1)]]];
  [
    [[dall; (-1); (-1)]; [sall; (-1); (-1)]; [sall; (-1); (-1)]; [sall; (-1); (-1)]; [sall; (-1); (-1)]; [uall; (-1); (-1)]];
    [[dall; (-1); (-1)]; [eall; (-1); (-1)]; [eall; (-1); (-1)]; [eall; (-1); (-1)]; [eall; (-1); (-1)]; [uall; (-1); (-1)]];
    [[dall; (-1); (-1)]; [eall; (-1); (-1)]; [eall; (-1); (-1)]; [eall; (-1); (-1)]; [eall; (-1); (-1)]; [uall; (-1); (-1)]];
    [[dall; (-1); (-1)]; [eall; (-1); (-1)]; [eall; (-1); (-1)]; [eall; (-1); (-1)]; [eall; (-1); (-1)]; [uall; (-1); (-1)]];
    [[dall; (-1); (-1)]; [eall; (-1); (-1)]; [eall; (-1); (-1)]; [eall; (-1); (-1)]; [eall; (-1); (-1)]; [uall; (-1); (-1)]];
    [[dall; (-1); (-1)]; [nall; (-1); (-1)]; [nall; (-1); (-1)]; [nall; (-1); (-1)]; [nall; (-1); (-1)]; [uall; (-1); (-1)]]]].

(** src/laplace.cc:494-622, the switch of lap_i_to_l: for each child the shifts, as (accumulator, list, x, y, z). *)
Definition lap_shifts : list (list move) := [
  [mv MZ uall 0 0 3; mv MZ u1234 0 0 2; mv PZ dall 0 0 2; mv MY nall 0 0 3; mv MY n1256 0 0 2; mv MY n12 0 0 2; mv PY sall 0 0 2; mv MX eall 0 0 3; mv MX e1357 0 0 2; mv MX e13 0 0 2; mv MX e1 0 0 2; mv PX wall 0 0 2];
  [mv MZ uall (-1) 0 3; mv MZ u1234 (-1) 0 2; mv PZ dall 1 0 2; mv MY nall 0 (-1) 3; mv MY n1256 0 (-1) 2; mv MY n12 0 (-1) 2; mv PY sall 0 1 2; mv MX eall 0 0 2; mv PX wall 0 0 3; mv PX w2468 0 0 2; mv PX w24 0 0 2; mv PX w2 0 0 2];
  [mv MZ uall 0 (-1) 3; mv MZ u1234 0 (-1) 2; mv PZ dall 0 1 2; mv MY nall 0 0 2; mv PY sall 0 0 3; mv PY s3478 0 0 2; mv PY s34 0 0 2; mv MX eall 0 (-1) 3; mv MX e1357 0 (-1) 2; mv MX e13 0 (-1) 2; mv MX e3 0 (-1) 2; mv PX wall 0 1 2];
  [mv MZ uall (-1) (-1) 3; mv MZ u1234 (-1) (-1) 2; mv PZ dall 1 1 2; mv MY nall 0 (-1) 2; mv PY sall 0 1 3; mv PY s3478 0 1 2; mv PY s34 0 1 2; mv MX eall 0 (-1) 2; mv PX wall 0 1 3; mv PX w2468 0 1 2; mv PX w24 0 1 2; mv PX w4 0 1 2];
  [mv MZ uall 0 0 2; mv PZ dall 0 0 3; mv PZ d5678 0 0 2; mv MY nall (-1) 0 3; mv MY n1256 (-1) 0 2; mv MY n56 (-1) 0 2; mv PY sall 1 0 2; mv MX eall 1 0 3; mv MX e1357 1 0 2; mv MX e57 1 0 2; mv MX e5 1 0 2; mv PX wall (-1) 0 2];
  [mv MZ uall (-1) 0 2; mv PZ dall 1 0 3; mv PZ d5678 1 0 2; mv MY nall (-1) (-1) 3; mv MY n1256 (-1) (-1) 2; mv MY n56 (-1) (-1) 2; mv PY sall 1 1 2; mv MX eall 1 0 2; mv PX wall (-1) 0 3; mv PX w2468 (-1) 0 2; mv PX w68 (-1) 0 2; mv PX w6 (-1) 0 2];
  [mv MZ uall 0 (-1) 2; mv PZ dall 0 1 3; mv PZ d5678 0 1 2; mv MY nall (-1) 0 2; mv PY sall 1 0 3; mv PY s3478 1 0 2; mv PY s78 1 0 2; mv MX eall 1 (-1) 3; mv MX e1357 1 (-1) 2; mv MX e57 1 (-1) 2; mv MX e7 1 (-1) 2; mv PX wall (-1) 1 2];
  [mv MZ uall (-1) (-1) 2; mv PZ dall 1 1 3; mv PZ d5678 1 1 2; mv MY nall (-1) (-1) 2; mv PY sall 1 1 3; mv PY s3478 1 1 2; mv PY s78 1 1 2; mv MX eall 1 (-1) 2; mv PX wall (-1) 1 3; mv PX w2468 (-1) 1 2; mv PX w68 (-1) 1 2; mv PX w8 (-1) 1 2]].

(** src/yukawa.cc:738-866, the switch of yuk_i_to_l *)
Definition yuk_shifts : list (list move) := [
  [mv MZ uall 0 0 3; mv MZ u1234 0 0 2; mv PZ dall 0 0 2; mv MY nall 0 0 3; mv MY n1256 0 0 2; mv MY n12 0 0 2; mv PY sall 0 0 2; mv MX eall 0 0 3; mv MX e1357 0 0 2; mv MX e13 0 0 2; mv MX e1 0 0 2; mv PX wall 0 0 2];
  [mv MZ uall (-1) 0 3; mv MZ u1234 (-1) 0 2; mv PZ dall 1 0 2; mv MY nall 0 (-1) 3; mv MY n1256 0 (-1) 2; mv MY n12 0 (-1) 2; mv PY sall 0 1 2; mv MX eall 0 0 2; mv PX wall 0 0 3; mv PX w2468 0 0 2; mv PX w24 0 0 2; mv PX w2 0 0 2];
  [mv MZ uall 0 (-1) 3; mv MZ u1234 0 (-1) 2; mv PZ dall 0 1 2; mv MY nall 0 0 2; mv PY sall 0 0 3; mv PY s3478 0 0 2; mv PY s34 0 0 2; mv MX eall 0 (-1) 3; mv MX e1357 0 (-1) 2; mv MX e13 0 (-1) 2; mv MX e3 0 (-1) 2; mv PX wall 0 1 2];
  [mv MZ uall (-1) (-1) 3; mv MZ u1234 (-1) (-1) 2; mv PZ dall 1 1 2; mv MY nall 0 (-1) 2; mv PY sall 0 1 3; mv PY s3478 0 1 2; mv PY s34 0 1 2; mv MX eall 0 (-1) 2; mv PX wall 0 1 3; mv PX w2468 0 1 2; mv PX w24 0 1 2; mv PX w4 0 1 2];
  [mv MZ uall 0 0 2; mv PZ dall 0 0 3; mv PZ d5678 0 0 2; mv MY nall (-1) 0 3; mv MY n1256 (-1) 0 2; mv MY n56 (-1) 0 2; mv PY sall 1 0 2; mv MX eall 1 0 3; mv MX e1357 1 0 2; mv MX e57 1 0 2; mv MX e5 1 0 2; mv PX wall (-1) 0 2];
  [mv MZ uall (-1) 0 2; mv PZ dall 1 0 3; mv PZ d5678 1 0 2; mv MY nall (-1) (-1) 3; mv MY n1256 (-1) (-1) 2; mv MY n56 (-1) (-1) 2; mv PY sall 1 1 2; mv MX eall 1 0 2; mv PX wall (-1) 0 3; mv PX w2468 (-1) 0 2; mv PX w68 (-1) 0 2; mv PX w6 (-1) 0 2];
  [mv MZ uall 0 (-1) 2; mv PZ dall 0 1 3; mv PZ d5678 0 1 2; mv MY nall (-1) 0 2; mv PY sall 1 0 3; mv PY s3478 1 0 2; mv PY s78 1 0 2; mv MX eall 1 (-1) 3; mv MX e1357 1 (-1) 2; mv MX e57 1 (-1) 2; mv MX e7 1 (-1) 2; mv PX wall (-1) 1 2];
  [mv MZ uall (-1) (-1) 2; mv PZ dall 1 1 3; mv PZ d5678 1 1 2; mv MY nall (-1) (-1) 2; mv PY sall 1 1 3; mv PY s3478 1 1 2; mv PY s78 1 1 2; mv MX eall 1 (-1) 2; mv PX wall (-1) 1 3; mv PX w2468 (-1) 1 2; mv PX w68 (-1) 1 2; mv PX w8 (-1) 1 2]].

(** include/builtins/helmholtz.h:786-1031, the switch of I_to_L, evanescent waves *)
Definition hel_evan_shifts : list (list move) := [
  [mv MZ uall 0 0 3; mv MZ u1234 0 0 2; mv PZ dall 0 0 2; mv MY nall 0 0 3; mv MY n1256 0 0 2; mv MY n12 0 0 2; mv PY sall 0 0 2; mv MX eall 0 0 3; mv MX e1357 0 0 2; mv MX e13 0 0 2; mv MX e1 0 0 2; mv PX wall 0 0 2];
  [mv MZ uall (-1) 0 3; mv MZ u1234 (-1) 0 2; mv PZ dall 1 0 2; mv MY nall 0 (-1) 3; mv MY n1256 0 (-1) 2; mv MY n12 0 (-1) 2; mv PY sall 0 1 2; mv MX eall 0 0 2; mv PX wall 0 0 3; mv PX w2468 0 0 2; mv PX w24 0 0 2; mv PX w2 0 0 2];
  [mv MZ uall 0 (-1) 3; mv MZ u1234 0 (-1) 2; mv PZ dall 0 1 2; mv MY nall 0 0 2; mv PY sall 0 0 3; mv PY s3478 0 0 2; mv PY s34 0 0 2; mv MX eall 0 (-1) 3; mv MX e1357 0 (-1) 2; mv MX e13 0 (-1) 2; mv MX e3 0 (-1) 2; mv PX wall 0 1 2];
  [mv MZ uall (-1) (-1) 3; mv MZ u1234 (-1) (-1) 2; mv PZ dall 1 1 2; mv MY nall 0 (-1) 2; mv PY sall 0 1 3; mv PY s3478 0 1 2; mv PY s34 0 1 2; mv MX eall 0 (-1) 2; mv PX wall 0 1 3; mv PX w2468 0 1 2; mv PX w24 0 1 2; mv PX w4 0 1 2];
  [mv MZ uall 0 0 2; mv PZ dall 0 0 3; mv PZ d5678 0 0 2; mv MY nall (-1) 0 3; mv MY n1256 (-1) 0 2; mv MY n56 (-1) 0 2; mv PY sall 1 0 2; mv MX eall 1 0 3; mv MX e1357 1 0 2; mv MX e57 1 0 2; mv MX e5 1 0 2; mv PX wall (-1) 0 2];
  [mv MZ uall (-1) 0 2; mv PZ dall 1 0 3; mv PZ d5678 1 0 2; mv MY nall (-1) (-1) 3; mv MY n1256 (-1) (-1) 2; mv MY n56 (-1) (-1) 2; mv PY sall 1 1 2; mv MX eall 1 0 2; mv PX wall (-1) 0 3; mv PX w2468 (-1) 0 2; mv PX w68 (-1) 0 2; mv PX w6 (-1) 0 2];
  [mv MZ uall 0 (-1) 2; mv PZ dall 0 1 3; mv PZ d5678 0 1 2; mv MY nall (-1) 0 2; mv PY sall 1 0 3; mv PY s3478 1 0 2; mv PY s78 1 0 2; mv MX eall 1 (-1) 3; mv MX e1357 1 (-1) 2; mv MX e57 1 (-1) 2; mv MX e7 1 (-1) 2; mv PX wall (-1) 1 2];
  [mv MZ uall (-1) (-1) 2; mv PZ dall 1 1 3; mv PZ d5678 1 1 2; mv MY nall (-1) (-1) 2; mv PY sall 1 1 3; mv PY s3478 1 1 2; mv PY s78 1 1 2; mv MX eall 1 (-1) 2; mv PX wall (-1) 1 3; mv PX w2468 (-1) 1 2; mv PX w68 (-1) 1 2; mv PX w8 (-1) 1 2]].

(** include/builtins/helmholtz.h:786-1031, the switch of I_to_L, propagating waves *)
Definition hel_prop_shifts : list (list move) := [
  [mv MZ uall 0 0 3; mv MZ u1234 0 0 2; mv PZ dall 0 0 2; mv MY nall 0 0 3; mv MY n1256 0 0 2; mv MY n12 0 0 2; mv PY sall 0 0 2; mv MX eall 0 0 3; mv MX e1357 0 0 2; mv MX e13 0 0 2; mv MX e1 0 0 2; mv PX wall 0 0 2];
  [mv MZ uall (-1) 0 3; mv MZ u1234 (-1) 0 2; mv PZ dall 1 0 2; mv MY nall 0 (-1) 3; mv MY n1256 0 (-1) 2; mv MY n12 0 (-1) 2; mv PY sall 0 1 2; mv MX eall 0 0 2; mv PX wall 0 0 3; mv PX w2468 0 0 2; mv PX w24 0 0 2; mv PX w2 0 0 2];
  [mv MZ uall 0 (-1) 3; mv MZ u1234 0 (-1) 2; mv PZ dall 0 1 2; mv MY nall 0 0 2; mv PY sall 0 0 3; mv PY s3478 0 0 2; mv PY s34 0 0 2; mv MX eall 0 (-1) 3; mv MX e1357 0 (-1) 2; mv MX e13 0 (-1) 2; mv MX e3 0 (-1) 2; mv PX wall 0 1 2];
  [mv MZ uall (-1) (-1) 3; mv MZ u1234 (-1) (-1) 2; mv PZ dall 1 1 2; mv MY nall 0 (-1) 2; mv PY sall 0 1 3; mv PY s3478 0 1 2; mv PY s34 0 1 2; mv MX eall 0 (-1) 2; mv PX wall 0 1 3; mv PX w2468 0 1 2; mv PX w24 0 1 2; mv PX w4 0 1 2];
  [mv MZ uall 0 0 2; mv PZ dall 0 0 3; mv PZ d5678 0 0 2; mv MY nall (-1) 0 3; mv MY n1256 (-1) 0 2; mv MY n56 (-1) 0 2; mv PY sall 1 0 2; mv MX eall 1 0 3; mv MX e1357 1 0 2; mv MX e57 1 0 2; mv MX e5 1 0 2; mv PX wall (-1) 0 2];
  [mv MZ uall (-1) 0 2; mv PZ dall 1 0 3; mv PZ d5678 1 0 2; mv MY nall (-1) (-1) 3; mv MY n1256 (-1) (-1) 2; mv MY n56 (-1) (-1) 2; mv PY sall 1 1 2; mv MX eall 1 0 2; mv PX wall (-1) 0 3; mv PX w2468 (-1) 0 2; mv PX w68 (-1) 0 2; mv PX w6 (-1) 0 2];
  [mv MZ uall 0 (-1) 2; mv PZ dall 0 1 3; mv PZ d5678 0 1 2; mv MY nall (-1) 0 2; mv PY sall 1 0 3; mv PY s3478 1 0 2; mv PY s78 1 0 2; mv MX eall 1 (-1) 3; mv MX e1357 1 (-1) 2; mv MX e57 1 (-1) 2; mv MX e7 1 (-1) 2; mv PX wall (-1) 1 2];
  [mv MZ uall (-1) (-1) 2; mv PZ dall 1 1 3; mv PZ d5678 1 1 2; mv MY nall (-1) (-1) 2; mv PY sall 1 1 3; mv PY s3478 1 1 2; mv PY s78 1 1 2; mv MX eall 1 (-1) 2; mv PX wall (-1) 1 3; mv PX w2468 (-1) 1 2; mv PX w68 (-1) 1 2; mv PX w8 (-1) 1 2]].


Definition shifts (k : comp) : list (list move) :=
  match k with Lap => lap_shifts | Yuk => yuk_shifts | HelEvan => hel_evan_shifts | HelProp => hel_prop_shifts end.

(** A translation of I_to_I: the tag whose target view it fills, the source view read,
    whether the conjugate is taken (Helmholtz propagating waves only), and the shift. *)
Record put := mkPut { p_tag : Z; p_view : Z; p_conj : bool; p_x : Z; p_y : Z; p_z : Z }.

(** The subscripts of the shift tables in e_to_e (src/laplace.cc:639-661, src/yukawa.cc,
    helmholtz.h:1220-1239 [e2e_e], 1188-1218 [e2e_p]): seven entries for x and y, with
    3 added; four for z; seven with 3 added for [e2e_p].  A subscript outside the entry of
    its wave is a failure (in the code: the factor of another wave, or beyond the table). *)
Definition e_to_e (k : comp) (x y z : Z) : res unit :=
  do _ <- nth_resZ (repeat tt 7) (3 + x);
  do _ <- nth_resZ (repeat tt 7) (3 + y);
  match k with
  | HelProp => nth_resZ (repeat tt 7) (3 + z)
  | _ => nth_resZ (repeat tt 4) z
  end.

(** The source view of a direction: src/laplace.cc:385-394 and src/yukawa.cc:625-634 (S[0] to
    S[5]); helmholtz.h:663-680 ([Evan_*] are views 1, 2, 4, 5, 7, 8, [Prop_*] 0, 3, 6). *)
Definition view_of (k : comp) (d : dir) : Z :=
  match k, d with
  | HelEvan, PX => 1 | HelEvan, MX => 2 | HelEvan, PY => 4 | HelEvan, MY => 5 | HelEvan, PZ => 7 | HelEvan, MZ => 8
  | HelProp, (PX | MX) => 0 | HelProp, (PY | MY) => 3 | HelProp, (PZ | MZ) => 6
  | _, PX => 0 | _, MX => 1 | _, PY => 2 | _, MY => 3 | _, PZ => 4 | _, MZ => 5
  end.

(** The six branches on the tag: src/laplace.cc:424-436, src/yukawa.cc:664-676,
    helmholtz.h:711-729 (there the Helmholtz propagating waves are conjugated for tags up
    to 13). *)
Definition branch (k : comp) (tag dx dy dz : Z) : put :=
  let p d cj x y := mkPut tag (view_of k d) (match k with HelProp => cj | _ => false end) x y 0 in
  if tag <=? 1 then p MZ true dx dy
  else if tag <=? 5 then p MY true dz dx
  else if tag <=? 13 then p MX true (- dz) dy
  else if tag <=? 15 then p PZ false (- dx) (- dy)
  else if tag <=? 19 then p PY false (- dz) (- dx)
  else p PX false dz (- dy).

(** [merge_and_shift_table[dx + 2][dy + 2][dz + 2]] *)
Definition table_row (dx dy dz : Z) : res (list Z) :=
  do a <- nth_resZ merge_and_shift_table (dx + 2);
  do b <- nth_resZ a (dy + 2);
  nth_resZ b (dz + 2).

(** The loop over [i < 3] with its [break] at -1. *)
Fixpoint until_end (row : list Z) : list Z :=
  match row with
  | [] => []
  | tag :: row' => if tag =? -1 then [] else tag :: until_end row'
  end.

(** src/laplace.cc:385-447 [lap_i_to_i], src/yukawa.cc:625-690 [yuk_i_to_i],
    helmholtz.h:650-748 [I_to_I].  [t] is the index of the target parent.  The coefficients
    of the waves are not modelled. *)
Definition i_to_i (k : comp) (s t : index) : res (list put) :=
  let dx := ix s - ix t * 2 in
  let dy := iy s - iy t * 2 in
  let dz := iz s - iz t * 2 in
  do row <- table_row dx dy dz;
  mapM (fun tag => let p := branch k tag dx dy dz in do _ <- e_to_e k (p_x p) (p_y p) (p_z p); Ok p) (until_end row).

(** src/laplace.cc:449-637 [lap_i_to_l], src/yukawa.cc:692-879 [yuk_i_to_l],
    helmholtz.h:750-1042 [I_to_L]; C++'s [%] is [Z.rem].  A value of the switch other than
    0 to 7 does nothing. *)
Definition i_to_l (k : comp) (u : index) : res (list move) :=
  let to_child := 4 * Z.rem (iz u) 2 + 2 * Z.rem (iy u) 2 + Z.rem (ix u) 2 in
  match nth_resZ (shifts k) to_child with
  | Fail _ => Ok []
  | Ok ms => mapM (fun m => do _ <- nth_resZ (repeat tt 28) (m_tag m); do _ <- e_to_e k (m_x m) (m_y m) (m_z m); Ok m) ms
  end.

(** What the local expansion of [u] receives from the waves of the source box [s] through the
    intermediate expansion of [u]'s parent [t], whose view [tag] is the sum of the views
    [tag] of all contributions (laplace.h, yukawa.h, helmholtz.h [add_expansion]): for each
    view filled by I_to_I, the translations of I_to_L that read it.  Shifts add up, since
    e_to_e multiplies each wave by exponentials of the shift. *)
Record share := mkShare { c_view : Z; c_conj : bool; c_acc : dir; c_x : Z; c_y : Z; c_z : Z }.
Definition shares_of (k : comp) (s t u : index) : res (list share) :=
  do ps <- i_to_i k s t;
  do ms <- i_to_l k u;
  Ok (flat_map (fun p => flat_map (fun m =>
        if m_tag m =? p_tag p
        then [mkShare (p_view p) (p_conj p) (m_acc m) (p_x p + m_x m) (p_y p + m_y m) (p_z p + m_z m)] else []) ms) ps).

(** laplace.h:350-371 [weight_estimate] *)
Definition lap_weight (op : operation) (s t : index) : res Z :=
  match op with
  | MtoI => Ok 6
  | ItoI => do row <- table_row (ix s - 2 * ix t) (iy s - 2 * iy t) (iz s - 2 * iz t);
            Ok (Z.of_nat (length (until_end row)))
  | _ => Ok 1
  end.
(** yukawa.h:307-329 and helmholtz.h:1072-1094: the branch for ItoI counts in a second
    variable [weight], local to the branch; the value returned is the outer one. *)
Definition yuk_weight (op : operation) (s t : index) : res Z :=
  match op with
  | MtoI => Ok 6
  | ItoI => do row <- table_row (ix s - 2 * ix t) (iy s - 2 * iy t) (iz s - 2 * iz t);
            let inner := Z.of_nat (length (until_end row)) in Ok 0
  | _ => Ok 1
  end.
