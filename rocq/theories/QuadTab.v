(** The waves of the quadrature of three digits, gathered by quadrants. *)
From Coq Require Import Reals ZArith List Lia Lra Psatz Bool.
From Coquelicot Require Import Coquelicot.
From Verif Require Import QuadBall QuadFun QuadCell QuadGrid.
Import ListNotations.
Open Scope R_scope.

(** Wave length, weight and number of angles *)
Definition bangle (j M : Z) : ball := bdiv (bscale (2 * j) bPI) M.
Definition bwave (l w : ball) (M j mu : Z) : btab := mktab l (bdiv (bscale mu w) M) (bmul l (bcos (bangle j M))) (bmul l (bsin (bangle j M))).
Definition quarter (M : Z) : list (Z * Z) :=
  if (M mod 4 =? 0)%Z then map (fun i => let j := Z.of_nat i in (j, if ((j =? 0) || (4 * j =? M))%Z%bool then 2%Z else 4%Z)) (seq 0 (S (Z.to_nat (M / 4)))) else [(0, 2)]%Z.
Definition bwaves (l w : ball) (M : Z) : list btab := map (fun jm => bwave l w M (fst jm) (snd jm)) (quarter M).
Definition rwave (l w : R) (M j mu : Z) : rterm := let a := 2 * PI * IZR j / IZR M in RT l (w * IZR mu / IZR M) (l * cos a) (l * sin a).
Definition rwaves (l w : R) (M : Z) : list rterm := map (fun jm => rwave l w M (fst jm) (snd jm)) (quarter M).

Definition p10 (n : positive) : Z := Z.pow_pos 10 n.
Definition entries3 : list (Z * positive * (Z * positive) * Z) :=
  [((99273996739714473469540223504736787, 36%positive), (24776441819008371281185532097879332, 35%positive), 4);
   ((47725674637049431137114652301534079, 35%positive), (49188566500464336872511239562300034, 35%positive), 8);
   ((10553366138218296388373573790886439, 34%positive), (65378749137677805158830324216978624, 35%positive), 12);
   ((17675934335400844688024335482623428, 34%positive), (76433038408784093054038066838984378, 35%positive), 16);
   ((25734262935147067530294862081063911, 34%positive), (84376180565628111640563702167128213, 35%positive), 20);
   ((34482433920158257478760788217186928, 34%positive), (90445883985098263213586733400006779, 35%positive), 20);
   ((43768098355472631055818055756390095, 34%positive), (95378613136833456653818075210438110, 35%positive), 24);
   ((53489575720546005399569367000367492, 34%positive), (99670261613218547047665651916759089, 35%positive), 8);
   ((63576578531337464283978988532908261, 34%positive), (10429422730252668749528766056755558, 34%positive), 2)]%Z.
Definition tabs3 : list btab := flat_map (fun e => let '((nl, dl), (nw, dw), M) := e in bwaves (bfrac nl (p10 dl)) (bfrac nw (p10 dw)) M) entries3.
Definition terms3 : list rterm := flat_map (fun e => let '((nl, dl), (nw, dw), M) := e in rwaves (IZR nl / IZR (p10 dl)) (IZR nw / IZR (p10 dw)) M) entries3.
