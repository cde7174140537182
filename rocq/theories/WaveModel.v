(** The exponential (plane wave) expansions of the Laplace kernel: the tables that
    src/laplace_table.cc makes for them and the functions of src/laplace.cc that compute,
    shift and convert them.  As in LapModel, doubles are real numbers. *)
From Coq Require Import Reals ZArith List.
From Verif Require Import Base IndexModel LapModel TranModel MergeShiftModel.
Import ListNotations.
Open Scope R_scope.

(** laplace_table.h: s_, nexp_, lambda_, weight_, m_, sm_, f_, smf_ *)
Record quad := mkQuad { q_s : nat; q_nexp : nat; q_lambda : list R; q_weight : list R;
                        q_m : list nat; q_sm : list nat; q_f : list nat; q_smf : list nat }.

(** laplace_table.cc:40-65 case 3, 67-113 case 6 and 115-182 case 9: what each assigns *)
Definition case_3 : quad := mkQuad 9 57
  [0.99273996739714473469540223504736787e-01; 0.47725674637049431137114652301534079e+00; 0.10553366138218296388373573790886439e+01;
   0.17675934335400844688024335482623428e+01; 0.25734262935147067530294862081063911e+01;
   0.34482433920158257478760788217186928e+01; 0.43768098355472631055818055756390095e+01;
   0.53489575720546005399569367000367492e+01; 0.63576578531337464283978988532908261e+01]
  [0.24776441819008371281185532097879332e+00; 0.49188566500464336872511239562300034e+00; 0.65378749137677805158830324216978624e+00;
   0.76433038408784093054038066838984378e+00; 0.84376180565628111640563702167128213e+00;
   0.90445883985098263213586733400006779e+00; 0.95378613136833456653818075210438110e+00;
   0.99670261613218547047665651916759089e+00; 0.10429422730252668749528766056755558e+01]
  [4; 8; 12; 16; 20; 20; 24; 8; 2]%nat
  [0; 2; 6; 12; 20; 30; 40; 52; 56; 57]%nat
  [2; 3; 4; 5; 5; 4; 5; 4; 1]%nat
  [0; 4; 16; 40; 80; 130; 170; 230; 246; 247]%nat.
Definition case_6 : quad := mkQuad 18 284
  [0.52788527661177607475107009804560221e-01; 0.26949859838931256028615734976483509e+00; 0.63220353174689392083962502510985360e+00;
   0.11130756427760852833586113774799742e+01; 0.16893949614021379623807206371566281e+01;
   0.23437620046953044905535534780938178e+01; 0.30626998290780611533534738555317745e+01;
   0.38356294126529686394633245072327554e+01; 0.46542473432156272750148673367220908e+01;
   0.55120938659358147404532246582675725e+01; 0.64042126837727888499784967279992998e+01;
   0.73268800190617540124549122992902994e+01; 0.82774009925823861522076185792684555e+01;
   0.92539718060248947750778825138695538e+01; 0.10255602723746401139237605093512684e+02;
   0.11282088297877740146191172243561596e+02; 0.12334067909676926788620221486780792e+02; 0.13414920240172401477707353478763252e+02]
  [0.13438265914335215112096477696468355e+00; 0.29457752727395436487256574764614925e+00; 0.42607819361148618897416895379137713e+00;
   0.53189220776549905878027857397682965e+00; 0.61787306245538586857435348065337166e+00;
   0.68863156078905074508611505734734237e+00; 0.74749099381426187260757387775811367e+00;
   0.79699192718599998208617307682288811e+00; 0.83917454386997591964103548889397644e+00;
   0.87570092283745315508980411323136650e+00; 0.90792943590067498593754180546966381e+00;
   0.93698393742461816291466902839601971e+00; 0.96382546688788062194674921556725167e+00;
   0.98932985769673820186653756536543369e+00; 0.10143828459791703888726033255807124e+01;
   0.10400365437416452252250564924906939e+01; 0.10681548926956736522697610780596733e+01; 0.11090758097553685690428437737864442e+01]
  [6; 8; 12; 16; 20; 26; 30; 34; 38; 44; 48; 52; 56; 60; 60; 52; 4; 2]%nat
  [0; 3; 7; 13; 21; 31; 44; 59; 76; 95; 117; 141; 167; 195; 225; 255; 281; 283; 284]%nat
  [3; 5; 6; 7; 7; 8; 9; 9; 10; 10; 11; 11; 11; 11; 11; 11; 7; 1]%nat
  [0; 9; 29; 65; 121; 191; 295; 430; 583; 773; 993; 1257; 1543; 1851; 2181; 2511; 2797; 2811; 2812]%nat.
Definition case_9 : quad := mkQuad 27 699
  [0.35834993247954083361861421508365311e-01; 0.18605352495124757861155728733137948e+00; 0.44642194330546725034025712375296280e+00;
   0.80414605853435716653621057048439980e+00; 0.12462239924414626468518463298096322e+01;
   0.17611257461239471222569363817456178e+01; 0.23391453785205094106913747964426875e+01;
   0.29722080942457780317056403873721138e+01; 0.36535650947301854252202701900387183e+01;
   0.43775326951870896508012265258003026e+01; 0.51393010711012010460763121955096722e+01;
   0.59347963207816585295972799940500408e+01; 0.67605758319435445002909546019509435e+01;
   0.76137438021356000916739503736607730e+01; 0.84918804165657331139982488821260631e+01;
   0.93929821745587691594892021385021508e+01; 0.10315412711899460518338855763431638e+02;
   0.11257864229560141211550217121839523e+02; 0.12219330080395609527954547957051545e+02;
   0.13199089643751765521528795943595469e+02; 0.14196707628360135444722800457384437e+02;
   0.15212051628819105886236684455070645e+02; 0.16245334166526408381514556822367013e+02;
   0.17297187705846923222452460322529078e+02; 0.18368783996172027173088281415402889e+02;
   0.19462114300213894324542707181535661e+02; 0.20582673852051787122263704077340662e+02]
  [0.91634452557743162337544617912499234e-01; 0.20725798653776011937210910218709614e+00; 0.31128301536359448409285732850548811e+00;
   0.40197254484414085551335915624804329e+00; 0.48025776040426659818649568478576839e+00;
   0.54793227641803410321585943165700883e+00; 0.60676658418922713167376059573143721e+00;
   0.65823842224192508076896501734154299e+00; 0.70353143374483517735740178977721371e+00;
   0.74360437862720618618084245099453256e+00; 0.77925510412986809249957786960294470e+00;
   0.81116302338313539532776985652162693e+00; 0.83991454783642205406124503497267142e+00;
   0.86601910131774351153666202662861906e+00; 0.88992107452719526605733335600234568e+00;
   0.91201046747319902685546821885509416e+00; 0.93263337746385499560375365035724826e+00;
   0.95210285562789409574691035231808200e+00; 0.97071063776060639849418976154993288e+00;
   0.98874065527360133209811010601697490e+00; 0.10064860790234053666836189222522080e+01;
   0.10242732841383590525197178067173809e+01; 0.10424992963077313046227345694205724e+01;
   0.10616963916554709168593717549811117e+01; 0.10826735650889751649827985602314584e+01;
   0.11072236156410122376314575376454741e+01; 0.11468295974452529240039666547090746e+01]
  [6; 10; 14; 18; 22; 26; 30; 34; 40; 44; 48; 54; 58; 62; 66; 72; 76; 80; 84; 90; 92; 96; 98; 96; 76; 4; 2]%nat
  [0; 3; 8; 15; 24; 35; 48; 63; 80; 100; 122; 146; 173; 202; 233; 266; 302; 340; 380; 422; 467; 513; 561; 610; 658; 696; 698; 699]%nat
  [4; 6; 8; 8; 10; 10; 12; 12; 14; 14; 14; 16; 16; 16; 16; 16; 18; 18; 18; 18; 18; 18; 18; 16; 16; 12; 2]%nat
  [0; 12; 42; 98; 170; 280; 410; 590; 794; 1074; 1382; 1718; 2150; 2614; 3110; 3638; 4214; 4898; 5618; 6374; 7184; 8012; 8876; 9758;
   10526; 11134; 11158; 11160]%nat.

(** laplace_table.cc:39-185 the switch: the assignments it runs, in order.  Only case 3 ends
    with a break; case 6 runs on into case 9, and there is nothing for other values. *)
Definition run_switch (n_digits : nat) : list quad :=
  match n_digits with 3%nat => [case_3] | 6%nat => [case_6; case_9] | 9%nat => [case_9] | _ => [] end.
(** The members afterwards: the last assignment, or indeterminate values, the use of which
    fails here. *)
Definition members (n_digits : nat) : res quad :=
  match rev (run_switch n_digits) with [] => Fail BadOp | q :: _ => Ok q end.
(** laplace_table.cc:194-218, the destructor frees the six arrays that the members point to;
    the arrays of earlier assignments are lost.  Counts of arrays made and freed. *)
Definition arrays_made (n_digits : nat) : nat := 6 * length (run_switch n_digits).
Definition arrays_freed : nat := 6.

(** [a[offset++] = v] *)
Definition put {A} (st : list A * nat) (v : A) : res (list A * nat) :=
  do a <- set_res (fst st) (snd st) v; Ok (a, S (snd st)).

(** laplace_table.cc:402-416 generate_xs and 418-432 generate_ys, which differ in [trig] *)
Definition generate_xys (trig : R -> R) (q : quad) : res (list cplx) :=
  do r <- foldM (fun st k =>
    do mk <- nth_res (q_m q) k; do lam <- nth_res (q_lambda q) k;
    do alpha <- rdiv (2 * PI) (INR mk);
    foldM (fun st j => foldM (fun st m =>
      let arg := lam * IZR m * trig (INR j * alpha) in put st (cos arg, sin arg)) (zseq (-3) 7) st) (seq 1 (mk / 2)) st)
    (seq 0 (q_s q)) (repeat (0, 0) (7 * q_nexp q), 0%nat);
  Ok (fst r).
(** laplace_table.cc:434-442 generate_zs *)
Definition generate_zs (q : quad) : res (list R) :=
  do r <- foldM (fun st k => do lam <- nth_res (q_lambda q) k;
    foldM (fun st m => put st (exp (- lam * INR m))) (seq 0 4) st) (seq 0 (q_s q)) (repeat 0 (4 * q_s q), 0%nat);
  Ok (fst r).
(** laplace_table.cc:444-463 generate_lambdaknm *)
Definition generate_lambdaknm (p : nat) (q : quad) : res (list R) :=
  do temp <- set_res (repeat 0 (2 * p + 1)) 0 1;
  do temp <- foldM (fun a i => do v <- nth_res a (i - 1); set_res a i (v * sqrt (INR i))) (seq 1 (2 * p)) temp;
  do r <- foldM (fun st k => do lam <- nth_res (q_lambda q) k;
    foldM (fun st n => foldM (fun st m =>
      do a <- nth_res temp (n - m); do b <- nth_res temp (n + m);
      do v <- rdiv (lam ^ n) a; do v <- rdiv v b; put st v) (seq 0 (S n)) st) (seq 0 (S p)) st)
    (seq 0 (q_s q)) (repeat 0 (q_s q * (p + 1) * (p + 2) / 2), 0%nat);
  Ok (fst r).
(** laplace_table.cc:465-478 generate_ealphaj *)
Definition generate_ealphaj (q : quad) : res (list cplx) :=
  do size <- nth_res (q_smf q) (q_s q);
  do r <- foldM (fun st k =>
    do mk <- nth_res (q_m q) k; do fk <- nth_res (q_f q) k;
    do alpha <- rdiv (2 * PI) (INR mk);
    foldM (fun st j => foldM (fun st m =>
      let arg := INR m * (INR j * alpha) in put st (cos arg, sin arg)) (seq 1 fk) st) (seq 1 (mk / 2)) st)
    (seq 0 (q_s q)) (repeat (0, 0) size, 0%nat);
  Ok (fst r).

(** laplace_table.cc:38-191, what the constructor makes for the exponential expansions *)
Record wtab := mkWtab { w_q : quad; w_xs : list cplx; w_ys : list cplx; w_zs : list R; w_knm : list R; w_ealphaj : list cplx }.
Definition waves_of (p : nat) (q : quad) : res wtab :=
  do xs <- generate_xys cos q; do ys <- generate_xys sin q; do zs <- generate_zs q;
  do knm <- generate_lambdaknm p q; do ea <- generate_ealphaj q;
  Ok (mkWtab q xs ys zs knm ea).
Definition wave_table (n_digits : nat) : res wtab :=
  do p <- nth_res expan_length n_digits;
  do q <- members n_digits;
  waves_of p q.

(** [for (i = a; i <= b; i += 2)] *)
Definition by2 (a b : nat) : list nat := map (fun i => (a + 2 * i)%nat) (seq 0 ((b + 2 - a) / 2)).

(** laplace.cc:330-361: [z1] and [z2], the sums over even and over odd n *)
Definition row_sum (p : nat) (wt : wtab) (SH : list cplx) (k a m : nat) : res cplx :=
  let nsh := ((p + 1) * (p + 2) / 2)%nat in
  foldM (fun z n => do c <- nth_res SH (midx n m); do l <- nth_res (w_knm wt) (k * nsh + midx n m); Ok (cadd z (cscale c l)))
    (by2 a p) (0, 0).
Definition row_sums (p : nat) (wt : wtab) (SH : list cplx) (k fk : nat) : res (list cplx * list cplx) :=
  let z := repeat (0, 0) (fk + 1) in
  do a <- row_sum p wt SH k 0 0; do z1 <- set_res z 0 a;
  do b <- row_sum p wt SH k 1 0; do z2 <- set_res z 0 b;
  do st <- foldM (fun '(z1, z2) m =>
    do b <- row_sum p wt SH k m m; do z2 <- set_res z2 m b;
    do a <- row_sum p wt SH k (m + 1) m; do z1 <- set_res z1 m a; Ok (z1, z2)) (by2 1 fk) (z1, z2);
  foldM (fun '(z1, z2) m =>
    do a <- row_sum p wt SH k m m; do z1 <- set_res z1 m a;
    do b <- row_sum p wt SH k (m + 1) m; do z2 <- set_res z2 m b; Ok (z1, z2)) (by2 2 fk) st.
(** laplace.cc:367-376: [up] and [dn], which differ in [op] *)
Definition one_wave (op : cplx -> cplx -> cplx) (wt : wtab) (z1 z2 : list cplx) (smfk fk j : nat) : res cplx :=
  do a <- nth_res z1 0; do b <- nth_res z2 0;
  do r <- foldM (fun '(v, pI) m =>
    do e <- nth_res (w_ealphaj wt) (smfk + (j - 1) * fk + (m - 1));
    do a <- nth_res z1 m; do b <- nth_res z2 m;
    Ok (cadd v (cscale pI (2 * creal (cmul e (op a b)))), cmul pI (0, 1))) (seq 1 fk) (op a b, (0, 1));
  Ok (fst r).
(** laplace.cc:324-382: both exponential expansions along one axis *)
Definition axis_waves (p : nat) (wt : wtab) (SH : list cplx) : res (list cplx * list cplx) :=
  let q := w_q wt in
  let z := repeat (0, 0) (q_nexp q) in
  do r <- foldM (fun st k =>
    do wk <- nth_res (q_weight q) k; do mk <- nth_res (q_m q) k; do fk <- nth_res (q_f q) k; do smfk <- nth_res (q_smf q) k;
    do weight <- rdiv wk (INR mk);
    do (z1, z2) <- row_sums p wt SH k fk;
    foldM (fun '(EP, EM) j =>
      do up <- one_wave cadd wt z1 z2 smfk fk j;
      do dn <- one_wave csub wt z1 z2 smfk fk j;
      do EP <- put EP (cscale up weight);
      do EM <- put EM (cscale dn weight);
      Ok (EP, EM)) (seq 1 (mk / 2)) st) (seq 0 (q_s q)) ((z, 0%nat), (z, 0%nat));
  Ok (fst (fst r), fst (snd r)).
(** laplace.cc:277-383 lap_m_to_i, laplace.h:299-304 M_to_I; the views in the order px, mx,
    py, my, pz, mz *)
Definition M_to_I (tb : table) (wt : wtab) (M : list cplx) : res (list (list cplx)) :=
  let p := tb_p tb in
  do d1 <- dmat_plus tb 0;
  do d2 <- dmat_minus tb 0;
  let W1 := repeat (0, 0) ((p + 1) * (p + 2) / 2) in
  let W2 := repeat (0, 0) ((p + 1) * (p + 2) / 2) in
  do W1 <- rotate_z tb M (- PI / 2) W1;
  do W2 <- rotate_y tb W1 d2 W2;
  do W1 <- rotate_y tb M d1 W1;
  do (px, mx) <- axis_waves p wt W1;
  do (py, my) <- axis_waves p wt W2;
  do (pz, mz) <- axis_waves p wt M;
  Ok [px; mx; py; my; pz; mz].

(** laplace.cc:639-661 lap_e_to_e *)
Definition lap_e_to_e (wt : wtab) (M W : list cplx) (x y z : Z) : res (list cplx) :=
  let q := w_q wt in
  do r <- foldM (fun st k =>
    do factor_z <- nth_resZ (w_zs wt) (4 * Z.of_nat k + z);
    do mk <- nth_res (q_m q) k; do smk <- nth_res (q_sm q) k;
    foldM (fun '(M, offset) j =>
      let sidx := Z.of_nat ((smk + j) * 7 + 3) in
      do factor_x <- nth_resZ (w_xs wt) (sidx + x);
      do factor_y <- nth_resZ (w_ys wt) (sidx + y);
      do m <- nth_res M offset; do w <- nth_res W offset;
      do M <- set_res M offset (cadd m (cmul (cmul (cscale w factor_z) factor_y) factor_x));
      Ok (M, S offset)) (seq 0 (mk / 2)) st) (seq 0 (q_s q)) (M, 0%nat);
  Ok (fst r).

(** laplace.cc:385-447 lap_i_to_i, laplace.h:306-311 I_to_I: the views made, with their tags.
    Which source view goes where is MergeShiftModel.i_to_i. *)
Definition I_to_I (wt : wtab) (s_index t_index : index) (views : list (list cplx)) : res (list (Z * list cplx)) :=
  do ps <- i_to_i Lap s_index t_index;
  mapM (fun p => do W <- nth_resZ views (p_view p);
                 do T <- lap_e_to_e wt (repeat (0, 0) (q_nexp (w_q wt))) W (p_x p) (p_y p) (p_z p);
                 Ok (p_tag p, T)) ps.

(** laplace.h:323-340 add_expansion, for the views of an intermediate expansion *)
Definition add_views (vs : list (list cplx)) (l : list (Z * list cplx)) : res (list (list cplx)) :=
  foldM (fun vs x => do lhs <- nth_resZ vs (fst x); do lhs <- add_expansion lhs (snd x); set_resZ vs (fst x) lhs) l vs.

(** laplace.cc:681-714: [z], the sums over the angles *)
Definition angle_sum (op : cplx -> cplx -> cplx) (wt : wtab) (E : list cplx) (mk2 smk smfk fk m : nat) : res cplx :=
  foldM (fun z j => do e <- nth_res E (smk + j - 1); do a <- nth_res (w_ealphaj wt) (smfk + (j - 1) * fk + m - 1);
                    Ok (cadd z (cmul (op e (conj e)) (conj a)))) (seq 1 mk2) (0, 0).
Definition angle_sums (wt : wtab) (E : list cplx) (mk2 smk smfk fk : nat) : res (list cplx) :=
  do z0 <- foldM (fun z j => do e <- nth_res E (smk + j - 1); Ok (cadd z (cadd e (conj e)))) (seq 1 mk2) (0, 0);
  do z <- set_res (repeat (0, 0) (fk + 1)) 0 z0;
  do z <- foldM (fun z m => do v <- angle_sum csub wt E mk2 smk smfk fk m; set_res z m v) (by2 1 fk) z;
  foldM (fun z m => do v <- angle_sum cadd wt E mk2 smk smfk fk m; set_res z m v) (by2 2 fk) z.
(** laplace.cc:678-725 the loop over k; [power_lambdak] is (-lambda_k)^n *)
Definition collect (p : nat) (wt : wtab) (E W1 : list cplx) : res (list cplx) :=
  let q := w_q wt in
  foldM (fun W1 k =>
    do mk <- nth_res (q_m q) k; do smk <- nth_res (q_sm q) k; do fk <- nth_res (q_f q) k; do smfk <- nth_res (q_smf q) k;
    do z <- angle_sums wt E (mk / 2) smk smfk fk;
    do lam <- nth_res (q_lambda q) k;
    foldM (fun W1 n => foldM (fun W1 m =>
      do v <- nth_res W1 (midx n m); do zm <- nth_res z m;
      set_res W1 (midx n m) (cadd v (cscale zm ((- lam) ^ n)))) (seq 0 (S (Nat.min n fk))) W1) (seq 0 (S p)) W1) (seq 0 (q_s q)) W1.
(** laplace.cc:727-738 *)
Definition flip_odd (p : nat) (W1 : list cplx) : res (list cplx) :=
  do r <- foldM (fun '(W, off) n =>
    do (W, off) <- foldM (fun '(W, off) m => do v <- nth_res W off; do W <- set_res W off (cscale v (-1)); Ok (W, S off)) (seq 0 (S n)) (W, off);
    Ok (W, (off + (n + 2))%nat)) (by2 1 p) (W1, 1%nat);
  Ok (fst r).
(** laplace.cc:740-748; [power_I] is i^m *)
Fixpoint ipow (m : nat) : cplx := match m with O => (1, 0) | S m => cmul (ipow m) (0, 1) end.
Definition divide_out (p : nat) (sqf : list R) (W1 : list cplx) : res (list cplx) :=
  each_term p (fun n m off W => do v <- nth_res W off; do a <- nth_res sqf (n - m); do b <- nth_res sqf (n + m);
                                do u <- cdivr (ipow m) a; do u <- cdivr u b; Ok (cmul v u)) W1.
(** laplace.cc:663-772 lap_e_to_l *)
Inductive axis := AX | AY | AZ.
Definition lap_e_to_l (tb : table) (wt : wtab) (E : list cplx) (dir : axis) (sgn : bool) (L : list cplx) : res (list cplx) :=
  let p := tb_p tb in
  let W2 := repeat (0, 0) ((p + 1) * (p + 2) / 2) in
  do W1 <- collect p wt E (repeat (0, 0) ((p + 1) * (p + 2) / 2));
  do W1 <- (if sgn then Ok W1 else flip_odd p W1);
  do W1 <- divide_out p (tb_sqf tb) W1;
  do contrib <-
    match dir with
    | AZ => Ok W1
    | AY => do d <- dmat_plus tb 0; do W2 <- rotate_y tb W1 d W2; rotate_z tb W2 (PI / 2) W1
    | AX => do d <- dmat_minus tb 0; rotate_y tb W1 d W2
    end;
  each_term p (fun _ _ off L => do v <- nth_res L off; do c <- nth_res contrib off; Ok (cadd v c)) L.

(** laplace.cc:487-492: where the accumulators lie in S *)
Definition slot (d : dir) : nat := match d with MZ => 0 | PZ => 1 | MY => 2 | PY => 3 | MX => 4 | PX => 5 end.
(** laplace.cc:449-637 lap_i_to_l, laplace.h:313-321 I_to_L; [node_scale] is views_.scale(),
    and the shifts of the switch are MergeShiftModel.i_to_l.  S is taken for six arrays. *)
Definition I_to_L (tb : table) (wt : wtab) (node_scale : R) (t_index : index) (views : list (list cplx)) : res (list cplx) :=
  let scale := node_scale * 2 in
  do ms <- i_to_l Lap t_index;
  do acc <- foldM (fun acc m => do W <- nth_resZ views (m_tag m); do a <- nth_res acc (slot (m_acc m));
                            do a <- lap_e_to_e wt a W (m_x m) (m_y m) (m_z m); set_res acc (slot (m_acc m)) a)
            ms (repeat (repeat (0, 0) (q_nexp (w_q wt))) 6);
  let acc := map (map (fun v => cscale v scale)) acc in
  foldM (fun L x => do E <- nth_res acc (slot (fst (fst x))); lap_e_to_l tb wt E (snd (fst x)) (snd x) L)
    [(MZ, AZ, false); (PZ, AZ, true); (MY, AY, false); (PY, AY, true); (MX, AX, false); (PX, AX, true)] (new_expansion (tb_p tb)).
