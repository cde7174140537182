(** The bars of the workers and the whole picture. *)
From Coq Require Import ZArith Reals List Bool Lia Lra Psatz Sorting.Sorted.
From Flocq Require Import Core BinarySingleNaN.
From Verif Require Import Base ListFacts TraceModel TraceSpec ReadModel ReadSpec DbModel DbSpec DoubleModel DoubleSpec DoubleProofs PlotModel PlotSpec PlotTimes PlotProofs.
Import ListNotations.
Open Scope Z_scope.

(** ** Heights *)
Lemma int_ok z : - 2 ^ 31 <= z < 2 ^ 31 -> int_ z = Ok z.
Proof. intros H. unfold int_. destruct (Z.leb_spec (- 2 ^ 31) z), (Z.ltb_spec z (2 ^ 31)); cbn; try lia. reflexivity. Qed.
Lemma height_ok y p n : 1 <= n -> 0 <= p -> p * (n - 1) <= y -> p + y + n < 2 ^ 31 ->
  exists h, set_bar_height y p n = Ok (h, h * n + p * (n - 1)) /\ 0 <= h /\ 2 * Z.abs (h * n - (y - p * (n - 1))) <= n.
Proof.
  intros Hn Hp Hy Hb. assert (Hg : 0 <= p * (n - 1)) by nia. set (gaps := p * (n - 1)) in *. set (top := y - gaps). assert (Ht : 0 <= top < 2 ^ 31 - n) by (unfold top; lia).
  unfold set_bar_height. fold gaps. rewrite (int_ok gaps) by lia. cbn [bind]. fold top. rewrite (int_ok top) by lia. cbn [bind].
  destruct (of_int_ok top) as [F1 E1]; [lia|]. destruct (of_int_ok n) as [F2 E2]; [lia|]. assert (N : (1 <= IZR n <= 2147483648)%R) by (split; [apply (IZR_le 1)|apply (IZR_le _ (2 ^ 31))]; lia). assert (Tr : (0 <= IZR top <= 2147483648)%R) by (split; [apply (IZR_le 0)|apply (IZR_le _ (2 ^ 31))]; lia).
  set (q := (IZR top / IZR n)%R). assert (Eq : (q * IZR n = IZR top)%R) by (unfold q; field; lra). assert (Q : (0 <= q <= IZR top)%R) by (split; nra).
  destruct (ddiv_ok (of_int top) (of_int n)) as [F3 E3]; [exact F1|rewrite E2; lra|rewrite E1, E2; fold q; apply big_1000; rewrite Rabs_pos_eq by lra; apply Rle_trans with 2147483648%R; [lra|apply (IZR_le (2 ^ 31)); lia]|]. rewrite E1, E2 in E3. fold q in E3.
  pose proof (rnd_err q) as A1. rewrite (Rabs_pos_eq q) in A1 by lra. pose proof eta_small as Et. assert (A0 : (0 <= rnd q)%R) by (rewrite <- rnd_0 at 1; apply rnd_mono; lra). apply Rabs_le_inv in A1.
  destruct dhalf_ok as [Fh Eh]. destruct (dadd_ok (ddiv (of_int top) (of_int n)) dhalf F3 Fh) as [F4 E4]; [rewrite E3, Eh; apply big_1000; rewrite Rabs_pos_eq by lra; apply Rle_trans with 4294967296%R; [lra|apply (IZR_le (2 ^ 32)); lia]|]. rewrite E3, Eh in E4.
  pose proof (rnd_err (rnd q + 1 / 2)) as A2. rewrite (Rabs_pos_eq (rnd q + 1 / 2)) in A2 by lra. apply Rabs_le_inv in A2. rewrite <- E4 in A2. set (x := dadd (ddiv (of_int top) (of_int n)) dhalf) in *.
  assert (Qn : (q <= 2147483647 - IZR n + 1)%R). { assert (IZR top <= 2147483647 - IZR n)%R by (rewrite <- minus_IZR; apply IZR_le; lia). lra. }
  destruct (dint_ok x F4) as (h & Eh' & H0 & [[X0 X]|[X _]]); [lra| |exfalso; lra]. rewrite Eh'. cbn [bind].
  assert (Lh : (IZR h * IZR n <= IZR top + IZR n / 2 + 1 / 1000)%R /\ (IZR top - IZR n / 2 - 1 / 1000 <= IZR h * IZR n)%R).
  { assert (B1 : (IZR h <= q + 1 / 2 + (2 * (1 / 9007199254740992) * (q + 1)))%R) by lra. assert (B2 : (q - 1 / 2 - (2 * (1 / 9007199254740992) * (q + 1)) <= IZR h)%R) by lra.
    assert (M1 : (IZR h * IZR n <= (q + 1 / 2 + (2 * (1 / 9007199254740992) * (q + 1))) * IZR n)%R) by (apply Rmult_le_compat_r; lra). assert (M2 : ((q - 1 / 2 - (2 * (1 / 9007199254740992) * (q + 1))) * IZR n <= IZR h * IZR n)%R) by (apply Rmult_le_compat_r; lra).
    replace ((q + 1 / 2 + (2 * (1 / 9007199254740992) * (q + 1))) * IZR n)%R with (q * IZR n + IZR n / 2 + 2 * (1 / 9007199254740992) * (q * IZR n + IZR n))%R in M1 by field. replace ((q - 1 / 2 - (2 * (1 / 9007199254740992) * (q + 1))) * IZR n)%R with (q * IZR n - IZR n / 2 - 2 * (1 / 9007199254740992) * (q * IZR n + IZR n))%R in M2 by field. rewrite Eq in M1, M2. lra. }
  rewrite <- mult_IZR in Lh. destruct Lh as [L1 L2].
  assert (Z1 : 2 * (h * n) - 2 * top - n <= 0). { apply Zlt_succ_le. apply lt_IZR. unfold Z.succ. rewrite plus_IZR, !minus_IZR, !(mult_IZR 2). lra. }
  assert (Z2 : 2 * top - n - 2 * (h * n) <= 0). { apply Zlt_succ_le. apply lt_IZR. unfold Z.succ. rewrite plus_IZR, !minus_IZR, !(mult_IZR 2). lra. }
  clear - Z1 Z2 H0 Ht Hg Hb Hn Hp. assert (0 <= h * n) by nia. rewrite (int_ok (h * n)) by lia. cbn [bind]. rewrite (int_ok (h * n + gaps)) by (unfold top in *; lia). cbn [bind]. exists h. split; [reflexivity|]. split; [exact H0|]. lia.
Qed.

(** ** Bars *)
Definition keys_in (l : list (Z * locality)) : list (Z * Z * worker) := flat_map (fun '(i, x) => map (fun '(j, w) => (i, j, w)) (l_workers x)) l.
Lemma keys_workers l : map snd (keys_in l) = flat_map (fun '(_, x) => map snd (l_workers x)) l.
Proof. induction l as [|[i x] l IH]; [reflexivity|]. cbn [keys_in flat_map]. rewrite map_app. f_equal; [|exact IH]. rewrite map_map. apply map_ext. intros [j w]. reflexivity. Qed.
Lemma total_keys t : total_workers t = Z.of_nat (length (workers_of t)).
Proof.
  unfold total_workers, workers_of. assert (H : forall (l : list (Z * locality)) n, fold_left (fun n '(_, x) => n + Z.of_nat (length (l_workers x))) l n = n + Z.of_nat (length (flat_map (fun '(_, x) => map (@snd Z worker) (l_workers x)) l))); [|rewrite H; lia].
  induction l as [|[i x] l IH]; intros n; [cbn; lia|]. cbn [fold_left flat_map]. rewrite IH, app_length, map_length. lia.
Qed.
Lemma row_ok (ws : list (Z * worker)) : forall index, NoDup (map fst ws) -> let '(i, r) := number_row index (map (fun '(j, _) => (j, 0)) ws) in
  i = index - Z.of_nat (length ws) /\ forall k j w, nth_error ws k = Some (j, w) -> lookup j r = Some (index - 1 - Z.of_nat k).
Proof.
  induction ws as [|[j0 w0] ws IH]; intros index D; [cbn; split; [lia|intros [|k] j w E; discriminate]|]. cbn [map fst] in *. apply NoDup_cons_iff in D. destruct D as [D1 D2]. cbn [number_row]. specialize (IH (index - 1) D2). destruct (number_row (index - 1) _) as [i r]. destruct IH as [A B]. cbn [length]. split; [lia|].
  intros [|k] j w E; cbn [nth_error] in E.
  - injection E as <- <-. cbn [lookup]. rewrite Z.eqb_refl. f_equal. lia.
  - cbn [lookup]. destruct (Z.eqb_spec j0 j) as [->|_]; [exfalso; apply D1; apply nth_error_In in E; apply (in_map fst) in E; exact E|]. rewrite (B k j w E). f_equal. lia.
Qed.
Lemma bars_ok (l : list (Z * locality)) : forall index, NoDup (map fst l) -> (forall i x, In (i, x) l -> NoDup (map fst (l_workers x))) ->
  forall k i j w, nth_error (keys_in l) k = Some (i, j, w) -> bar_of (number_bars index (map (fun '(i, x) => (i, map (fun '(j, _) => (j, 0)) (l_workers x))) l)) i j = index - 1 - Z.of_nat k.
Proof.
  induction l as [|[i0 x] l IH]; intros index D W k i j w E; [destruct k; discriminate|]. cbn [map fst] in D. apply NoDup_cons_iff in D. destruct D as [D1 D2]. cbn [map number_bars].
  pose proof (row_ok (l_workers x) index (W i0 x (or_introl eq_refl))) as R. destruct (number_row index _) as [ix r]. destruct R as [R1 R2]. cbn [keys_in flat_map] in E. set (row := map (fun '(j, w) => (i0, j, w)) (l_workers x)) in E.
  assert (Lr : length row = length (l_workers x)) by apply map_length. destruct (Nat.lt_ge_cases k (length row)) as [L|L].
  - rewrite nth_error_app1 in E by exact L. unfold row in E. rewrite nth_error_map in E. destruct (nth_error (l_workers x) k) as [[j1 w1]|] eqn:Ek; [|discriminate]. cbn in E. injection E as <- <- <-. unfold bar_of. cbn [lookup]. rewrite Z.eqb_refl. rewrite (R2 k j1 w1 Ek). reflexivity.
  - rewrite nth_error_app2 in E by exact L. assert (Ni : i0 <> i). { intros ->. apply D1. apply nth_error_In in E. apply in_flat_map in E. destruct E as ([i1 x1] & I1 & I2). apply in_map_iff in I2. destruct I2 as ([j2 w2] & E2 & _). injection E2 as -> _ _. apply (in_map fst) in I1. exact I1. }
    unfold bar_of. cbn [lookup]. destruct (Z.eqb_spec i0 i); [contradiction|]. change (bar_of (number_bars ix (map (fun '(i, x) => (i, map (fun '(j, _) => (j, 0)) (l_workers x))) l)) i j = index - 1 - Z.of_nat k). rewrite (IH ix D2 (fun i x H => W i x (or_intror H)) _ i j w E). lia.
Qed.

(** ** Lists of lists *)
Lemma nth_concat {A B} (f : A -> list B) n l : (forall a, In a l -> length (f a) = n) -> forall i k a, nth_error l i = Some a -> (k < n)%nat -> nth_error (concat (map f l)) (i * n + k) = nth_error (f a) k.
Proof.
  induction l as [|x l IH]; intros H i k a E K; [destruct i; discriminate|]. cbn [map concat]. destruct i as [|i]; cbn [nth_error] in E.
  - injection E as ->. apply nth_error_app1. rewrite (H a (or_introl eq_refl)). lia.
  - rewrite nth_error_app2 by (rewrite (H x (or_introl eq_refl)); lia). rewrite (H x (or_introl eq_refl)). replace (S i * n + k - n)%nat with (i * n + k)%nat by lia. apply IH; [intros b I; apply H; right; exact I|exact E|exact K].
Qed.
Lemma length_concat {A B} (f : A -> list B) n l : (forall a, In a l -> length (f a) = n) -> length (concat (map f l)) = (length l * n)%nat.
Proof. induction l as [|x l IH]; intros H; [reflexivity|]. cbn [map concat length]. rewrite app_length, (H x (or_introl eq_refl)), IH by (intros b I; apply H; right; exact I). reflexivity. Qed.

(** ** The picture *)
Section Picture.
Variable pp : (Z -> bool) -> list Z -> nat.
Hypothesis Hp : point_contract pp.
Variables (ty : Z) (t : trace).
Hypothesis Ht : in_order_trace ty t.
Variables x y p ti tf h : Z.
Let n := total_workers t.
Let gaps := p * (n - 1).
Hypothesis Hx : 1 <= x < 2 ^ 31.
Hypothesis Hn : 1 <= n.
Hypothesis Hpad : 0 <= p.
Hypothesis Hb : p + y + n < 2 ^ 31.
Hypothesis Hh : 0 <= h /\ 2 * Z.abs (h * n - (y - gaps)) <= n.
Hypothesis Htime : 0 <= ti /\ 0 <= tf - ti <= 2 ^ 49 /\ tf < 2 ^ 63.
Let im := mkIm x (h * n + gaps) p h n ti tf.
Let wmap := number_bars n (worker_map t).
Let E := at_ ti tf x.

Lemma n_len : n = Z.of_nat (length (keys_in (t_locs t))).
Proof. unfold n. rewrite total_keys. unfold workers_of. rewrite <- keys_workers, map_length. reflexivity. Qed.
Definition sq (ix : Z) (kw : Z * Z * worker) : square :=
  let '(i, j, w) := kw in let idx := bar_of wmap i j in let g := dsub (of_int 1) (shade ty w (E ix) (E (ix + 1))) in
  mkSq (ix + 1) (idx * (p + h) + 1) (ix + 1) (idx * (p + h) + h) (of_int 1) g g.
Lemma bar_at k i j w : nth_error (keys_in (t_locs t)) k = Some (i, j, w) -> bar_of wmap i j = n - 1 - Z.of_nat k.
Proof. intros En. destruct Ht as (_ & D & W). apply (bars_ok (t_locs t) n D (fun i x H => proj1 (proj2 (W i x H))) k i j w En). Qed.
Lemma edges ix : 0 <= ix < x -> ti <= E ix /\ E ix <= E (ix + 1) <= E ix + 2 ^ 49.
Proof.
  intros Hi. destruct (shared ti tf x Hx Htime) as (_ & _ & M & _). specialize (M ix Hi). fold E in M. unfold E, at_ in *. pose proof (floor_r ti tf x Hx Htime ix ltac:(lia)). pose proof (floor_r ti tf x Hx Htime (ix + 1) ltac:(lia)). lia.
Qed.
Lemma draw_ok ix i j w : In (i, j, w) (keys_in (t_locs t)) -> draw im wmap ix i (j, shade ty w (E ix) (E (ix + 1))) = Ok (sq ix (i, j, w)).
Proof.
  intros I. apply In_nth_error in I. destruct I as [k Ek]. pose proof (bar_at k i j w Ek) as B. assert (K : 0 <= Z.of_nat k < n) by (rewrite n_len; apply nth_error_bound in Ek; lia).
  unfold draw, sq, bar_top, bar_bottom. cbn [padding bar_height im]. rewrite B. set (idx := n - 1 - Z.of_nat k). assert (I : 0 <= idx <= n - 1) by (unfold idx; lia). clearbody idx.
  assert (G : 0 <= gaps) by (unfold gaps; nia). assert (Bd : h * n + gaps + 1 < 2 ^ 31 /\ p + h < 2 ^ 31). { split; [lia|]. assert (h <= h * n) by nia. destruct (Z.eq_dec n 1) as [->|]; [lia|]. assert (p <= gaps) by (unfold gaps; nia). lia. }
  assert (M : 0 <= idx * (p + h) /\ idx * (p + h) + h <= h * n + gaps). { split; [nia|]. unfold gaps. nia. }
  assert (h = 0 \/ 1 <= h) by lia.
  rewrite (int_ok (p + h)) by lia. cbn [bind]. rewrite (int_ok (idx * (p + h))) by lia. cbn [bind]. rewrite (int_ok (idx * (p + h) + 1)) by lia. cbn [bind]. rewrite (int_ok (idx * (p + h) + h)) by lia. reflexivity.
Qed.
Lemma window_ok ix : 0 <= ix < x -> window pp t (E ix) (E (ix + 1)) = Ok (map (fun '(i, l) => (i, map (fun '(j, w) => (j, seen w (E ix) (E (ix + 1)))) (l_workers l))) (t_locs t)).
Proof.
  intros Hi. pose proof (edges ix Hi). destruct Ht as (Lk & _ & W). unfold window. rewrite Lk. cbn [negb]. apply mapM_ok. intros [i l] I. destruct (W i l I) as (Ll & _ & Wl). unfold span. rewrite Ll. cbn [negb].
  rewrite (mapM_ok _ _ _ (fun '(j, w) => (j, seen w (E ix) (E (ix + 1))))); [reflexivity|]. intros [j w] J. rewrite (range_worker pp Hp ty w _ _ (Wl j w J)) by lia. reflexivity.
Qed.
Lemma cover_ok ix : 0 <= ix < x -> coverage_of_segment_type (map (fun '(i, l) => (i, map (fun '(j, w) => (j, seen w (E ix) (E (ix + 1)))) (l_workers l))) (t_locs t)) ty (E ix) (E (ix + 1)) =
  Ok (map (fun '(i, l) => (i, map (fun '(j, w) => (j, shade ty w (E ix) (E (ix + 1)))) (l_workers l))) (t_locs t)).
Proof.
  intros Hi. pose proof (edges ix Hi). destruct Ht as (_ & _ & W). unfold coverage_of_segment_type. induction (t_locs t) as [|[i l] ls IH]; [reflexivity|]. cbn [map mapM]. assert (S : span_coverage (map (fun '(j, w) => (j, seen w (E ix) (E (ix + 1)))) (l_workers l)) ty (E ix) (E (ix + 1)) = Ok (map (fun '(j, w) => (j, shade ty w (E ix) (E (ix + 1)))) (l_workers l))).
  { destruct (W i l (or_introl eq_refl)) as (_ & _ & Wl). clear - Wl H Hp. unfold span_coverage. induction (l_workers l) as [|[j w] ws IH]; [reflexivity|]. cbn [map mapM]. rewrite (shade_worker ty w _ _ (Wl j w (or_introl eq_refl))) by lia. cbn [bind]. rewrite IH by (intros j' w' I; apply (Wl j' w'); right; exact I). reflexivity. }
  rewrite S. cbn [bind]. rewrite IH by (intros i' l' I; exact (W i' l' (or_intror I))). reflexivity.
Qed.
Lemma rows_ok ix : 0 <= ix < x -> forall ls, incl (keys_in ls) (keys_in (t_locs t)) ->
  exists rows, mapM (fun '(i, cs) => mapM (draw im wmap ix i) cs) (map (fun '(i, l) => (i, map (fun '(j, w) => (j, shade ty w (E ix) (E (ix + 1)))) (l_workers l))) ls) = Ok rows /\ concat rows = map (sq ix) (keys_in ls).
Proof.
  intros Hi. induction ls as [|[i l] ls IH]; intros In_; [exists []; split; reflexivity|]. cbn [keys_in flat_map] in In_. destruct IH as (rows & Er & Ec); [intros a I; apply In_, in_or_app; right; exact I|]. cbn [map mapM].
  assert (D : mapM (draw im wmap ix i) (map (fun '(j, w) => (j, shade ty w (E ix) (E (ix + 1)))) (l_workers l)) = Ok (map (sq ix) (map (fun '(j, w) => (i, j, w)) (l_workers l)))).
  { assert (Il : forall j w, In (j, w) (l_workers l) -> In (i, j, w) (keys_in (t_locs t))) by (intros j w J; apply In_, in_or_app; left; apply (in_map (fun '(j, w) => (i, j, w)) _ (j, w)), J). clear - Il Hx Hn Hpad Hb Hh Ht. induction (l_workers l) as [|[j w] ws IH]; [reflexivity|]. cbn [map mapM]. rewrite (draw_ok ix i j w) by (apply Il; left; reflexivity). cbn [bind]. rewrite IH by (intros j' w' I; apply Il; right; exact I). reflexivity. }
  rewrite D. cbn [bind]. rewrite Er. cbn [bind]. eexists. split; [reflexivity|]. cbn [concat keys_in flat_map]. rewrite Ec, map_app. reflexivity.
Qed.
Lemma column_ok ix : 0 <= ix < x -> column pp im t wmap ty (step_of ti tf x) ix = Ok (map (sq ix) (keys_in (t_locs t))).
Proof.
  intros Hi. unfold column. cbn [t0 im]. rewrite (edge_at ti tf x Hx Htime ix) by lia. cbn [bind]. rewrite (edge_at ti tf x Hx Htime (ix + 1)) by lia. cbn [bind]. fold E. rewrite (window_ok ix Hi). cbn [bind]. rewrite (cover_ok ix Hi). cbn [bind]. destruct (rows_ok ix Hi (t_locs t) (incl_refl _)) as (rows & Er & Ec). rewrite Er. cbn [bind]. rewrite Ec. reflexivity.
Qed.
Lemma plot_ok : plot pp im t ty = Ok (concat (map (fun ix => map (sq ix) (keys_in (t_locs t))) (zseq 0 (Z.to_nat x)))).
Proof.
  unfold plot. cbn [t0 t1 px n_bars im]. fold wmap. rewrite (mapM_ok _ _ _ (fun ix => map (sq ix) (keys_in (t_locs t)))); [reflexivity|]. intros ix I. apply column_ok. apply zseq_range in I. lia.
Qed.
Lemma square_ok ix k w : 0 <= ix < x -> nth_error (workers_of t) k = Some w -> exists s,
  nth_error (concat (map (fun ix => map (sq ix) (keys_in (t_locs t))) (zseq 0 (Z.to_nat x)))) (Z.to_nat ix * length (workers_of t) + k) = Some s /\
  stands s (ix + 1) ((n - 1 - Z.of_nat k) * (p + h) + 1) ((n - 1 - Z.of_nat k) * (p + h) + h) /\
  (touched w ty (E ix) (E (ix + 1)) -> redness s (share (found w) ty (E ix) (E (ix + 1)))) /\ (~ touched w ty (E ix) (E (ix + 1)) -> redness s 0).
Proof.
  intros Hi Ek. assert (Lk : length (workers_of t) = length (keys_in (t_locs t))) by (unfold workers_of; rewrite <- keys_workers; apply map_length). unfold workers_of in Ek. rewrite <- keys_workers, nth_error_map in Ek. destruct (nth_error (keys_in (t_locs t)) k) as [[[i j] w']|] eqn:En; [|discriminate]. cbn in Ek. injection Ek as ->.
  rewrite (nth_concat (fun ix => map (sq ix) (keys_in (t_locs t))) (length (workers_of t)) _) with (a := ix); [| intros a _; rewrite map_length, Lk; reflexivity|rewrite zseq_nth_error by lia; f_equal; lia|rewrite Lk; apply nth_error_Some; congruence].
  rewrite nth_error_map, En. cbn [option_map]. eexists. split; [reflexivity|]. unfold sq. rewrite (bar_at k i j w En). cbn [sq_x1]. split; [repeat split; cbn; lia|].
  assert (Wo : worker_in_order ty w). { destruct Ht as (_ & _ & W). apply nth_error_In in En. apply in_flat_map in En. destruct En as ([i1 l1] & I1 & I2). apply in_map_iff in I2. destruct I2 as ([j2 w2] & E2 & I2). injection E2 as -> -> ->. exact (proj2 (proj2 (W i l1 I1)) j w I2). }
  destruct (shade_true ty w (E ix) (E (ix + 1)) Wo) as (F & A & B); [pose proof (edges ix Hi); lia|]. destruct (of_int_ok 1) as [F1 E1]; [lia|]. split; intros T; (split; [exact F1|]; split; [exact F|]; split; [exact F|]; split; [exact E1|]; split; [|reflexivity]); cbn [sq_green]; auto.
Qed.
End Picture.
