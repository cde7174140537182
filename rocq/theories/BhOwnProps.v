(** C79: what the Barnes-Hut method delivers with the acceptance test it has. *)
From Coq Require Import Reals Qreals ZArith QArith List Bool Arith Lia Lra Psatz Permutation.
From Verif Require Import Base ListFacts IndexModel TreeModel TreeFacts RefineModel RefineSpec LookupModel GeomModel GeomSpec DagModel DagSpec DagProofs MethodModel DirectBHProofs MethodProps MacModel MacSpec MacProps EdgeGroupSpec LinkSpec ListsSpec EvalModel EvalSpec EvalProps
  GroupModel ReduceModel ReduceSpec MessageModel MessageSpec ExchangeModel ExchangeSpec MergeModel BuildModel WholeModel WholeSpec
  LapModel LapSpec TranModel TranTable TranSpec TranProofs TranProps PotModel PotSpec PotFacts PotBoxes PotUp PotProofs PotOther PotProps RunModel RunSpec RunProofs RunTrees RunProps BhOwnProofs.
Import ListNotations.
Open Scope R_scope.

(** Every edge into a target box ends at one the method stops at. *)
Lemma edge_stops {A B} (m : method A B) unif same fuel S T ss tt e q : builtin fuel m -> usable unif fuel S T -> create_dag m unif same fuel S T = Ok (ss, tt) -> In e (all_edges (ss ++ tt)) -> eto e = (tgt q, Parts) -> stops (ss ++ tt) q.
Proof.
  intros Hb HU Hc Ie Ee. destruct (C30_methods _ _ m unif same fuel S T Hb HU) as (ss' & tt' & Hc' & Nc & D'). rewrite Hc in Hc'. injection Hc' as <- <-.
  assert (A1 : forall v, In v (all_adds (ss ++ tt)) -> (0 <= (fun _ => 0%Z) v < 1)%Z) by (intros; lia). assert (A2 : forall v, the_inc (all_edges (ss ++ tt)) v = length (LinkSpec.into v (all_edges (ss ++ tt)))) by reflexivity. assert (A3 : forall v, sort_outcome (fun e => (fun _ => 0%Z) (eto e)) (LinkSpec.out_of v (all_edges (ss ++ tt))) (the_outs (all_edges (ss ++ tt)) v)) by (intros v; apply one_loc).
  pose proof (D' (fun _ => 0%Z) 1%Z (the_inc (all_edges (ss ++ tt))) (the_outs (all_edges (ss ++ tt))) A1 A2 A3) as D. pose proof (d_to _ _ _ _ _ _ _ D e Ie) as K. rewrite Ee in K. apply filter_In in K. exact (proj1 K).
Qed.

(** If no target leaf is more than [2 ^ k] times as large as the smallest source box, accepted
    boxes are seen from the targets under an angle of at most [tau], and the error is that of
    truncating expansions at this angle. *)
Theorem C79_bound : forall p tb d S T theta tau k unif same fuel h, (1 <= p)%nat -> table_of_order p = Ok tb -> (0 < dsize d)%Q ->
  usable unif fuel S T -> scene (real (dlow d)) (Q2R (dsize d)) S T -> levels h S -> (forall q, leaf_at T q -> (h <= length q + k)%nat) ->
  (0 < theta)%Q -> 0 < tau < 2 / sqrt 3 -> 1 / tau = 1 / Q2R theta - sqrt 3 * 2 ^ k ->
  exists ss tt, create_dag (bh (bh_accept theta d) fuel) unif same fuel S T = Ok (ss, tt) /\
    (forall t, In t (info T) -> exists q, stops (ss ++ tt) q /\ In t (records T q)) /\
    delivers (edge_value tb (real (dlow d)) (Q2R (dsize d)) (records T)) (leaf_value S) (records T) (ss ++ tt) (info S)
      (total_charge (info S) / side (Q2R (dsize d)) (Z.of_nat h) * ((sqrt 3 / 2 * tau) ^ (p + 1) / (1 / tau - sqrt 3 / 2))).
Proof.
  intros p tb d S T theta tau k unif same fuel h Hp Et Hd HU (GS & GT & BS & BT & PS & PT) LS LT Ht Hta Ek. pose proof (Q2R_pos _ Hd) as Hs. destruct (table_good p tb Hp Et) as [Ep HS]. subst p. pose proof HU as (H1 & H2 & H3 & H4 & H5 & H6).
  destruct (bh_dag S T unif fuel same H1 H2 H3 H4 H5 H6 (bh_accept theta d)) as (ss & tt & Hc & G & _ & St & _ & Rt & _ & _ & _ & Up & To). exists ss, tt. split; [exact Hc|]. split; [exact (all_served S T _ G GT)|].
  eapply delivers_ok; [constructor|exact HU|exact Hc|]. intros val Sv Fd q Sq. destruct G as (ND & One & _).
  set (accept' := fun c q => bh_accept theta d c q && (length c <=? length q + k)%nat).
  destruct (bh_ok (real (dlow d)) (Q2R (dsize d)) Hs tb HS Et S T fuel h H1 H3 BS GS PS (target_plain _ _ S T GT PT) LS accept' tau Hta) with (E := all_edges (ss ++ tt)) (stop := stops (ss ++ tt)) (val := val) (q := q) as (phis & Ev & C); try assumption.
  - intros c q' t Ac It. apply andb_true_iff in Ac. destruct Ac as [Ac Lc]. apply Nat.leb_le in Lc. assert (In' : inside (real (dlow d)) (Q2R (dsize d)) (idx_of q') t) by (unfold records in It; destruct (sub T q') as [n|] eqn:Sn; [|destruct It]; eapply BT; eassumption).
    pose proof (accepted_far theta d c q' k t Hd Ht Ac Lc In') as F. rewrite <- Ek in F. apply (Rmult_le_compat_l tau) in F; [|lra]. replace (tau * (1 / tau * side (Q2R (dsize d)) (ilevel (idx_of c)))) with (side (Q2R (dsize d)) (ilevel (idx_of c))) in F by (field; lra). exact F.
  - intros q' e Ie Ee. destruct (To q' e Ie Ee) as (c & Sc & [[-> Ac]|[-> Lc]]); [|exists c; auto]. exists c. split; [exact Sc|]. left. split; [reflexivity|]. unfold accept'. rewrite Ac. cbn [andb]. apply Nat.leb_le.
    assert (Sq' : stops (ss ++ tt) q') by exact (edge_stops _ _ _ _ _ _ _ _ _ _ (B_bh _ _) HU Hc Ie eq_refl). apply St in Sq'. pose proof (LT q' Sq'). pose proof (LS c Sc). lia.
  - exists phis. split; [exact Ev|]. eapply close_weaken; [|exact C]. right. unfold Kb. rewrite Nat.add_1_r. unfold Rdiv. ring.
Qed.
Print Assumptions C79_bound.

(** The same from the users' records. *)
Theorem C79_records : forall A B (pos_s : A -> point) (pos_t : B -> point) q L same users zs zt order junk rw sm tm part_s part_t pp thr fuel rank_map S T p tb theta tau k h g,
  let d := domain_for pos_s pos_t same users order in let charges := map (charge_of pos_s q) (all_sources users) in
  (1 <= L <= 9)%Z -> well_posed pos_s pos_t zs zt same users -> ArraySpec.all_ranks (length users) order ->
  partition_contract part_s -> partition_contract part_t -> partition_point_contract pp -> (forall i, (i < Z.to_nat (8 ^ L))%nat -> (rank_map i < length users)%nat) ->
  trees_built pos_s pos_t q L same users zs zt junk rw sm tm d part_s part_t pp thr fuel rank_map S T ->
  levels h S -> levels h T -> clear_points d h (all_points pos_s pos_t users) -> (h < g)%nat -> (1 <= p)%nat -> table_of_order p = Ok tb ->
  (forall b, leaf_at T b -> (h <= length b + k)%nat) -> (0 < theta)%Q -> 0 < tau < 2 / sqrt 3 -> 1 / tau = 1 / Q2R theta - sqrt 3 * 2 ^ k ->
  exists ss tt, create_dag (bh (bh_accept theta d) g) (Z.to_nat L) same g S T = Ok (ss, tt) /\
    each_target T (ss ++ tt) (map (place_of pos_t) (all_targets users)) /\
    delivers (edge_value tb (real (dlow d)) (Q2R (dsize d)) (records T)) (leaf_value S) (records T) (ss ++ tt) charges
      (total_charge charges / side (Q2R (dsize d)) (Z.of_nat h) * ((sqrt 3 / 2 * tau) ^ (p + 1) / (1 / tau - sqrt 3 / 2))).
Proof.
  intros A B pos_s pos_t q L same users zs zt order junk rw sm tm part_s part_t pp thr fuel rank_map S T p tb theta tau k h g d charges HL Hw Ho Ps Pt Pp Hm Ht LS LT Cl Hg Hp Etb Lk Hth Hta Ek.
  destruct (info_ok pos_s pos_t q L HL same users zs zt Hw order Ho junk rw sm tm part_s part_t pp Ps Pt Pp thr fuel rank_map Hm S T Ht) as [I1 I2].
  destruct (RunTrees.usable_ok pos_s pos_t q L HL same users zs zt Hw order Ho junk rw sm tm part_s part_t pp Ps Pt Pp thr fuel rank_map Hm S T Ht g h LS LT Hg) as (U & _ & GT).
  destruct (scene_ok pos_s pos_t q L HL same users zs zt Hw order Ho junk rw sm tm part_s part_t pp Ps Pt Pp thr fuel rank_map Hm S T Ht h LS LT Cl) as (Hd & Sc).
  assert (Hd' : (0 < dsize d)%Q) by (apply Rlt_Qlt; replace (Q2R 0) with 0 by (unfold Q2R; cbn; lra); exact Hd).
  destruct (C79_bound p tb d S T theta tau k _ same g h Hp Etb Hd' U Sc LS Lk Hth Hta Ek) as (ss & tt & Hc & _ & D). exists ss, tt. split; [exact Hc|].
  pose proof U as (H1 & H2 & H3 & H4 & H5 & H6). destruct (bh_dag S T _ g same H1 H2 H3 H4 H5 H6 (bh_accept theta d)) as (ss' & tt' & Hc' & G & _). rewrite Hc in Hc'. injection Hc' as <- <-. split; [exact (every_target S T _ _ G GT I2)|].
  rewrite (total_perm _ _ I1) in D. exact (delivers_perm _ _ _ _ _ _ _ _ _ _ I1 D).
Qed.
Print Assumptions C79_records.

(** ** Target leaves that are larger *)
(** A charge in a small box, a target in a leaf of half the domain's side that touches it. *)
Definition near_D : domain := mkD (mkP 0 0 0) 8.
Definition near_S {X} (l : list X) : tree (list X) := put l [(0, put l [(1, put l [(7, leaf8 l)])])]%nat.
Definition near_T {X} (l : list X) : tree (list X) := put l [(1, leaf8 l)]%nat.
Definition near_s (e : R) : pt := mkPt (4 - e) (3 / 2) (3 / 2).
Definition near_t (e : R) : pt := mkPt (4 + e) (3 / 2) (3 / 2).
Definition near_dag (a : list charge) (b : list pt) := create_dag (bh (bh_accept (1 # 4) near_D) 5) 1 false 5 (near_S a) (near_T b).
Lemma near_usable (a : list charge) (b : list pt) : usable 1 5 (near_S a) (near_T b).
Proof. apply MethodProps.usable_ok. reflexivity. Qed.
Lemma near_leaf {X} (l : list X) p : sub (leaf8 l) p <> None -> p = [].
Proof. destruct p as [|w p]; [auto|]. intros H. exfalso. apply H. cbn. unfold kid. cbn. do 8 (destruct w as [|w]; [reflexivity|]). destruct w; reflexivity. Qed.
Ltac near_kid w H := do 8 (try (destruct w as [|w]; [try (exfalso; apply H; reflexivity)|])); try (exfalso; apply H; cbn; unfold kid; cbn; destruct w; reflexivity).
Lemma near_paths {X} (l : list X) p : (sub (near_S l) p <> None -> p = [] \/ p = [0] \/ p = [0; 1] \/ p = [0; 1; 7])%nat /\ (sub (near_T l) p <> None -> p = [] \/ p = [1])%nat.
Proof.
  split; intros H; (destruct p as [|w p]; [auto|]); near_kid w H; (destruct p as [|w p]; [auto|]).
  - near_kid w H. destruct p as [|w p]; [auto|]. near_kid w H. change (sub (leaf8 l) p <> None) in H. apply near_leaf in H. subst p. auto.
  - change (sub (leaf8 l) (w :: p) <> None) in H. apply near_leaf in H. discriminate.
Qed.
Lemma near_info {X} (l : list X) p n : sub (near_S l) p = Some n \/ sub (near_T l) p = Some n -> info n = l.
Proof.
  intros [H|H]; [assert (N : sub (near_S l) p <> None) by congruence|assert (N : sub (near_T l) p <> None) by congruence]; apply near_paths in N.
  - destruct N as [->|[->|[->| ->]]]; cbn in H; injection H as <-; reflexivity.
  - destruct N as [->| ->]; cbn in H; injection H as <-; reflexivity.
Qed.
Lemma near_nokid {X} (l : list X) w : kid (leaf8 l) w = None.
Proof. unfold kid. cbn. do 8 (destruct w as [|w]; [reflexivity|]). destruct w; reflexivity. Qed.
Lemma near_gathered {X} (l : list X) : gathered (near_S l) /\ gathered (near_T l).
Proof.
  split; intros p n H N; [assert (Q : sub (near_S l) p <> None) by congruence|assert (Q : sub (near_T l) p <> None) by congruence]; apply near_paths in Q.
  - destruct Q as [->|[->|[->| ->]]]; cbn in H; injection H as <-; cbn; try (rewrite app_nil_r; reflexivity). exfalso. apply N. exists (leaf8 l). split; [reflexivity|]. apply near_nokid.
  - destruct Q as [->| ->]; cbn in H; injection H as <-; cbn; try (rewrite app_nil_r; reflexivity). exfalso. apply N. exists (leaf8 l). split; [reflexivity|]. apply near_nokid.
Qed.
Lemma near_sides : side 8 0 = 8 /\ side 8 1 = 4 /\ side 8 2 = 2 /\ side 8 3 = 1.
Proof. unfold side. simpl powerRZ. repeat split; field. Qed.
Lemma near_mid p : (p = [] \/ p = [0] \/ p = [0; 1] \/ p = [0; 1; 7] \/ p = [1])%nat ->
  middle (mkPt 0 0 0) 8 (idx_of p) = match p with [] => mkPt 4 4 4 | [0%nat] => mkPt 2 2 2 | [_] => mkPt 6 2 2 | [_; _] => mkPt 3 1 1 | _ => mkPt (7 / 2) (3 / 2) (3 / 2) end.
Proof. destruct near_sides as (E0 & E1 & E2 & E3). intros [->|[->|[->|[->| ->]]]]; unfold middle, idx_of; cbn; rewrite ?E0, ?E1, ?E2, ?E3; f_equal; lra. Qed.
Lemma near_aside c x : 1 / 4 <= Rabs (px x - px c) \/ 1 / 4 <= Rabs (py x - py c) -> Rabs (px x - px c) <= 4 -> Rabs (py x - py c) <= 4 -> Rabs (pz x - pz c) <= 4 -> regular c x.
Proof.
  intros H A B D. set (a := Rabs (px x - px c)) in *. set (b := Rabs (py x - py c)) in *. set (d := Rabs (pz x - pz c)) in *. assert (0 <= a /\ 0 <= b /\ 0 <= d) as (Pa & Pb & Pd) by (repeat split; apply Rabs_pos).
  assert (Sq : forall u, u ^ 2 = Rabs u * Rabs u) by (intros u; rewrite <- Rabs_mult, Rabs_right by (apply Rle_ge, Rle_0_sqr); ring).
  assert (O : 1 / 4 <= off_axis c x) by (unfold off_axis; rewrite !Sq; fold a b; rewrite <- (sqrt_square (1 / 4)) by lra; apply sqrt_le_1_alt; destruct H; nra).
  assert (Dd : dist c x <= 12 /\ 1 / 4 <= dist c x).
  { rewrite dist_sym. unfold dist. rewrite !Sq. fold a b d. split; [rewrite <- (sqrt_square 12) by lra|rewrite <- (sqrt_square (1 / 4)) by lra]; apply sqrt_le_1_alt; [|destruct H]; nra. }
  assert (Ty : / 10 ^ 14 < 1 / 100) by (replace (1 / 100) with (/ 10 ^ 2) by lra; apply Rinv_lt_contravar; [apply Rmult_lt_0_compat; apply pow_lt; lra|apply Rlt_pow; [lra|lia]]).
  split; [lra|right; nra].
Qed.
Ltac near_abs := cbn [px py pz near_s near_t cpos]; repeat (match goal with |- context [Rabs ?a] => unfold Rabs at 1; destruct (Rcase_abs a); try lra end).
Lemma near_regular e p : 0 < e <= 1 / 4 -> (p = [] \/ p = [0] \/ p = [0; 1] \/ p = [0; 1; 7] \/ p = [1])%nat ->
  regular (middle (mkPt 0 0 0) 8 (idx_of p)) (near_s e) /\ regular (middle (mkPt 0 0 0) 8 (idx_of p)) (near_t e).
Proof.
  intros He Hp. rewrite near_mid by exact Hp. destruct Hp as [->|[->|[->|[->| ->]]]]; (split; (apply near_aside; [first [solve [left; near_abs]|right; near_abs]|near_abs|near_abs|near_abs])).
Qed.
Lemma near_scene e q : 0 < e <= 1 / 4 -> scene (mkPt 0 0 0) 8 (near_S [mkCharge q (near_s e)]) (near_T [near_t e]).
Proof.
  intros He. destruct near_sides as (E0 & E1 & E2 & E3). split; [apply near_gathered|]. split; [apply near_gathered|]. split; [|split; [|split]].
  - intros p n x H I. rewrite (near_info _ p n (or_introl H)) in I. destruct I as [<-|[]]. assert (Q : sub (near_S [mkCharge q (near_s e)]) p <> None) by congruence. apply near_paths in Q. unfold inside. rewrite near_mid by (intuition auto). destruct Q as [->|[->|[->| ->]]]; cbn [idx_of follow ilevel]; cbn -[side Rabs]; rewrite ?E0, ?E1, ?E2, ?E3; repeat split; near_abs.
  - intros p n x H I. rewrite (near_info _ p n (or_intror H)) in I. destruct I as [<-|[]]. assert (Q : sub (near_T [near_t e]) p <> None) by congruence. apply near_paths in Q. unfold inside. rewrite near_mid by (intuition auto). destruct Q as [->| ->]; cbn [idx_of follow ilevel]; cbn -[side Rabs]; rewrite ?E0, ?E1, ?E2, ?E3; repeat split; near_abs.
  - intros s I p Hp. assert (Es : s = mkCharge q (near_s e)) by (destruct I as [I|[]]; symmetry; exact I). subst s. apply (near_regular e p He). destruct Hp as [H|H]; apply near_paths in H; intuition auto.
  - intros s I p Hp. assert (Es : s = near_t e) by (destruct I as [I|[]]; symmetry; exact I). subst s. apply (near_regular e p He). destruct Hp as [H|H]; apply near_paths in H; intuition auto.
Qed.
Lemma near_edges (a : list charge) (b : list pt) : exists ss tl, near_dag a b = Ok (ss, tl) /\ fed_and_stops [1%nat] (near_dag a b) = true /\
  all_edges (ss ++ tl) = [mkEdge StoM (src [0; 1; 7], Parts) (src [0; 1; 7], Normal); mkEdge MtoM (src [0; 1; 7], Normal) (src [0; 1], Normal); mkEdge MtoM (src [0; 1], Normal) (src [0], Normal);
    mkEdge MtoM (src [0], Normal) (src [], Normal); mkEdge MtoT (src [0; 1; 7], Normal) (tgt [1], Parts)]%nat /\ forall q, stops (ss ++ tl) q <-> q = [1%nat].
Proof.
  assert (F : fed_and_stops [1%nat] (near_dag a b) = true) by (vm_compute; reflexivity). destruct (near_dag a b) as [[ss tl]|] eqn:E; [|discriminate]. exists ss, tl. split; [reflexivity|]. split; [exact F|]. vm_compute in E. injection E as <- <-. split; [reflexivity|].
  intros q. split; [|intros ->; vm_compute; tauto]. unfold stops. cbn. intuition congruence.
Qed.
Lemma near_potential e q : 0 < e -> potential [mkCharge q (near_s e)] (near_t e) = q / (2 * e).
Proof.
  intros He. unfold potential. cbn [filter cpos]. destruct (pt_dec _ _) as [E|_]; [unfold near_s, near_t in E; injection E; lra|]. unfold coulomb. cbn [fold_right cq cpos]. unfold dist, near_s, near_t. cbn [px py pz]. replace (_ + _ + _) with ((2 * e) * (2 * e)) by ring. rewrite sqrt_square by lra. lra.
Qed.
Lemma array_zero a : value_add (Array a) value_zero = Array a. Proof. destruct a; reflexivity. Qed.
(** What the expansion about the centre of the small box, whose ball holds the target, gives:
    the potential of a part of the charge. *)
Lemma near_value p tb e q : (1 <= p)%nat -> table_of_order p = Ok tb -> 0 < e <= 1 / 4 ->
  exists ss tl, near_dag [mkCharge q (near_s e)] [near_t e] = Ok (ss, tl) /\ (forall b, stops (ss ++ tl) b <-> b = [1%nat]) /\ fed_and_stops [1%nat] (near_dag [mkCharge q (near_s e)] [near_t e]) = true /\
    delivers (edge_value tb (mkPt 0 0 0) 8 (records (near_T [near_t e]))) (leaf_value (near_S [mkCharge q (near_s e)])) (records (near_T [near_t e])) (ss ++ tl) [mkCharge (q * (1 - ((1 / 2 - e) / (1 / 2 + e)) ^ (p + 1))) (near_s e)] 0.
Proof.
  intros Hp Et He. destruct (table_good p tb Hp Et) as [Ep HS]. subst p. destruct (near_edges [mkCharge q (near_s e)] [near_t e]) as (ss & tl & Ed & Fs & Ee & St). exists ss, tl. split; [exact Ed|]. split; [exact St|]. split; [exact Fs|].
  eapply delivers_ok; [constructor|apply near_usable|exact Ed|]. intros val Sv _ b Sb. apply St in Sb. subst b. rewrite Ee in Sv.
  destruct (near_regular e [0; 1; 7]%nat He ltac:(auto)) as [R1 R2]. rewrite near_mid in R1, R2 by auto.
  assert (Sc : level_scale 8 3 <> 0) by (rewrite level_scale_side by lra; apply Rinv_neq_0_compat; destruct near_sides as (_ & _ & _ & ->); lra).
  destruct (on_line (tb_p tb) (tb_sqf tb) (level_scale 8 3) (mkPt (7 / 2) (3 / 2) (3 / 2)) (mkCharge q (near_s e)) (near_t e) (1 / 2 - e) (1 / 2 + e)) as (M & EM & ET); try assumption.
  - apply (g_sqf _ HS).
  - apply LapProofs.norm3_unique; [lra|]. unfold point_sub, near_s. cbn. ring_simplify. lra.
  - apply LapProofs.norm3_unique; [lra|]. unfold point_sub, near_t. cbn. lra.
  - lra.
  - unfold LapProofs.dot, point_sub, near_s, near_t. cbn. lra.
  - pose proof (Sv (src [0; 1; 7]%nat, Parts)) as V1. pose proof (Sv (src [0; 1; 7]%nat, Normal)) as V2. pose proof (Sv (tgt [1]%nat, Parts)) as V3. cbn [is_source src tgt] in V1, V2, V3. unfold into in V2, V3. cbn -[edge_value] in V2, V3. fold (src [0; 1; 7]%nat) in V1, V2, V3.
    unfold edge_value in V2, V3. cbn [eop efrom eto fst snd src tgt] in V2, V3. change (ilevel (idx_of [0; 1; 7]%nat)) with 3%Z in V2, V3. fold (src [0; 1; 7]%nat) in V1, V2, V3. rewrite V1 in V2. change (leaf_value (near_S [mkCharge q (near_s e)]) (src [0; 1; 7]%nat, Parts)) with (Sources [mkCharge q (near_s e)]) in V2. cbn iota beta zeta in V2. rewrite box_center_middle, near_mid in V2 by auto. rewrite EM in V2. cbn [of_res] in V2. rewrite array_zero in V2. rewrite V2 in V3. cbn iota beta zeta in V3. rewrite box_center_middle, near_mid in V3 by auto. unfold at_targets in V3. change (records (near_T [near_t e]) [1%nat]) with [near_t e] in V3 |- *. cbn -[M_to_T level_scale value_add] in V3. rewrite ET in V3. cbn [bind of_res] in V3. rewrite array_zero in V3.
    eexists. split; [exact V3|]. constructor; [|constructor]. cbn [fst snd cq]. split; [reflexivity|]. rewrite near_potential by lra. rewrite Nat.add_1_r. replace (_ - _) with 0 by (field; lra). rewrite Rabs_R0. lra.
Qed.

Lemma bernoulli y n : 0 <= y <= 1 -> 1 - INR n * y <= (1 - y) ^ n.
Proof.
  intros H. induction n as [|n IH]; [simpl; lra|]. rewrite S_INR. change ((1 - y) ^ S n) with ((1 - y) * (1 - y) ^ n). pose proof (pos_INR n) as P. apply Rle_trans with ((1 - y) * (1 - INR n * y)); [nra|]. apply Rmult_le_compat_l; lra.
Qed.
(** Whatever the order of the expansions: at theta = 1/4 the method accepts the box of a charge
    next to the target, and all but an arbitrarily small part of the charge is lost; the
    error has no bound.  Such an evaluation exists. *)
Theorem C79_larger_leaves_refuted : forall p tb delta bound, (1 <= p)%nat -> table_of_order p = Ok tb -> 0 < delta ->
  exists s t part ss tt, usable 1 5 (near_S [mkCharge 1 s]) (near_T [t]) /\ scene (real (dlow near_D)) (Q2R (dsize near_D)) (near_S [mkCharge 1 s]) (near_T [t]) /\
    create_dag (bh (bh_accept (1 # 4) near_D) 5) 1 false 5 (near_S [mkCharge 1 s]) (near_T [t]) = Ok (ss, tt) /\ stops (ss ++ tt) [1%nat] /\ records (near_T [t]) [1%nat] = [t] /\
    delivers (edge_value tb (real (dlow near_D)) (Q2R (dsize near_D)) (records (near_T [t]))) (leaf_value (near_S [mkCharge 1 s])) (records (near_T [t])) (ss ++ tt) [mkCharge part s] 0 /\
    0 < part < delta /\ bound < potential [mkCharge 1 s] t - potential [mkCharge part s] t /\
    exists st, run_on_one (edge_value tb (real (dlow near_D)) (Q2R (dsize near_D)) (records (near_T [t]))) (leaf_value (near_S [mkCharge 1 s])) (ss ++ tt) (Array [(0, 0)]) st /\
      tval st ((TgtTree, [1%nat]), Parts) = Array [(potential [mkCharge part s] t, 0)].
Proof.
  intros p tb delta bound Hp Et Hd. assert (Ec : real (dlow near_D) = mkPt 0 0 0) by (unfold real, near_D; cbn [dlow coord GeomModel.px GeomModel.py GeomModel.pz]; f_equal; unfold Q2R; cbn; lra). assert (E8 : Q2R (dsize near_D) = 8) by (unfold Q2R; cbn; lra). rewrite Ec, E8.
  set (N := 1 + / delta + Rabs bound). pose proof (Rinv_0_lt_compat _ Hd) as Pd. pose proof (Rabs_pos bound) as Pb. assert (N1 : 1 < N) by (unfold N; lra). set (k := INR (p + 1)). assert (K1 : 1 <= k) by (unfold k; change 1 with (INR 1); apply le_INR; lia).
  set (e := / (8 * k * N)). assert (Pe : 0 < 8 * k * N) by nra. assert (He : 0 < e <= 1 / 8) by (split; [apply Rinv_0_lt_compat, Pe|]; unfold e; replace (1 / 8) with (/ 8) by lra; apply Rinv_le_contravar; nra).
  assert (Ek : 4 * e * k = / (2 * N)) by (unfold e; field; lra). assert (He' : 0 < e <= 1 / 4) by lra.
  set (w := ((1 / 2 - e) / (1 / 2 + e)) ^ (p + 1)). assert (Rt : 1 - 4 * e <= (1 / 2 - e) / (1 / 2 + e) <= 1 - e) by (assert (Er : (1 / 2 - e) / (1 / 2 + e) * (1 / 2 + e) = 1 / 2 - e) by (field; lra); split; (apply Rmult_le_reg_r with (1 / 2 + e); [lra|]; rewrite Er; nra)).
  assert (Wl : 1 - / (2 * N) <= w). { apply Rle_trans with ((1 - 4 * e) ^ (p + 1)); [rewrite <- Ek; replace (1 - 4 * e * k) with (1 - k * (4 * e)) by ring; apply bernoulli; lra|]. apply pow_incr. lra. }
  assert (Wu : w < 1) by (unfold w; apply Rle_lt_trans with ((1 - e) ^ (p + 1)); [apply pow_incr; lra|]; rewrite Nat.add_1_r; apply pow_lt_1_compat; [lra|lia]).
  assert (I2 : / (2 * N) < delta /\ / (2 * N) <= 1 / 2).
  { split; [|replace (1 / 2) with (/ 2) by lra; apply Rinv_le_contravar; lra]. rewrite <- (Rinv_inv delta). apply Rinv_lt_contravar; unfold N in *; nra. }
  destruct (near_value p tb e 1 Hp Et He') as (ss & tl & Ed & St & Fs & Dv). rewrite Rmult_1_l in Dv. fold w in Dv. exists (near_s e), (near_t e), (1 - w), ss, tl.
  split; [apply near_usable|]. split; [apply near_scene, He'|]. split; [exact Ed|]. split; [apply St; reflexivity|]. split; [reflexivity|]. split; [exact Dv|]. split; [lra|]. split.
  - rewrite !near_potential by lra. replace (1 / (2 * e) - (1 - w) / (2 * e)) with (w / (2 * e)) by (field; lra). apply Rle_lt_trans with (Rabs bound); [apply Rle_abs|]. apply Rlt_le_trans with N; [unfold N; lra|].
    apply Rle_trans with ((1 / 2) / (2 * e)); [|apply Rmult_le_compat_r; [left; apply Rinv_0_lt_compat; lra|lra]]. unfold e. replace (1 / 2 / (2 * / (8 * k * N))) with (2 * k * N) by (field; lra). nra.
  - destruct (fed_and_stops_ok _ _ Fs) as (ss' & tl' & Hc' & Fd & Sq). rewrite Ed in Hc'. injection Hc' as <- <-.
    destruct (one_run _ 1 false 5 _ _ ss tl _ _ (Array [(0, 0)]) _ _ [1%nat] (B_bh _ _) (near_usable _ _) Ed Fd Sq Dv) as (st & phis & Rs & Ts & Cl). exists st. split; [exact Rs|]. rewrite Ts.
    change (records (near_T [near_t e]) [1%nat]) with [near_t e] in Cl. inversion Cl as [|t v ts vs [Z B] Cl' X Y]; subst. inversion Cl'; subst. destruct v as [phi z]. cbn [snd fst] in Z, B. subst z. cbn [value_add padd]. unfold cadd. cbn [fst snd].
    assert (phi = potential [mkCharge (1 - w) (near_s e)] (near_t e)) by (pose proof (Rabs_pos (phi - potential [mkCharge (1 - w) (near_s e)] (near_t e))); destruct (Req_dec (phi - potential [mkCharge (1 - w) (near_s e)] (near_t e)) 0) as [|Ne]; [lra|]; apply Rabs_pos_lt in Ne; lra). subst phi. do 3 f_equal; ring.
Qed.
Print Assumptions C79_larger_leaves_refuted.

(** ** Instances *)
(** Theta = 1/3, source and target boxes of the same size, three boxes apart: accepted, and
    within the bound with tau = 1 / (3 - sqrt 3). *)
Definition far_T {X} (l : list X) : tree (list X) := put l [(1, put l [(1, leaf8 l)])]%nat.
Definition far_t : pt := mkPt (13 / 2) 1 (3 / 2).
Definition far_dag (a : list charge) (b : list pt) := create_dag (bh (bh_accept (1 # 3) near_D) 3) 1 false 3 (one_S a) (far_T b).
Lemma far_usable (a : list charge) (b : list pt) : usable 1 3 (one_S a) (far_T b).
Proof. apply MethodProps.usable_ok. reflexivity. Qed.
Lemma far_paths {X} (l : list X) p : (sub (far_T l) p <> None -> p = [] \/ p = [1] \/ p = [1; 1])%nat.
Proof.
  intros H. destruct p as [|w p]; [auto|]. near_kid w H. destruct p as [|w p]; [auto|]. near_kid w H. change (sub (leaf8 l) p <> None) in H. apply near_leaf in H. subst p. auto.
Qed.
Lemma far_info {X} (l : list X) p n : sub (far_T l) p = Some n -> info n = l.
Proof. intros H. assert (N : sub (far_T l) p <> None) by congruence. apply far_paths in N. destruct N as [->|[->| ->]]; cbn in H; injection H as <-; reflexivity. Qed.
Lemma far_gathered {X} (l : list X) : gathered (far_T l).
Proof.
  intros p n H N. assert (Q : sub (far_T l) p <> None) by congruence. apply far_paths in Q. destruct Q as [->|[->| ->]]; cbn in H; injection H as <-; cbn; try (rewrite app_nil_r; reflexivity). exfalso. apply N. exists (leaf8 l). split; [reflexivity|]. apply near_nokid.
Qed.
Lemma far_mid p : (p = [] \/ p = [0] \/ p = [0; 0] \/ p = [1] \/ p = [1; 1])%nat ->
  middle (mkPt 0 0 0) 8 (idx_of p) = match p with [] => mkPt 4 4 4 | [0%nat] => mkPt 2 2 2 | [1%nat] => mkPt 6 2 2 | 0%nat :: _ => mkPt 1 1 1 | _ => mkPt 7 1 1 end.
Proof. destruct near_sides as (E0 & E1 & E2 & E3). intros [->|[->|[->|[->| ->]]]]; unfold middle, idx_of; cbn; rewrite ?E0, ?E1, ?E2; f_equal; lra. Qed.
Lemma far_regular p : (p = [] \/ p = [0] \/ p = [0; 0] \/ p = [1] \/ p = [1; 1])%nat ->
  regular (middle (mkPt 0 0 0) 8 (idx_of p)) (cpos one_charge) /\ regular (middle (mkPt 0 0 0) 8 (idx_of p)) far_t.
Proof.
  intros Hp. rewrite far_mid by exact Hp. unfold far_t, one_charge. cbn [cpos]. destruct Hp as [->|[->|[->|[->| ->]]]]; (split; first [solve [apply ex_up_regular; lra]|apply one_aside; near_abs]).
Qed.
Lemma far_scene : scene (mkPt 0 0 0) 8 (one_S [one_charge]) (far_T [far_t]).
Proof.
  destruct near_sides as (E0 & E1 & E2 & E3). split; [apply PotProps.one_gathered|]. split; [apply far_gathered|]. split; [|split; [|split]].
  - intros p n x H I. exact (proj1 (proj2 (proj2 PotProps.one_scene)) p n x H I).
  - intros p n x H I. rewrite (far_info _ p n H) in I. destruct I as [<-|[]]. assert (Q : sub (far_T [far_t]) p <> None) by congruence. apply far_paths in Q. unfold inside. rewrite far_mid by (intuition auto). unfold far_t. destruct Q as [->|[->| ->]]; cbn [idx_of follow ilevel]; cbn -[side Rabs]; rewrite ?E0, ?E1, ?E2, ?E3; repeat split; near_abs.
  - intros s I p Hp. assert (Es : s = one_charge) by (destruct I as [I|[]]; symmetry; exact I). subst s. apply far_regular. destruct Hp as [H|H]; [apply one_paths in H|apply far_paths in H]; intuition auto.
  - intros s I p Hp. assert (Es : s = far_t) by (destruct I as [I|[]]; symmetry; exact I). subst s. apply far_regular. destruct Hp as [H|H]; [apply one_paths in H|apply far_paths in H]; intuition auto.
Qed.
Lemma far_ops (a : list charge) (b : list pt) : fed_and_stops [1; 1]%nat (far_dag a b) = true /\ ops_of (far_dag a b) = [StoM; MtoM; MtoM; MtoT].
Proof. vm_compute. split; reflexivity. Qed.
Lemma far_potential : potential [one_charge] far_t = 2 / (11 / 2).
Proof.
  unfold potential. cbn [filter one_charge cpos]. destruct (pt_dec _ _) as [E|_]; [unfold far_t in E; injection E; lra|]. unfold coulomb, far_t, dist. cbn. replace (_ + _ + _) with (11 / 2 * (11 / 2)) by lra. rewrite sqrt_square by lra. lra.
Qed.
Example C79_nonvacuous : exists tb ss tt st phi, let tau := 1 / (3 - sqrt 3) in
  laplace_table 3 = Ok tb /\ create_dag (bh (bh_accept (1 # 3) near_D) 3) 1 false 3 (one_S [one_charge]) (far_T [far_t]) = Ok (ss, tt) /\ ops_of (Ok (ss, tt)) = [StoM; MtoM; MtoM; MtoT] /\
  0 < tau < 2 / sqrt 3 /\ 1 / tau = 1 / Q2R (1 # 3) - sqrt 3 * 2 ^ 0 /\
  run_on_one (edge_value tb (mkPt 0 0 0) 8 (records (far_T [far_t]))) (leaf_value (one_S [one_charge])) (ss ++ tt) (Array [(7, 0)]) st /\
  tval st ((TgtTree, [1; 1]%nat), Parts) = Array [(7 + phi, 0)] /\ Rabs (phi - 4 / 11) <= (sqrt 3 / 2 * tau) ^ 10 / (1 / tau - sqrt 3 / 2).
Proof.
  destruct (C61_table 3 ltac:(lia)) as (tb & E & Ep & Et & Hp). assert (P9 : tb_p tb = 9%nat) by (cbn in Ep; congruence). rewrite P9 in *. exists tb.
  assert (S3 : 17 / 10 < sqrt 3 < 174 / 100) by (split; [rewrite <- (sqrt_square (17 / 10)) by lra|rewrite <- (sqrt_square (174 / 100)) by lra]; apply sqrt_lt_1_alt; lra).
  set (tau := 1 / (3 - sqrt 3)). assert (E1 : 1 / tau = 3 - sqrt 3) by (unfold tau; field; lra). assert (Th : 0 < tau < 2 / sqrt 3).
  { unfold tau. split; [apply Rdiv_lt_0_compat; lra|]. apply Rmult_lt_reg_r with (sqrt 3 * (3 - sqrt 3)); [nra|]. replace (1 / (3 - sqrt 3) * (sqrt 3 * (3 - sqrt 3))) with (sqrt 3) by (field; lra). replace (2 / sqrt 3 * (sqrt 3 * (3 - sqrt 3))) with (2 * (3 - sqrt 3)) by (field; lra). lra. }
  assert (E2 : 1 / tau = 1 / Q2R (1 # 3) - sqrt 3 * 2 ^ 0) by (rewrite E1; unfold Q2R; cbn; lra).
  assert (Ec : real (dlow near_D) = mkPt 0 0 0) by (unfold real, near_D; cbn [dlow coord GeomModel.px GeomModel.py GeomModel.pz]; f_equal; unfold Q2R; cbn; lra). assert (E8 : Q2R (dsize near_D) = 8) by (unfold Q2R; cbn; lra).
  destruct (C79_bound 9 tb near_D (one_S [one_charge]) (far_T [far_t]) (1 # 3) tau 0 1 false 3 2 Hp Et ltac:(reflexivity) (far_usable _ _)) as (ss & tt & Hc & _ & Dv); [rewrite Ec, E8; exact far_scene|apply PotProps.one_levels| |reflexivity|exact Th|exact E2|].
  { intros q (n & Sn & Kn). assert (Q : sub (far_T [far_t]) q <> None) by congruence. apply far_paths in Q. destruct Q as [->|[->| ->]]; cbn; try lia; exfalso; injection Sn as <-; specialize (Kn 1%nat); discriminate. }
  rewrite Ec, E8 in Dv. destruct (far_ops [one_charge] [far_t]) as [Fs Op]. destruct (fed_and_stops_ok _ _ Fs) as (ss' & tt' & Hc' & Fd & Sq). unfold far_dag in Hc'. rewrite Hc in Hc'. injection Hc' as <- <-.
  destruct (one_run _ 1 false 3 _ _ ss tt _ _ (Array [(7, 0)]) _ _ [1; 1]%nat (B_bh _ _) (far_usable _ _) Hc Fd Sq Dv) as (st & phis & Rs & Ts & Cl).
  change (records (far_T [far_t]) [1; 1]%nat) with [far_t] in Cl. inversion Cl as [|t v ts vs [Z B] Cl' X Y]; subst. inversion Cl'; subst. destruct v as [phi z]. cbn [snd fst] in Z, B. subst z.
  exists ss, tt, st, phi. cbv zeta. split; [exact E|]. split; [exact Hc|]. split; [rewrite <- Hc; exact Op|]. split; [exact Th|]. split; [exact E2|]. split; [exact Rs|]. split; [rewrite Ts; cbn; unfold cadd; cbn; do 3 f_equal; ring|].
  change (info (one_S [one_charge])) with [one_charge] in B. rewrite far_potential, one_total in B. destruct near_sides as (_ & _ & Es & _). change (Z.of_nat 2) with 2%Z in B. rewrite Es in B. change (9 + 1)%nat with 10%nat in B. fold tau. replace (2 / 2) with 1 in B by field. rewrite Rmult_1_l in B. replace (4 / 11) with (2 / (11 / 2)) by lra. exact B.
Qed.
