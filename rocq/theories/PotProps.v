(** C65, C66: what an evaluation with the Laplace expansions delivers to the targets. *)
From Coq Require Import Reals ZArith List Bool Arith Lia Lra Psatz Permutation.
From Verif Require Import Base ListFacts IndexModel TreeModel TreeFacts LookupModel DagModel DagSpec DagProofs MethodModel DirectBHProofs MethodProps EdgeGroupSpec LinkSpec ListsSpec ListsProps EvalModel EvalSpec EvalValues EvalProps LapModel LapSpec TranModel TranTable TranSpec TranProofs TranProps PotModel PotSpec PotFacts PotBoxes PotUp PotProofs PotOther.
Import ListNotations.
Open Scope R_scope.

Lemma target_plain corner size (S : tree (list charge)) (T : tree (list pt)) : gathered T -> (forall t, In t (info T) -> plain corner size S T t) -> forall q t, In t (records T q) -> plain corner size S T t.
Proof.
  intros Hg H q t I. apply H. revert t I. induction q as [|w q IH] using rev_ind; intros t I; [exact I|]. apply IH. unfold records in I |- *. rewrite sub_snoc in I. destruct (sub T q) as [m|] eqn:Sm; [|destruct I]. destruct (kid m w) as [n|] eqn:K; [|destruct I].
  assert (N : ~ leaf_at T q) by (intros (m' & E & K'); rewrite Sm in E; injection E as <-; rewrite K' in K; discriminate). rewrite (Hg _ m Sm N). apply in_flat_map. exists (Some n). split; [apply (kid_in _ _ _ _ K)|exact I].
Qed.
Lemma above {X} (T : tree (list X)) c s x : gathered T -> prefix c s -> In x (records T s) -> In x (records T c).
Proof.
  intros Hg [r ->]. revert x. induction r as [|w r IH] using rev_ind; intros x I; [rewrite app_nil_r in I; exact I|]. apply IH. rewrite app_assoc in I. unfold records in I |- *. rewrite sub_snoc in I. destruct (sub T (c ++ r)) as [m|] eqn:Sm; [|destruct I]. destruct (kid m w) as [n|] eqn:K; [|destruct I].
  assert (N : ~ leaf_at T (c ++ r)) by (intros (m' & E & K'); rewrite Sm in E; injection E as <-; rewrite K' in K; discriminate). rewrite (Hg _ m Sm N). apply in_flat_map. exists (Some n). split; [apply (kid_in _ _ _ _ K)|exact I].
Qed.
Lemma all_served {A} (S : tree A) (T : tree (list pt)) ts : good_dag S T ts -> gathered T -> forall t, In t (info T) -> exists q, stops ts q /\ In t (records T q).
Proof.
  intros (_ & _ & G & _) Hg t I. destruct (leaf_lists T Hg) as (ls & _ & Il & Pm). apply (Permutation_in _ (Permutation_sym Pm)) in I. apply in_flat_map in I. destruct I as (s & Is & I). apply Il in Is. destruct (G s Is) as (q & [Sq Pq] & _). exists q. split; [exact Sq|]. eapply above; eassumption.
Qed.
(** From the values of the DAG to all evaluations. *)
Lemma delivers_in_ok {M} (zero : M) add pots (m : method (list charge) (list pt)) unif same fuel S T ss tt op_val sources l err : monoid zero add -> builtin fuel m -> usable unif fuel S T -> create_dag m unif same fuel S T = Ok (ss, tt) ->
  (forall val, solves zero add op_val sources (all_edges (ss ++ tt)) val ->
     (forall e, In e (all_edges (ss ++ tt)) -> is_source (efrom e) = false -> LinkSpec.into (efrom e) (all_edges (ss ++ tt)) <> []) ->
     forall q, stops (ss ++ tt) q -> exists phis, val (tgt q, Parts) = pots phis /\ close l err (records T q) phis) ->
  delivers_in zero add pots op_val sources (records T) (ss ++ tt) l err.
Proof.
  intros Hm Hb HU Hc H loc num_ranks inc outs H1 H2 H3 s0 s Q0 C0 Ev Told q Sq. destruct (C30_methods _ _ m unif same fuel S T Hb HU) as (ss' & tt' & Hc' & Nc & D'). rewrite Hc in Hc'. injection Hc' as <- <-. pose proof (D' loc num_ranks inc outs H1 H2 H3) as D.
  fold (the_leaves (ss ++ tt)) in Ev. fold (the_lcos (ss ++ tt)) in Ev. destruct (C30_signal zero add op_val sources loc num_ranks inc outs _ _ _ D s0 s Q0 Ev) as [_ Sg]. destruct (Sg Told) as (_ & Pf & _).
  destruct (C30_delivery zero add op_val sources loc num_ranks inc outs _ _ _ D s0 s Q0 Ev) as (_ & _ & _ & Fi & Tr).
  assert (Tg : forall v, In v (the_lcos (ss ++ tt)) -> trig s v = true) by (intros v J; apply Fi; apply (Permutation_in _ (Permutation_sym Pf)); exact J).
  destruct (solution_exists zero add op_val sources _ Nc) as (val & Sv). destruct (C30_values zero add op_val sources loc num_ranks inc outs _ _ _ D Hm val Sv s0 s Q0 C0 Ev) as (_ & Vt & _).
  destruct (H val Sv) with (q := q) as (phis & Ep & Cp).
  - intros e J So. pose proof (d_from _ _ _ _ _ _ _ D e J) as K. apply in_app_or in K. destruct K as [K|K]; [rewrite (d_leaf _ _ _ _ _ _ _ D _ K) in So; discriminate|]. apply Tr, Tg, K.
  - exact Sq.
  - exists phis. split; [|exact Cp]. change ((TgtTree, q), Parts) with (tgt q, Parts). rewrite (Vt (tgt q, Parts)); [rewrite Ep; reflexivity|reflexivity|]. apply Tg. apply filter_In. split; [exact Sq|reflexivity].
Qed.
Lemma delivers_ok (m : method (list charge) (list pt)) unif same fuel S T ss tt op_val sources l err : builtin fuel m -> usable unif fuel S T -> create_dag m unif same fuel S T = Ok (ss, tt) ->
  (forall val, solves value_zero value_add op_val sources (all_edges (ss ++ tt)) val ->
     (forall e, In e (all_edges (ss ++ tt)) -> is_source (efrom e) = false -> LinkSpec.into (efrom e) (all_edges (ss ++ tt)) <> []) ->
     forall q, stops (ss ++ tt) q -> exists phis, val (tgt q, Parts) = Array phis /\ close l err (records T q) phis) ->
  delivers op_val sources (records T) (ss ++ tt) l err.
Proof. apply delivers_in_ok, value_monoid. Qed.

(** ** C65 *)
(** The adaptive FMM: once the evaluation is over, every target has gained the potential of
    all charges (but those at its own place) up to the truncation error of one expansion of
    all of them in a box of the smallest size. *)
Theorem C65_fmm : forall p tb corner size S T unif same fuel h, (1 <= p)%nat -> table_of_order p = Ok tb -> 0 < size ->
  usable unif fuel S T -> scene corner size S T -> levels h S -> levels h T ->
  exists ss tt, create_dag (fmm fuel) unif same fuel S T = Ok (ss, tt) /\
    (forall t, In t (info T) -> exists q, stops (ss ++ tt) q /\ In t (records T q)) /\
    delivers (edge_value tb corner size (records T)) (leaf_value S) (records T) (ss ++ tt) (info S)
      (total_charge (info S) / side size (Z.of_nat h) * ((sqrt 3 / 2) ^ (p + 1) / (2 - sqrt 3))).
Proof.
  intros p tb corner size S T unif same fuel h Hp Et Hs HU (GS & GT & BS & BT & PS & PT) LS LT. destruct (table_good p tb Hp Et) as [Ep HS]. subst p.
  destruct (C57_fmm_lists _ _ S T fuel unif same HU) as (ss & tt & Hc & ND & Ed). exists ss, tt. split; [exact Hc|].
  destruct (C38_fmm _ _ unif same fuel S T HU) as (ss' & tt' & Hc' & G & _). rewrite Hc in Hc'. injection Hc' as <- <-. destruct (C38_stops _ _ unif same fuel S T HU) as (ss' & tt' & Hc' & St & _). rewrite Hc in Hc'. injection Hc' as <- <-.
  split; [exact (all_served S T _ G GT)|]. eapply delivers_ok; [constructor|exact HU|exact Hc|]. intros val Sv Fd q Sq. apply St in Sq. destruct Sq as [Fq Hq].
  destruct (target_ok corner size Hs tb HS Et S T unif fuel h same HU BS BT GS PS (target_plain corner size S T GT PT) LS LT _ ND Ed Fd val Sv q) as (phis & Ev & C); [split; [split; [apply Fq|exact Hq]|exact Fq]|].
  exists phis. split; [exact Ev|]. eapply close_weaken; [|exact C]. right. unfold K, eps_l. rewrite Nat.add_1_r. unfold Rdiv. ring.
Qed.
Print Assumptions C65_fmm.

(** What the addition of values means: arrays of one length are added coefficient by
    coefficient, as operator+= of the expansions does, and nothing is lost. *)
Theorem C65_additions : forall a b, length a = length b -> value_add (Array a) (Array b) = Array (padd a b) /\ add_expansion a b = Ok (padd a b) /\
  length (padd a b) = length a /\ forall i x y, nth_error a i = Some x -> nth_error b i = Some y -> nth_error (padd a b) i = Some (fst x + fst y, snd x + snd y).
Proof.
  intros a b L. split; [apply value_add_array|]. split; [apply add_padd, L|]. split; [rewrite padd_length; congruence|]. intros i x y Hx Hy. exact (padd_nth a b i x y L Hx Hy).
Qed.
Print Assumptions C65_additions.

(** Adding the contributions of the edges to the targets is what the loops of the operations
    do on the targets themselves. *)
Theorem C65_in_place : forall ts phis vs, length phis = length ts ->
  (forall l, at_targets (fun t => Ok (S_to_T l t 0)) ts = Array vs -> in_place (fun t phi => Ok (S_to_T l t phi)) ts phis = Ok (map fst (padd (map (fun x => (x, 0)) phis) vs))) /\
  (forall p sqf scale c M, at_targets (fun t => M_to_T p sqf scale c M t 0) ts = Array vs -> in_place (M_to_T p sqf scale c M) ts phis = Ok (map fst (padd (map (fun x => (x, 0)) phis) vs))) /\
  (forall p sqf scale c L, at_targets (fun t => L_to_T p sqf scale c L t 0) ts = Array vs -> in_place (L_to_T p sqf scale c L) ts phis = Ok (map fst (padd (map (fun x => (x, 0)) phis) vs))).
Proof.
  intros ts phis vs Hl.
  assert (G : forall f : pt -> R -> res R, (forall t phi, f t phi = (do v <- f t 0; Ok (phi + v))) -> at_targets (fun t => f t 0) ts = Array vs -> in_place f ts phis = Ok (map fst (padd (map (fun x => (x, 0)) phis) vs))).
  { intros f Hf. revert phis vs Hl. induction ts as [|t ts IH]; intros phis vs Hl H; [destruct phis; [|discriminate]; injection H as <-; reflexivity|]. destruct phis as [|phi phis]; [discriminate|]. injection Hl as Hl. unfold at_targets in H. cbn [mapM bind in_place] in *. rewrite (Hf t phi). destruct (f t 0) as [v|]; [|discriminate]. cbn [bind] in *.
    unfold at_targets in IH. destruct (mapM (fun t => do v <- f t 0; Ok (v, 0)) ts) as [vs'|] eqn:Em; [|discriminate]. cbn in H. injection H as <-. rewrite (IH phis vs' Hl eq_refl). reflexivity. }
  split; [|split].
  - intros l H. apply G; [|exact H]. intros t phi. cbn [bind]. rewrite !S_to_T_ok. do 2 f_equal. ring.
  - intros p sqf scale c M H. apply G; [|exact H]. intros t phi. unfold M_to_T. destruct (lap_m_to_t _ _ _ _ _); [|reflexivity]. cbn. do 2 f_equal. ring.
  - intros p sqf scale c L H. apply G; [|exact H]. intros t phi. unfold L_to_T. destruct (lap_l_to_t _ _ _ _ _); [|reflexivity]. cbn. do 2 f_equal. ring.
Qed.
Print Assumptions C65_in_place.

(** ** C66 *)
(** One pair: the source is left out only at the place of the target. *)
Theorem C66_s_to_t : forall l t phi, S_to_T l t phi = phi + potential l t.
Proof. exact S_to_T_ok. Qed.
Print Assumptions C66_s_to_t.

(** The direct method: exactly the potential. *)
Theorem C66_direct : forall tb corner size S T unif same fuel, usable unif fuel S T -> gathered S -> gathered T ->
  exists ss tt, create_dag (direct fuel) unif same fuel S T = Ok (ss, tt) /\
    (forall t, In t (info T) -> exists q, stops (ss ++ tt) q /\ In t (records T q)) /\
    delivers (edge_value tb corner size (records T)) (leaf_value S) (records T) (ss ++ tt) (info S) 0.
Proof.
  intros tb corner size S T unif same fuel HU GS GT. destruct (C35_direct _ _ unif same fuel S T HU) as (ss & tt & Hc & G & St & Ed). exists ss, tt. split; [exact Hc|]. split; [exact (all_served S T _ G GT)|].
  eapply delivers_ok; [constructor|exact HU|exact Hc|]. intros val Sv Fd q Sq. apply St in Sq. destruct G as [ND _]. exact (direct_ok corner size tb S T GS _ ND Ed val Sv q Sq).
Qed.
Print Assumptions C66_direct.

(** Barnes-Hut: if every accepted source box is seen from the targets under an angle of at
    most [theta], the error is that of truncating expansions at this angle. *)
Theorem C66_barnes_hut : forall p tb corner size S T accept theta unif same fuel h, (1 <= p)%nat -> table_of_order p = Ok tb -> 0 < size ->
  usable unif fuel S T -> scene corner size S T -> levels h S -> 0 < theta < 2 / sqrt 3 ->
  (forall c q t, accept c q = true -> In t (records T q) -> side size (Z.of_nat (length c)) <= theta * dist (middle corner size (idx_of c)) t) ->
  exists ss tt, create_dag (bh accept fuel) unif same fuel S T = Ok (ss, tt) /\
    (forall t, In t (info T) -> exists q, stops (ss ++ tt) q /\ In t (records T q)) /\
    delivers (edge_value tb corner size (records T)) (leaf_value S) (records T) (ss ++ tt) (info S)
      (total_charge (info S) / side size (Z.of_nat h) * ((sqrt 3 / 2 * theta) ^ (p + 1) / (1 / theta - sqrt 3 / 2))).
Proof.
  intros p tb corner size S T accept theta unif same fuel h Hp Et Hs HU (GS & GT & BS & BT & PS & PT) LS Hth Hacc. destruct (table_good p tb Hp Et) as [Ep HS]. subst p. pose proof HU as (H1 & H2 & H3 & H4 & H5 & H6).
  destruct (bh_dag S T unif fuel same H1 H2 H3 H4 H5 H6 accept) as (ss & tt & Hc & G & _ & St & _ & Rt & _ & _ & _ & Up & To). exists ss, tt. split; [exact Hc|]. split; [exact (all_served S T _ G GT)|].
  eapply delivers_ok; [constructor|exact HU|exact Hc|]. intros val Sv Fd q Sq. destruct G as (ND & One & _).
  destruct (bh_ok corner size Hs tb HS Et S T fuel h H1 H3 BS GS PS (target_plain corner size S T GT PT) LS accept theta Hth) with (E := all_edges (ss ++ tt)) (stop := stops (ss ++ tt)) (val := val) (q := q) as (phis & Ev & C); try assumption.
  - intros c q' t. rewrite idx_level. apply Hacc.
  - exists phis. split; [exact Ev|]. eapply close_weaken; [|exact C]. right. unfold Kb. rewrite Nat.add_1_r. unfold Rdiv. ring.
Qed.
Print Assumptions C66_barnes_hut.

(** ** Instances *)
(** A charge in one box and a target in another, all boxes of the second level divided no
    further. *)
Definition one_S {X} (l : list X) : tree (list X) := put l [(0, put l [(0, leaf8 l)])]%nat.
Definition one_T {X} (l : list X) : tree (list X) := put l [(1, put l [(0, leaf8 l)])]%nat.
Definition one_charge : charge := mkCharge 2 (mkPt 1 1 (3 / 2)).
Definition one_target : pt := mkPt 5 1 (3 / 2).
Lemma one_paths {X} (l : list X) p : (sub (one_S l) p <> None -> p = [] \/ p = [0] \/ p = [0; 0])%nat /\ (sub (one_T l) p <> None -> p = [] \/ p = [1] \/ p = [1; 0])%nat.
Proof.
  assert (L : forall w q, sub (leaf8 l) (w :: q) = None) by (intros w q; cbn; unfold kid; cbn; do 8 (destruct w as [|w]; [reflexivity|]); destruct w; reflexivity).
  assert (K : forall p, sub (put l [(0%nat, leaf8 l)]) p <> None -> p = [] \/ p = [0%nat]).
  { intros [|w q] H; [auto|]. destruct w as [|w]; [change (sub (put l [(0%nat, leaf8 l)]) (0%nat :: q)) with (sub (leaf8 l) q) in H; destruct q; [auto|rewrite L in H; congruence]|]. exfalso. apply H. cbn. unfold kid. cbn. do 7 (destruct w as [|w]; [reflexivity|]). destruct w; reflexivity. }
  split; destruct p as [|w q]; auto; intros H.
  - destruct w as [|w]; [change (sub (one_S l) (0%nat :: q)) with (sub (put l [(0%nat, leaf8 l)]) q) in H; destruct (K _ H) as [->| ->]; auto|]. exfalso. apply H. cbn. unfold kid. cbn. do 7 (destruct w as [|w]; [reflexivity|]). destruct w; reflexivity.
  - destruct w as [|[|w]]; [exfalso; apply H; reflexivity|change (sub (one_T l) (1%nat :: q)) with (sub (put l [(0%nat, leaf8 l)]) q) in H; destruct (K _ H) as [->| ->]; auto|]. exfalso. apply H. cbn. unfold kid. cbn. do 6 (destruct w as [|w]; [reflexivity|]). destruct w; reflexivity.
Qed.
Lemma one_info {X} (l : list X) p n : sub (one_S l) p = Some n \/ sub (one_T l) p = Some n -> info n = l.
Proof. intros [H|H]; [assert (N : sub (one_S l) p <> None) by congruence|assert (N : sub (one_T l) p <> None) by congruence]; apply one_paths in N; destruct N as [->|[->| ->]]; cbn in H; injection H as <-; reflexivity. Qed.
Lemma one_gathered {X} (l : list X) : gathered (one_S l) /\ gathered (one_T l).
Proof.
  split; intros p n H N; assert (N' := H); [assert (Q : sub (one_S l) p <> None) by congruence|assert (Q : sub (one_T l) p <> None) by congruence]; apply one_paths in Q; destruct Q as [->|[->| ->]]; cbn in H; injection H as <-; cbn; try (rewrite app_nil_r; reflexivity).
  all: exfalso; apply N; exists (leaf8 l); split; [reflexivity|]; intros w; unfold kid; cbn; do 8 (destruct w as [|w]; [reflexivity|]); destruct w; reflexivity.
Qed.
Lemma one_levels {X} (l : list X) : levels 2 (one_S l) /\ levels 2 (one_T l).
Proof. split; intros p H; apply one_paths in H; destruct H as [->|[->| ->]]; cbn; lia. Qed.
Lemma one_sides : side 8 0 = 8 /\ side 8 1 = 4 /\ side 8 2 = 2.
Proof. unfold side. simpl powerRZ. repeat split; field. Qed.
Lemma one_mid p : (p = [] \/ p = [0] \/ p = [0; 0] \/ p = [1] \/ p = [1; 0])%nat ->
  middle ex_corner 8 (idx_of p) = match p with [] => mkPt 4 4 4 | [0%nat] => mkPt 2 2 2 | [1%nat] => mkPt 6 2 2 | 0%nat :: _ => mkPt 1 1 1 | _ => mkPt 5 1 1 end.
Proof. destruct one_sides as (E0 & E1 & E2). intros [->|[->|[->|[->| ->]]]]; unfold middle, idx_of; cbn; rewrite ?E0, ?E1, ?E2; f_equal; lra. Qed.
Lemma one_aside c x : 1 / 2 <= Rabs (px x - px c) -> Rabs (px x - px c) + Rabs (py x - py c) + Rabs (pz x - pz c) <= 12 -> regular c x.
Proof.
  intros H B. pose proof ex_tiny as Ty. set (a := Rabs (px x - px c)) in *. set (b := Rabs (py x - py c)) in *. set (d := Rabs (pz x - pz c)) in *. assert (0 <= b /\ 0 <= d) as [Pb Pd] by (split; apply Rabs_pos).
  assert (Qa : (px x - px c) ^ 2 = a * a) by (unfold a; rewrite <- Rabs_mult, Rabs_right by (apply Rle_ge, Rle_0_sqr); ring). assert (Qb : (py x - py c) ^ 2 = b * b) by (unfold b; rewrite <- Rabs_mult, Rabs_right by (apply Rle_ge, Rle_0_sqr); ring). assert (Qd : (pz x - pz c) ^ 2 = d * d) by (unfold d; rewrite <- Rabs_mult, Rabs_right by (apply Rle_ge, Rle_0_sqr); ring).
  assert (O : 1 / 2 <= off_axis c x) by (unfold off_axis; rewrite Qa, Qb; rewrite <- (sqrt_square (1 / 2)) by lra; apply sqrt_le_1_alt; nra).
  assert (D : dist c x <= 12 /\ 1 / 2 <= dist c x).
  { unfold dist. replace ((px c - px x) ^ 2 + (py c - py x) ^ 2 + (pz c - pz x) ^ 2) with (a * a + b * b + d * d) by (rewrite <- Qa, <- Qb, <- Qd; ring). split; [rewrite <- (sqrt_square 12) by lra|rewrite <- (sqrt_square (1 / 2)) by lra]; apply sqrt_le_1_alt; nra. }
  assert (Ty' : / 10 ^ 14 < 1 / 100) by (replace (1 / 100) with (/ 10 ^ 2) by lra; apply Rinv_lt_contravar; [apply Rmult_lt_0_compat; apply pow_lt; lra|apply Rlt_pow; [lra|lia]]).
  split; [lra|right; nra].
Qed.
Ltac one_abs := cbn [px py pz one_charge one_target cpos]; repeat (match goal with |- context [Rabs ?a] => unfold Rabs at 1; destruct (Rcase_abs a); try lra end).
Lemma one_scene : scene ex_corner 8 (one_S [one_charge]) (one_T [one_target]).
Proof.
  destruct one_sides as (E0 & E1 & E2). split; [apply one_gathered|]. split; [apply one_gathered|]. split; [|split; [|split]].
  - intros p n x H I. rewrite (one_info [one_charge] p n (or_introl H)) in I. destruct I as [<-|[]]. assert (Q : sub (one_S [one_charge]) p <> None) by congruence. apply one_paths in Q. unfold inside. rewrite one_mid by (intuition auto). destruct Q as [->|[->| ->]]; cbn [idx_of follow ilevel]; cbn -[side Rabs]; rewrite ?E0, ?E1, ?E2; repeat split; one_abs.
  - intros p n x H I. rewrite (one_info [one_target] p n (or_intror H)) in I. destruct I as [<-|[]]. assert (Q : sub (one_T [one_target]) p <> None) by congruence. apply one_paths in Q. unfold inside. rewrite one_mid by (intuition auto). destruct Q as [->|[->| ->]]; cbn [idx_of follow ilevel]; cbn -[side Rabs]; rewrite ?E0, ?E1, ?E2; repeat split; one_abs.
  - intros s I p Hp. assert (Es : s = one_charge) by (destruct I as [I|[]]; symmetry; exact I). subst s. destruct Hp as [H|H]; apply one_paths in H; rewrite one_mid by (intuition auto); destruct H as [->|[->| ->]]; cbn [one_charge one_target cpos]; first [solve [apply ex_up_regular; lra]|apply one_aside; one_abs].
  - intros s I p Hp. assert (Es : s = one_target) by (destruct I as [I|[]]; symmetry; exact I). subst s. destruct Hp as [H|H]; apply one_paths in H; rewrite one_mid by (intuition auto); destruct H as [->|[->| ->]]; cbn [one_charge one_target cpos]; first [solve [apply ex_up_regular; lra]|apply one_aside; one_abs].
Qed.
Definition fed_and_stops (q : path) (r : res (list task * list task)) : bool :=
  match r with
  | Ok (ss, tl) => forallb (fun v => negb (length (LinkSpec.into v (all_edges (ss ++ tl))) =? 0)%nat) (the_lcos (ss ++ tl)) &&
      existsb (fun v => if dnode_dec v ((TgtTree, q), Parts) then true else false) (all_adds (ss ++ tl))
  | Fail _ => false
  end.
Lemma fed_and_stops_ok q r : fed_and_stops q r = true -> exists ss tt, r = Ok (ss, tt) /\ all_fed (the_lcos (ss ++ tt)) (all_edges (ss ++ tt)) /\ stops (ss ++ tt) q.
Proof.
  destruct r as [[ss tt]|]; [|discriminate]. intros H. exists ss, tt. split; [reflexivity|]. cbn [fed_and_stops] in H. apply andb_true_iff in H. destruct H as [H1 H2]. split.
  - intros v J N. rewrite forallb_forall in H1. specialize (H1 v J). change (LinkSpec.into v (all_edges (ss ++ tt)) = []) in N. rewrite N in H1. discriminate.
  - apply existsb_exists in H2. destruct H2 as (v & J & H2). destruct (dnode_dec v (TgtTree, q, Parts)) as [->|]; [exact J|discriminate].
Qed.
(** An evaluation on one rank. *)
Definition run_in {M} (zero : M) (add : M -> M -> M) (op_val : edge -> M -> M) (sources : dnode -> M) (ts : list task) (t0 : M) (s : est M) : Prop :=
  evaluates zero add op_val sources (fun _ => 0%Z) 1 (the_inc (all_edges ts)) (the_outs (all_edges ts)) (filter is_source (all_adds ts)) (filter (fun v => negb (is_source v)) (all_adds ts)) (blank (fun _ => t0)) s /\ over s.
Definition run_on_one := run_in value_zero value_add.
Lemma one_loc (l : list edge) : sort_outcome (fun _ : edge => 0%Z) l l.
Proof. split; [reflexivity|]. induction l as [|e l IH]; constructor; [exact IH|]. apply List.Forall_forall. intros; lia. Qed.
Lemma one_run_in {M} (zero : M) add pots (m : method (list charge) (list pt)) unif same fuel S T ss tt op_val sources t0 l err q : builtin fuel m -> usable unif fuel S T -> create_dag m unif same fuel S T = Ok (ss, tt) ->
  all_fed (the_lcos (ss ++ tt)) (all_edges (ss ++ tt)) -> stops (ss ++ tt) q -> delivers_in zero add pots op_val sources (records T) (ss ++ tt) l err ->
  exists s phis, run_in zero add op_val sources (ss ++ tt) t0 s /\ tval s ((TgtTree, q), Parts) = add t0 (pots phis) /\ close l err (records T q) phis.
Proof.
  intros Hb HU Hc Fd Sq Dv. destruct (C30_methods _ _ m unif same fuel S T Hb HU) as (ss' & tt' & Hc' & Nc & D'). rewrite Hc in Hc'. injection Hc' as <- <-.
  assert (A1 : forall v, In v (all_adds (ss ++ tt)) -> (0 <= (fun _ => 0%Z) v < 1)%Z) by (intros; lia). assert (A2 : forall v, the_inc (all_edges (ss ++ tt)) v = length (LinkSpec.into v (all_edges (ss ++ tt)))) by reflexivity. assert (A3 : forall v, sort_outcome (fun e => (fun _ => 0%Z) (eto e)) (LinkSpec.out_of v (all_edges (ss ++ tt))) (the_outs (all_edges (ss ++ tt)) v)) by (intros v; apply one_loc).
  pose proof (D' (fun _ => 0%Z) 1%Z (the_inc (all_edges (ss ++ tt))) (the_outs (all_edges (ss ++ tt))) A1 A2 A3) as D. assert (I0 : idle (blank (M := M) (fun _ => t0))) by (split; [intros t []|reflexivity]).
  destruct (C30_end_exists _ zero add op_val sources _ _ _ _ _ _ _ D Nc Fd _ I0) as (s & Ev & Ov). destruct (C30_ends zero add op_val sources _ _ _ _ _ _ _ D Nc Fd _ I0) as (_ & _ & Told). destruct (Told s Ev Ov) as (_ & _ & Z0).
  destruct (Dv _ _ _ _ A1 A2 A3 _ s I0 ltac:(intros v _; reflexivity) Ev Z0 q Sq) as (phis & Et & Cl). exists s, phis. split; [split; assumption|]. split; [exact Et|exact Cl].
Qed.
Lemma one_run (m : method (list charge) (list pt)) unif same fuel S T ss tt op_val sources t0 l err q : builtin fuel m -> usable unif fuel S T -> create_dag m unif same fuel S T = Ok (ss, tt) ->
  all_fed (the_lcos (ss ++ tt)) (all_edges (ss ++ tt)) -> stops (ss ++ tt) q -> delivers op_val sources (records T) (ss ++ tt) l err ->
  exists s phis, run_on_one op_val sources (ss ++ tt) t0 s /\ tval s ((TgtTree, q), Parts) = value_add t0 (Array phis) /\ close l err (records T q) phis.
Proof. apply one_run_in. Qed.
Lemma one_potential : potential [one_charge] one_target = 2 / 4.
Proof.
  unfold potential. cbn [filter one_charge cpos]. destruct (pt_dec _ _) as [E|_]; [injection E; lra|]. unfold coulomb, one_target, dist. cbn. replace (_ + _ + _) with (4 * 4) by ring. rewrite sqrt_square by lra. lra.
Qed.
Lemma one_usable (a : list charge) (b : list pt) : usable 1 3 (one_S a) (one_T b).
Proof. apply usable_ok. reflexivity. Qed.
Lemma one_fmm (a : list charge) (b : list pt) : fed_and_stops [1; 0]%nat (create_dag (fmm 3) 1 false 3 (one_S a) (one_T b)) = true.
Proof. vm_compute. reflexivity. Qed.
(** The charge reaches the target by S_to_M, M_to_L and L_to_T. *)
Lemma one_fmm_ops (a : list charge) (b : list pt) : ops_of (create_dag (fmm 3) 1 false 3 (one_S a) (one_T b)) = [StoM; MtoL; LtoT].
Proof. vm_compute. reflexivity. Qed.
Lemma one_total : total_charge [one_charge] = 2.
Proof. unfold total_charge. cbn. rewrite Rabs_right; lra. Qed.
Example C65_nonvacuous : exists tb ss tt s phi, laplace_table 3 = Ok tb /\ usable 1 3 (one_S [one_charge]) (one_T [one_target]) /\ scene ex_corner 8 (one_S [one_charge]) (one_T [one_target]) /\ levels 2 (one_S [one_charge]) /\ levels 2 (one_T [one_target]) /\
  create_dag (fmm 3) 1 false 3 (one_S [one_charge]) (one_T [one_target]) = Ok (ss, tt) /\ ops_of (Ok (ss, tt)) = [StoM; MtoL; LtoT] /\
  run_on_one (edge_value tb ex_corner 8 (records (one_T [one_target]))) (leaf_value (one_S [one_charge])) (ss ++ tt) (Array [(7, 0)]) s /\
  tval s ((TgtTree, [1; 0]%nat), Parts) = Array [(7 + phi, 0)] /\ Rabs (phi - 2 / 4) <= (sqrt 3 / 2) ^ 10 / (2 - sqrt 3).
Proof.
  destruct (C61_table 3 ltac:(lia)) as (tb & E & Ep & Et & Hp). assert (P9 : tb_p tb = 9%nat) by (cbn in Ep; congruence). rewrite P9 in *. exists tb.
  destruct (C65_fmm 9 tb ex_corner 8 _ _ 1 false 3 2 Hp Et ltac:(lra) (one_usable _ _) one_scene (proj1 (one_levels _)) (proj2 (one_levels _))) as (ss & tt & Hc & _ & Dv). destruct (fed_and_stops_ok _ _ (one_fmm [one_charge] [one_target])) as (ss' & tt' & Hc' & Fd & Sq). rewrite Hc in Hc'. injection Hc' as <- <-.
  destruct (one_run _ 1 false 3 _ _ ss tt _ _ (Array [(7, 0)]) _ _ [1; 0]%nat (B_fmm _) (one_usable _ _) Hc Fd Sq Dv) as (s & phis & Rs & Ts & Cl).
  change (records (one_T [one_target]) [1; 0]%nat) with [one_target] in Cl. inversion Cl as [|t v ts vs [Z B] Cl' X Y]; subst. inversion Cl'; subst. destruct v as [phi z]. cbn [snd fst] in Z, B. subst z.
  exists ss, tt, s, phi. split; [exact E|]. split; [apply one_usable|]. split; [apply one_scene|]. split; [apply one_levels|]. split; [apply one_levels|]. split; [exact Hc|]. split; [rewrite <- Hc; apply one_fmm_ops|]. split; [exact Rs|]. split; [rewrite Ts; cbn; unfold cadd; cbn; do 3 f_equal; ring|].
  change (info (one_S [one_charge])) with [one_charge] in B. rewrite one_potential, one_total in B. destruct one_sides as (_ & _ & E2). change (Z.of_nat 2) with 2%Z in B. rewrite E2 in B. change (9 + 1)%nat with 10%nat in B. replace (2 / 2) with 1 in B by field. rewrite Rmult_1_l in B. exact B.
Qed.
(** The source box of the charge is accepted at every target box, at an angle of 1/2. *)
Definition one_accept (c q : path) : bool := if list_eq_dec Nat.eq_dec c [0; 0]%nat then true else false.
Lemma one_bh (a : list charge) (b : list pt) : fed_and_stops [1; 0]%nat (create_dag (bh one_accept 3) 1 false 3 (one_S a) (one_T b)) = true /\ ops_of (create_dag (bh one_accept 3) 1 false 3 (one_S a) (one_T b)) = [StoM; MtoM; MtoM; MtoT].
Proof. vm_compute. split; reflexivity. Qed.
Lemma one_direct (a : list charge) (b : list pt) : fed_and_stops [1; 0]%nat (create_dag (direct 3) 1 false 3 (one_S a) (one_T b)) = true.
Proof. vm_compute. reflexivity. Qed.
Example C66_nonvacuous : exists tb ss tt s phi, laplace_table 3 = Ok tb /\ create_dag (bh one_accept 3) 1 false 3 (one_S [one_charge]) (one_T [one_target]) = Ok (ss, tt) /\ ops_of (Ok (ss, tt)) = [StoM; MtoM; MtoM; MtoT] /\
  run_on_one (edge_value tb ex_corner 8 (records (one_T [one_target]))) (leaf_value (one_S [one_charge])) (ss ++ tt) (Array [(7, 0)]) s /\
  tval s ((TgtTree, [1; 0]%nat), Parts) = Array [(7 + phi, 0)] /\ Rabs (phi - 2 / 4) <= (sqrt 3 / 4) ^ 10 / (2 - sqrt 3 / 2).
Proof.
  destruct (C61_table 3 ltac:(lia)) as (tb & E & Ep & Et & Hp). assert (P9 : tb_p tb = 9%nat) by (cbn in Ep; congruence). rewrite P9 in *. exists tb. pose proof sqrt3_lt as S3. pose proof (sqrt_lt_R0 3 ltac:(lra)) as S0.
  assert (Th : 0 < 1 / 2 < 2 / sqrt 3) by (split; [lra|]; apply (Rmult_lt_reg_r (sqrt 3)); [lra|]; unfold Rdiv; rewrite (Rmult_assoc 2), Rinv_l by lra; lra).
  destruct (C66_barnes_hut 9 tb ex_corner 8 _ _ one_accept (1 / 2) 1 false 3 2 Hp Et ltac:(lra) (one_usable _ _) one_scene (proj1 (one_levels _)) Th) as (ss & tt & Hc & _ & Dv).
  { intros c q t Ac J. unfold one_accept in Ac. destruct (list_eq_dec Nat.eq_dec c [0; 0]%nat) as [->|]; [|discriminate]. assert (t = one_target) by (unfold records in J; destruct (sub (one_T [one_target]) q) as [n|] eqn:Sn; [|destruct J]; rewrite (one_info _ _ _ (or_intror Sn)) in J; destruct J as [J|[]]; auto). subst t.
    destruct one_sides as (_ & _ & E2). rewrite one_mid by auto. change (Z.of_nat (length [0; 0]%nat)) with 2%Z. rewrite E2. assert (4 <= dist (mkPt 1 1 1) one_target); [|lra]. unfold dist, one_target. cbn [px py pz]. rewrite <- (sqrt_square 4) at 1 by lra. apply sqrt_le_1_alt. lra. }
  destruct (one_bh [one_charge] [one_target]) as [Fs Op]. destruct (fed_and_stops_ok _ _ Fs) as (ss' & tt' & Hc' & Fd & Sq). rewrite Hc in Hc'. injection Hc' as <- <-.
  destruct (one_run _ 1 false 3 _ _ ss tt _ _ (Array [(7, 0)]) _ _ [1; 0]%nat (B_bh _ _) (one_usable _ _) Hc Fd Sq Dv) as (s & phis & Rs & Ts & Cl).
  change (records (one_T [one_target]) [1; 0]%nat) with [one_target] in Cl. inversion Cl as [|t v ts vs [Z B] Cl' X Y]; subst. inversion Cl'; subst. destruct v as [phi z]. cbn [snd fst] in Z, B. subst z.
  exists ss, tt, s, phi. split; [exact E|]. split; [exact Hc|]. split; [rewrite <- Hc; exact Op|]. split; [exact Rs|]. split; [rewrite Ts; cbn; unfold cadd; cbn; do 3 f_equal; ring|].
  change (info (one_S [one_charge])) with [one_charge] in B. rewrite one_potential, one_total in B. destruct one_sides as (_ & _ & E2). change (Z.of_nat 2) with 2%Z in B. rewrite E2 in B. change (9 + 1)%nat with 10%nat in B. eapply Rle_trans; [exact B|]. right. replace (sqrt 3 / 2 * (1 / 2)) with (sqrt 3 / 4) by field. replace (1 / (1 / 2)) with 2 by field. field. lra.
Qed.
Example C66_direct_nonvacuous : exists tb ss tt s, create_dag (direct 3) 1 false 3 (one_S [one_charge]) (one_T [one_target]) = Ok (ss, tt) /\
  run_on_one (edge_value tb ex_corner 8 (records (one_T [one_target]))) (leaf_value (one_S [one_charge])) (ss ++ tt) (Array [(7, 0)]) s /\ tval s ((TgtTree, [1; 0]%nat), Parts) = Array [(7 + 2 / 4, 0)].
Proof.
  destruct (C61_table 3 ltac:(lia)) as (tb & _). exists tb. destruct (C66_direct tb ex_corner 8 _ _ 1 false 3 (one_usable [one_charge] [one_target]) (proj1 (one_gathered _)) (proj2 (one_gathered _))) as (ss & tt & Hc & _ & Dv).
  destruct (fed_and_stops_ok _ _ (one_direct [one_charge] [one_target])) as (ss' & tt' & Hc' & Fd & Sq). rewrite Hc in Hc'. injection Hc' as <- <-.
  destruct (one_run _ 1 false 3 _ _ ss tt _ _ (Array [(7, 0)]) _ _ [1; 0]%nat (B_direct _) (one_usable _ _) Hc Fd Sq Dv) as (s & phis & Rs & Ts & Cl).
  change (records (one_T [one_target]) [1; 0]%nat) with [one_target] in Cl. inversion Cl as [|t v ts vs [Z B] Cl' X Y]; subst. inversion Cl'; subst. destruct v as [phi z]. cbn [snd fst] in Z, B. subst z.
  exists ss, tt, s. split; [exact Hc|]. split; [exact Rs|]. change (info (one_S [one_charge])) with [one_charge] in B. rewrite one_potential in B. assert (phi = 2 / 4) by (revert B; unfold Rabs; destruct (Rcase_abs _); lra). subst phi. rewrite Ts. cbn. unfold cadd. cbn. do 3 f_equal. ring.
Qed.
