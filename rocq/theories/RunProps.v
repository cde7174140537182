(** C74: a whole evaluation, from the users' records to the potentials. *)
From Coq Require Import Reals Qreals ZArith QArith List Bool Arith Lia Lra Permutation.
From Verif Require Import Base ListFacts IndexModel IndexSpec ArrayModel ArraySpec TreeModel RefineModel RefineSpec GeomModel GeomSpec GroupModel ReduceModel ReduceSpec MessageModel MessageSpec MessageProps ExchangeModel ExchangeSpec MergeModel BuildModel DagModel DagSpec DagProofs MethodModel MethodProps DirectBHProofs
  WholeModel WholeSpec LapModel LapSpec TranModel TranSpec WaveModel WaveSpec PotModel PotSpec PotFacts PotProofs PotProps Pot97Model Pot97Spec Pot97Props RunModel RunSpec RunProofs RunTrees RunExist.
Import ListNotations.
Open Scope nat_scope.

(** The charges and places that the users' records stand for. *)
Definition charge_of {A} (pos : A -> point) (q : A -> R) (x : A) : charge := mkCharge (q x) (real (pos x)).
Definition place_of {B} (pos : B -> point) (x : B) : pt := real (pos x).

(** What the trees are: no deeper than the uniform levels and the recursion together. *)
Theorem C74_depth : forall A B (pos_s : A -> point) (pos_t : B -> point) q L same users zs zt order junk rw sm tm part_s part_t pp thr fuel rank_map S T,
  let d := domain_for pos_s pos_t same users order in
  (1 <= L <= 9)%Z -> well_posed pos_s pos_t zs zt same users -> ArraySpec.all_ranks (length users) order ->
  partition_contract part_s -> partition_contract part_t -> partition_point_contract pp -> (forall i, i < Z.to_nat (8 ^ L) -> rank_map i < length users) ->
  trees_built pos_s pos_t q L same users zs zt junk rw sm tm d part_s part_t pp thr fuel rank_map S T ->
  levels (Z.to_nat L + fuel) S /\ levels (Z.to_nat L + fuel) T /\
  Permutation (info S) (map (charge_of pos_s q) (all_sources users)) /\ Permutation (info T) (map (place_of pos_t) (all_targets users)).
Proof.
  intros A B pos_s pos_t q L same users zs zt order junk rw sm tm part_s part_t pp thr fuel rank_map S T d HL Hw Ho Ps Pt Pp Hm Ht.
  destruct (depth_ok pos_s pos_t q L HL same users zs zt Hw order Ho junk rw sm tm part_s part_t pp Ps Pt Pp thr fuel rank_map Hm S T Ht) as [D1 D2].
  destruct (info_ok pos_s pos_t q L HL same users zs zt Hw order Ho junk rw sm tm part_s part_t pp Ps Pt Pp thr fuel rank_map Hm S T Ht) as [I1 I2]. auto.
Qed.
Print Assumptions C74_depth.

(** The trees are built, from some depth of the recursion on, if no more records than the
    threshold share a place. *)
Theorem C74_built : forall A B (pos_s : A -> point) (pos_t : B -> point) q L same users zs zt order junk rw sm tm part_s part_t pp thr rank_map,
  let d := domain_for pos_s pos_t same users order in let srcs := all_sources users in let tgts := all_targets users in
  (1 <= L <= 9)%Z -> well_posed pos_s pos_t zs zt same users -> ArraySpec.all_ranks (length users) order ->
  partition_contract part_s -> partition_contract part_t -> partition_point_contract pp ->
  (forall x, In x srcs -> length (filter (same_place pos_s x) srcs) <= thr) -> (forall x, In x tgts -> length (filter (same_place pos_t x) tgts) <= thr) ->
  exists depth, forall fuel, depth <= fuel -> exists S T, trees_built pos_s pos_t q L same users zs zt junk rw sm tm d part_s part_t pp thr fuel rank_map S T.
Proof.
  intros A B pos_s pos_t q L same users zs zt order junk rw sm tm part_s part_t pp thr rank_map d srcs tgts HL Hw Ho Ps Pt Pp Ts Tt.
  destruct (domain_ok pos_s pos_t same users zs zt Hw order Ho) as (Hd & Pls & Plt). destruct Hw as (Nes & Net & _ & _ & Zs & Zt & Hsm & _). apply trees_exist; assumption.
Qed.
Print Assumptions C74_built.

(** The adaptive FMM: whoever holds which records, and whatever the schedule, each target
    gains the potential of all the users' charges but those at its place, up to the truncation
    error of one expansion of all of them in a box of the smallest size. *)
Theorem C74_fmm : forall A B (pos_s : A -> point) (pos_t : B -> point) q L same users zs zt order junk rw sm tm part_s part_t pp thr fuel rank_map S T p tb h g,
  let d := domain_for pos_s pos_t same users order in let charges := map (charge_of pos_s q) (all_sources users) in
  (1 <= L <= 9)%Z -> well_posed pos_s pos_t zs zt same users -> ArraySpec.all_ranks (length users) order ->
  partition_contract part_s -> partition_contract part_t -> partition_point_contract pp -> (forall i, i < Z.to_nat (8 ^ L) -> rank_map i < length users) ->
  trees_built pos_s pos_t q L same users zs zt junk rw sm tm d part_s part_t pp thr fuel rank_map S T ->
  levels h S -> levels h T -> clear_points d h (all_points pos_s pos_t users) -> h < g -> 1 <= p -> table_of_order p = Ok tb ->
  exists ss tt, create_dag (fmm g) (Z.to_nat L) same g S T = Ok (ss, tt) /\
    each_target T (ss ++ tt) (map (place_of pos_t) (all_targets users)) /\
    delivers (edge_value tb (real (dlow d)) (Q2R (dsize d)) (records T)) (leaf_value S) (records T) (ss ++ tt) charges
      (total_charge charges / side (Q2R (dsize d)) (Z.of_nat h) * ((sqrt 3 / 2) ^ (p + 1) / (2 - sqrt 3)))%R.
Proof.
  intros A B pos_s pos_t q L same users zs zt order junk rw sm tm part_s part_t pp thr fuel rank_map S T p tb h g d charges HL Hw Ho Ps Pt Pp Hm Ht LS LT Cl Hg Hp Etb.
  destruct (info_ok pos_s pos_t q L HL same users zs zt Hw order Ho junk rw sm tm part_s part_t pp Ps Pt Pp thr fuel rank_map Hm S T Ht) as [I1 I2].
  destruct (usable_ok pos_s pos_t q L HL same users zs zt Hw order Ho junk rw sm tm part_s part_t pp Ps Pt Pp thr fuel rank_map Hm S T Ht g h LS LT Hg) as (U & _ & GT).
  destruct (scene_ok pos_s pos_t q L HL same users zs zt Hw order Ho junk rw sm tm part_s part_t pp Ps Pt Pp thr fuel rank_map Hm S T Ht h LS LT Cl) as (Hd & Sc).
  destruct (C65_fmm p tb _ _ S T _ same g h Hp Etb Hd U Sc LS LT) as (ss & tt & Hc & _ & D). exists ss, tt. split; [exact Hc|].
  destruct (C38_fmm _ _ _ same g S T U) as (ss' & tt' & Hc' & G & _). rewrite Hc in Hc'. injection Hc' as <- <-. split; [exact (every_target S T _ _ G GT I2)|].
  rewrite (total_perm _ _ I1) in D. exact (delivers_perm _ _ _ _ _ _ _ _ _ _ I1 D).
Qed.
Print Assumptions C74_fmm.

(** The same with FMM97, up to the error of the quadrature or that of truncating one
    expansion, whichever is larger. *)
Theorem C74_fmm97 : forall A B (pos_s : A -> point) (pos_t : B -> point) q L same users zs zt order junk rw sm tm part_s part_t pp thr fuel rank_map S T n tb wt eps h g,
  let d := domain_for pos_s pos_t same users order in let charges := map (charge_of pos_s q) (all_sources users) in
  (1 <= L <= 9)%Z -> well_posed pos_s pos_t zs zt same users -> ArraySpec.all_ranks (length users) order ->
  partition_contract part_s -> partition_contract part_t -> partition_point_contract pp -> (forall i, i < Z.to_nat (8 ^ L) -> rank_map i < length users) ->
  trees_built pos_s pos_t q L same users zs zt junk rw sm tm d part_s part_t pp thr fuel rank_map S T ->
  levels h S -> levels h T -> clear_points d h (all_points pos_s pos_t users) -> h < g ->
  laplace_table n = Ok tb -> wave_table n = Ok wt -> accurate (w_q wt) (tb_p tb) eps ->
  exists ss tt, create_dag (fmm97 g) (Z.to_nat L) same g S T = Ok (ss, tt) /\
    each_target T (ss ++ tt) (map (place_of pos_t) (all_targets users)) /\
    delivers97 (edge_value97 tb wt (real (dlow d)) (Q2R (dsize d)) (records T)) (leaf_value97 S) (records T) (ss ++ tt) charges
      (total_charge charges / side (Q2R (dsize d)) (Z.of_nat h) * Rmax eps ((sqrt 3 / 3) ^ (tb_p tb + 1) * 2 / (3 - sqrt 3)))%R.
Proof.
  intros A B pos_s pos_t q L same users zs zt order junk rw sm tm part_s part_t pp thr fuel rank_map S T n tb wt eps h g d charges HL Hw Ho Ps Pt Pp Hm Ht LS LT Cl Hg Etb Ewt Ha.
  destruct (info_ok pos_s pos_t q L HL same users zs zt Hw order Ho junk rw sm tm part_s part_t pp Ps Pt Pp thr fuel rank_map Hm S T Ht) as [I1 I2].
  destruct (usable_ok pos_s pos_t q L HL same users zs zt Hw order Ho junk rw sm tm part_s part_t pp Ps Pt Pp thr fuel rank_map Hm S T Ht g h LS LT Hg) as (U & _ & GT).
  destruct (scene_ok pos_s pos_t q L HL same users zs zt Hw order Ho junk rw sm tm part_s part_t pp Ps Pt Pp thr fuel rank_map Hm S T Ht h LS LT Cl) as (Hd & Sc).
  destruct (C72_fmm97 n tb wt _ _ S T _ same g h eps Etb Ewt Hd Ha U Sc LS LT) as (ss & tt & Hc & _ & D). exists ss, tt. split; [exact Hc|].
  destruct (C39_fmm97 _ _ _ same g S T U) as (ss' & tt' & Hc' & G & _). rewrite Hc in Hc'. injection Hc' as <- <-. split; [exact (every_target S T _ _ G GT I2)|].
  rewrite (total_perm _ _ I1) in D. exact (delivers_perm _ _ _ _ _ _ _ _ _ _ I1 D).
Qed.
Print Assumptions C74_fmm97.

(** Direct summation: exactly, wherever the records are. *)
Theorem C74_direct : forall A B (pos_s : A -> point) (pos_t : B -> point) q L same users zs zt order junk rw sm tm part_s part_t pp thr fuel rank_map S T tb h g,
  let d := domain_for pos_s pos_t same users order in let charges := map (charge_of pos_s q) (all_sources users) in
  (1 <= L <= 9)%Z -> well_posed pos_s pos_t zs zt same users -> ArraySpec.all_ranks (length users) order ->
  partition_contract part_s -> partition_contract part_t -> partition_point_contract pp -> (forall i, i < Z.to_nat (8 ^ L) -> rank_map i < length users) ->
  trees_built pos_s pos_t q L same users zs zt junk rw sm tm d part_s part_t pp thr fuel rank_map S T ->
  levels h S -> levels h T -> h < g ->
  exists ss tt, create_dag (direct g) (Z.to_nat L) same g S T = Ok (ss, tt) /\
    each_target T (ss ++ tt) (map (place_of pos_t) (all_targets users)) /\
    delivers (edge_value tb (real (dlow d)) (Q2R (dsize d)) (records T)) (leaf_value S) (records T) (ss ++ tt) charges 0%R.
Proof.
  intros A B pos_s pos_t q L same users zs zt order junk rw sm tm part_s part_t pp thr fuel rank_map S T tb h g d charges HL Hw Ho Ps Pt Pp Hm Ht LS LT Hg.
  destruct (info_ok pos_s pos_t q L HL same users zs zt Hw order Ho junk rw sm tm part_s part_t pp Ps Pt Pp thr fuel rank_map Hm S T Ht) as [I1 I2].
  destruct (usable_ok pos_s pos_t q L HL same users zs zt Hw order Ho junk rw sm tm part_s part_t pp Ps Pt Pp thr fuel rank_map Hm S T Ht g h LS LT Hg) as (U & GS & GT).
  destruct (C66_direct tb (real (dlow d)) (Q2R (dsize d)) S T _ same g U GS GT) as (ss & tt & Hc & _ & D). exists ss, tt. split; [exact Hc|].
  destruct (C35_direct _ _ _ same g S T U) as (ss' & tt' & Hc' & G & _). rewrite Hc in Hc'. injection Hc' as <- <-. split; [exact (every_target S T _ _ G GT I2)|].
  exact (delivers_perm _ _ _ _ _ _ _ _ _ _ I1 D).
Qed.
Print Assumptions C74_direct.

(** Barnes-Hut, if every accepted source box is seen from the targets under an angle of at
    most [theta]. *)
Theorem C74_barnes_hut : forall A B (pos_s : A -> point) (pos_t : B -> point) q L same users zs zt order junk rw sm tm part_s part_t pp thr fuel rank_map S T p tb accept theta h g,
  let d := domain_for pos_s pos_t same users order in let charges := map (charge_of pos_s q) (all_sources users) in
  (1 <= L <= 9)%Z -> well_posed pos_s pos_t zs zt same users -> ArraySpec.all_ranks (length users) order ->
  partition_contract part_s -> partition_contract part_t -> partition_point_contract pp -> (forall i, i < Z.to_nat (8 ^ L) -> rank_map i < length users) ->
  trees_built pos_s pos_t q L same users zs zt junk rw sm tm d part_s part_t pp thr fuel rank_map S T ->
  levels h S -> levels h T -> clear_points d h (all_points pos_s pos_t users) -> h < g -> 1 <= p -> table_of_order p = Ok tb -> (0 < theta < 2 / sqrt 3)%R ->
  (forall c b t, accept c b = true -> In t (records T b) -> side (Q2R (dsize d)) (Z.of_nat (length c)) <= theta * dist (middle (real (dlow d)) (Q2R (dsize d)) (idx_of c)) t)%R ->
  exists ss tt, create_dag (bh accept g) (Z.to_nat L) same g S T = Ok (ss, tt) /\
    each_target T (ss ++ tt) (map (place_of pos_t) (all_targets users)) /\
    delivers (edge_value tb (real (dlow d)) (Q2R (dsize d)) (records T)) (leaf_value S) (records T) (ss ++ tt) charges
      (total_charge charges / side (Q2R (dsize d)) (Z.of_nat h) * ((sqrt 3 / 2 * theta) ^ (p + 1) / (1 / theta - sqrt 3 / 2)))%R.
Proof.
  intros A B pos_s pos_t q L same users zs zt order junk rw sm tm part_s part_t pp thr fuel rank_map S T p tb accept theta h g d charges HL Hw Ho Ps Pt Pp Hm Ht LS LT Cl Hg Hp Etb Hth Hacc.
  destruct (info_ok pos_s pos_t q L HL same users zs zt Hw order Ho junk rw sm tm part_s part_t pp Ps Pt Pp thr fuel rank_map Hm S T Ht) as [I1 I2].
  destruct (usable_ok pos_s pos_t q L HL same users zs zt Hw order Ho junk rw sm tm part_s part_t pp Ps Pt Pp thr fuel rank_map Hm S T Ht g h LS LT Hg) as (U & _ & GT).
  destruct (scene_ok pos_s pos_t q L HL same users zs zt Hw order Ho junk rw sm tm part_s part_t pp Ps Pt Pp thr fuel rank_map Hm S T Ht h LS LT Cl) as (Hd & Sc).
  destruct (C66_barnes_hut p tb _ _ S T accept theta _ same g h Hp Etb Hd U Sc LS Hth Hacc) as (ss & tt & Hc & _ & D). exists ss, tt. split; [exact Hc|].
  pose proof U as (H1 & H2 & H3 & H4 & H5 & H6). destruct (bh_dag S T _ g same H1 H2 H3 H4 H5 H6 accept) as (ss' & tt' & Hc' & G & _). rewrite Hc in Hc'. injection Hc' as <- <-. split; [exact (every_target S T _ _ G GT I2)|].
  rewrite (total_perm _ _ I1) in D. exact (delivers_perm _ _ _ _ _ _ _ _ _ _ I1 D).
Qed.
Print Assumptions C74_barnes_hut.

(** Two ranks with ten sources and five targets in the unit cube. *)
Definition ru_pos (r : Z * Z) : point := mkP (inject_Z (fst r) / 8) (inject_Z (snd r) / 8) (inject_Z (fst r) / 8).
Definition ru_q (r : Z * Z) : R := IZR (fst r - 3).
Definition ru_users : list (list (Z * Z) * list (Z * Z)) :=
  [([(0, 0); (7, 2); (5, 0); (1, 6); (6, 3)]%Z, [(4, 3); (1, 2)]%Z); ([(2, 5); (8, 8); (4, 0); (5, 0); (3, 4)]%Z, [(7, 4); (0, 8); (3, 0)]%Z)].
Definition ru_order : otree := ONode (OLeaf 1) (OLeaf 0).
Definition ru_dom := domain_for ru_pos ru_pos false ru_users ru_order.
Definition ru_map (i : nat) : nat := if Nat.odd i then 1 else 0.
Definition ru_part (i : index) (c : nat) (f : Z * Z -> bool) (l : list (Z * Z)) := (filter f l, filter (fun x => negb (f x)) l).
Definition ru_pp (f : Z * Z -> bool) (l : list (Z * Z)) : nat := length (filter f l).
Definition ru_low (a : RefineModel.axis) (i : index) (r : Z * Z) : bool := below_centre ru_dom a i (ru_pos r).
Definition ru_locals := match mapM (sort_local_points _ _ ru_pos ru_pos ru_dom 1 false) ru_users with Ok l => l | _ => [] end.
Definition ru_sum := RNode (RLeaf (local_counts _ _ (nth 1 ru_locals (mkSorted [] [] [], mkSorted [] [] [])))) (RLeaf (local_counts _ _ (nth 0 ru_locals (mkSorted [] [] [], mkSorted [] [] [])))).
Definition ru_unif := match reduce int_sum_op (int_sum_ident 16) ru_sum with Ok u => u | _ => [] end.
Definition ru_log me := match arrivals _ _ 1 false two_bytes two_bytes (fun _ _ => 255%Z) 4096 1 2 ru_map ru_locals me with Ok l => l | _ => [] end.
Definition ru_rank gc (pick : sorted (Z * Z) * sorted (Z * Z) -> sorted (Z * Z)) (to : list (event (Z * Z) (Z * Z)) -> list (nat * list (Z * Z))) me : list (Z * Z) * list (nat * tree rnode) :=
  match nth_error ru_locals me with
  | Some l =>
      match (do mem <- segment 8 ru_map me gc (pick l) (repeat (0, 0)%Z (num_points 8 ru_map me gc)) (to (ru_log me));
             partition_branches ru_low ru_part 2 2 (grid_index 1) 8 ru_map me gc mem) with
      | Ok r => r
      | Fail _ => ([], [])
      end
  | None => ([], [])
  end.
Definition ru_sources := map (ru_rank (count_src ru_unif) fst to_sources) [0; 1].
Definition ru_targets := map (ru_rank (count_tar 1 ru_unif) snd to_targets) [0; 1].
Definition ru_S := tree_map (charge_of ru_pos ru_q) (whole 1 ru_map ru_sources).
Definition ru_T := tree_map (place_of ru_pos) (whole 1 ru_map ru_targets).

Lemma ru_part_ok : partition_contract ru_part.
Proof.
  intros i c f l. unfold ru_part. split; [|split].
  - induction l as [|x l IH]; [reflexivity|]. cbn [filter]. destruct (f x); cbn [negb app]; [apply perm_skip; assumption|]. rewrite <- Permutation_middle. apply perm_skip. assumption.
  - intros r Hr. apply filter_In in Hr. apply Hr.
  - intros r Hr. apply filter_In in Hr. destruct Hr as [_ Hr]. destruct (f r); [discriminate|reflexivity].
Qed.
Lemma ru_pp_ok : partition_point_contract ru_pp.
Proof. intros f a b Ha Hb. unfold ru_pp. rewrite filter_app, app_length, (filter_all _ f a Ha), (proj2 (filter_none _ f b) Hb). cbn. lia. Qed.
Lemma ru_posed : well_posed ru_pos ru_pos two_bytes two_bytes false ru_users.
Proof.
  split; [discriminate|]. split; [discriminate|]. split; [vm_compute; reflexivity|]. split; [vm_compute; reflexivity|]. split; [apply List.Forall_forall; intros x _; apply two_bytes_ok|]. split; [intros _; apply List.Forall_forall; intros x _; apply two_bytes_ok|]. split; [discriminate|]. split.
  - intros x a Hx. cbn in Hx. repeat (destruct Hx as [<-|Hx]; [destruct a; vm_compute; split; discriminate|]). contradiction.
  - exists (ru_pos (0, 0)%Z), (ru_pos (1, 6)%Z), RefineModel.AX. split; [cbn; tauto|]. split; [cbn; tauto|]. vm_compute. reflexivity.
Qed.
Lemma ru_built : trees_built ru_pos ru_pos ru_q 1 false ru_users two_bytes two_bytes (fun _ _ => 255%Z) 4096 1 2 ru_dom ru_part ru_part ru_pp 2 2 ru_map ru_S ru_T.
Proof.
  exists ru_locals, ru_unif, ru_sources. split; [split; [vm_compute; reflexivity|]; exists ru_sum; split; [vm_compute; apply perm_swap|vm_compute; reflexivity]|]. split; [|split; [reflexivity|exists ru_targets; split; [|reflexivity]]].
  - split; [vm_compute; reflexivity|]. intros [|[|me]] r Er; [| |destruct me; discriminate Er].
    + exists (nth 0 ru_locals (mkSorted [] [] [], mkSorted [] [] [])), (ru_log 0). split; [vm_compute; reflexivity|]. split; [vm_compute; reflexivity|]. exists (to_sources (ru_log 0)), (repeat (0, 0)%Z 4). eexists. split; [apply Permutation_refl|]. split; [vm_compute; reflexivity|]. split; [vm_compute; reflexivity|]. revert Er. vm_compute. intros Er. injection Er as <-. reflexivity.
    + exists (nth 1 ru_locals (mkSorted [] [] [], mkSorted [] [] [])), (ru_log 1). split; [vm_compute; reflexivity|]. split; [vm_compute; reflexivity|]. exists (to_sources (ru_log 1)), (repeat (0, 0)%Z 6). eexists. split; [apply Permutation_refl|]. split; [vm_compute; reflexivity|]. split; [vm_compute; reflexivity|]. revert Er. vm_compute. intros Er. injection Er as <-. reflexivity.
  - split; [vm_compute; reflexivity|]. intros [|[|me]] r Er; [| |destruct me; discriminate Er].
    + exists (nth 0 ru_locals (mkSorted [] [] [], mkSorted [] [] [])), (ru_log 0). split; [vm_compute; reflexivity|]. split; [vm_compute; reflexivity|]. exists (to_targets (ru_log 0)), (repeat (0, 0)%Z 3). eexists. split; [apply Permutation_refl|]. split; [vm_compute; reflexivity|]. split; [vm_compute; reflexivity|]. revert Er. vm_compute. intros Er. injection Er as <-. reflexivity.
    + exists (nth 1 ru_locals (mkSorted [] [] [], mkSorted [] [] [])), (ru_log 1). split; [vm_compute; reflexivity|]. split; [vm_compute; reflexivity|]. exists (to_targets (ru_log 1)), (repeat (0, 0)%Z 2). eexists. split; [apply Permutation_refl|]. split; [vm_compute; reflexivity|]. split; [vm_compute; reflexivity|]. revert Er. vm_compute. intros Er. injection Er as <-. reflexivity.
Qed.

Open Scope R_scope.
(** Points whose coordinates differ by sixteenths are regular unless they are the same. *)
Lemma ru_regular c x A B C : LapModel.px x - LapModel.px c = IZR A / 16 -> LapModel.py x - LapModel.py c = IZR B / 16 -> LapModel.pz x - LapModel.pz c = IZR C / 16 ->
  (Z.abs A <= 16)%Z -> (Z.abs B <= 16)%Z -> (Z.abs C <= 16)%Z -> (A <> 0 \/ B <> 0 \/ C <> 0)%Z -> regular c x.
Proof.
  intros Ea Eb Ec La Lb Lc N. unfold regular, off_axis, dist.
  replace ((LapModel.px c - LapModel.px x) ^ 2) with ((LapModel.px x - LapModel.px c) ^ 2) by ring. replace ((LapModel.py c - LapModel.py x) ^ 2) with ((LapModel.py x - LapModel.py c) ^ 2) by ring. replace ((LapModel.pz c - LapModel.pz x) ^ 2) with ((LapModel.pz x - LapModel.pz c) ^ 2) by ring. rewrite Ea, Eb, Ec.
  set (u := (A * A + B * B)%Z). set (v := (u + C * C)%Z). replace ((IZR A / 16) ^ 2 + (IZR B / 16) ^ 2) with (IZR u / 256) by (unfold u; rewrite plus_IZR, !mult_IZR; field).
  replace (IZR u / 256 + (IZR C / 16) ^ 2) with (IZR v / 256) by (unfold v; rewrite plus_IZR, mult_IZR; field).
  assert (Hu : (0 <= u)%Z) by (unfold u; nia). assert (Hv : (1 <= v <= 768)%Z) by (unfold v, u; nia).
  assert (Ty : / 10 ^ 14 < 1 / 100) by (replace (1 / 100) with (/ 10 ^ 2) by lra; apply Rinv_lt_contravar; [apply Rmult_lt_0_compat; apply pow_lt; lra|apply Rlt_pow; [lra|lia]]).
  assert (Tp : 0 < / 10 ^ 14) by (apply Rinv_0_lt_compat, pow_lt; lra).
  assert (Low : forall z, (1 <= z)%Z -> 1 / 16 <= sqrt (IZR z / 256)) by (intros z Hz; rewrite <- (sqrt_square (1 / 16)) by lra; apply sqrt_le_1_alt; apply IZR_le in Hz; lra).
  assert (Up : sqrt (IZR v / 256) <= 2) by (rewrite <- (sqrt_square 2) by lra; apply sqrt_le_1_alt; destruct Hv as [_ Hv]; apply IZR_le in Hv; lra).
  split; [specialize (Low v ltac:(lia)); lra|]. destruct (Z.eq_dec u 0) as [E|E]; [left; rewrite E; replace (0 / 256) with 0 by lra; apply sqrt_0|right]. specialize (Low u ltac:(lia)). nra.
Qed.
Lemma ru_corner : real (dlow ru_dom) = mkPt 0 0 0 /\ Q2R (dsize ru_dom) = 1.
Proof.
  assert (E : ru_dom = mkD (mkP (0 # 8192) (0 # 8192) (0 # 8192)) (64 # 64)) by (vm_compute; reflexivity). rewrite E. unfold real, Q2R. cbn. split; [f_equal; lra|lra].
Qed.
Lemma ru_point a b i : (0 <= a <= 8)%Z -> (0 <= b <= 8)%Z -> in_grid i -> (ilevel i <= 3)%Z -> (forall m k k', In m [1; 2; 4; 8] -> 2 * a = m * (2 * k + 1) -> 2 * b = m * (2 * k' + 1) -> False)%Z ->
  regular (middle (mkPt 0 0 0) 1 i) (real (ru_pos (a, b))).
Proof.
  intros Ha Hb (L0 & Gx & Gy & Gz) Hl H. assert (M : exists m, In m [1; 2; 4; 8]%Z /\ side 1 (ilevel i) = IZR m / 8 /\ (m * 2 ^ ilevel i = 8)%Z).
  { assert (C : (ilevel i = 0 \/ ilevel i = 1 \/ ilevel i = 2 \/ ilevel i = 3)%Z) by lia. unfold side. destruct C as [->|[->|[->| ->]]]; [exists 8%Z|exists 4%Z|exists 2%Z|exists 1%Z]; (split; [cbn; tauto|]); (split; [simpl powerRZ; lra|reflexivity]). }
  destruct M as (m & Im & Es & Em). assert (Hm : (1 <= m <= 8)%Z) by (destruct Im as [<-|[<-|[<-|[<-|[]]]]]; lia). specialize (H m).
  assert (Qa : forall z, Q2R (inject_Z z / 8) = IZR z / 8) by (intros z; rewrite Q2R_div by discriminate; rewrite Q2R_Z; replace (Q2R 8) with 8 by (unfold Q2R; cbn; lra); reflexivity).
  unfold middle. rewrite Es. apply (ru_regular _ _ (2 * a - m * (2 * ix i + 1)) (2 * b - m * (2 * iy i + 1)) (2 * a - m * (2 * iz i + 1))%Z); cbn [LapModel.px LapModel.py LapModel.pz real ru_pos coord GeomModel.px GeomModel.py GeomModel.pz fst snd]; rewrite ?Qa; try (rewrite minus_IZR, !mult_IZR, plus_IZR, mult_IZR; field).
  - nia.
  - nia.
  - nia.
  - destruct (Z.eq_dec (2 * a - m * (2 * ix i + 1)) 0) as [E1|E1]; [|left; exact E1]. destruct (Z.eq_dec (2 * b - m * (2 * iy i + 1)) 0) as [E2|E2]; [|right; left; exact E2]. exfalso. apply (H (ix i) (iy i) Im); lia.
Qed.
Lemma ru_clear : clear_points ru_dom 3 (all_points ru_pos ru_pos ru_users).
Proof.
  intros x i Hx G Hl. destruct ru_corner as [-> ->]. unfold all_points, all_sources, all_targets in Hx. rewrite <- map_app in Hx. apply in_map_iff in Hx. destruct Hx as ([a b] & <- & Hx). cbn [map fst snd concat app ru_users] in Hx.
  repeat (destruct Hx as [E|Hx]; [injection E as <- <-; apply ru_point; [lia|lia|exact G|exact Hl|]; intros m k k' Im; cbn in Im; destruct Im as [<-|[<-|[<-|[<-|[]]]]]; lia|]). contradiction.
Qed.

Example C74_nonvacuous :
  well_posed ru_pos ru_pos two_bytes two_bytes false ru_users /\ ArraySpec.all_ranks (length ru_users) ru_order /\ partition_contract ru_part /\ partition_point_contract ru_pp /\
  (forall i, (i < 8)%nat -> (ru_map i < length ru_users)%nat) /\
  trees_built ru_pos ru_pos ru_q 1 false ru_users two_bytes two_bytes (fun _ _ => 255%Z) 4096 1 2 ru_dom ru_part ru_part ru_pp 2 2 ru_map ru_S ru_T /\
  clear_points ru_dom 3 (all_points ru_pos ru_pos ru_users) /\ levels 3 ru_S /\ levels 3 ru_T /\ (sub ru_S [5; 0; 5] <> None)%nat /\
  (forall x, In x (all_sources ru_users) -> (length (filter (same_place ru_pos x) (all_sources ru_users)) <= 2)%nat).
Proof.
  assert (Hm : forall i, (i < 8)%nat -> (ru_map i < length ru_users)%nat) by (intros i _; unfold ru_map; destruct (Nat.odd i); cbn; lia). assert (Ho : ArraySpec.all_ranks (length ru_users) ru_order) by (apply perm_swap).
  destruct (C74_depth _ _ ru_pos ru_pos ru_q 1 false ru_users two_bytes two_bytes ru_order (fun _ _ => 255%Z) 4096 1 2 ru_part ru_part ru_pp 2 2 ru_map ru_S ru_T ltac:(lia) ru_posed Ho ru_part_ok ru_part_ok ru_pp_ok Hm ru_built) as (D1 & D2 & _).
  split; [exact ru_posed|]. split; [exact Ho|]. split; [exact ru_part_ok|]. split; [exact ru_pp_ok|]. split; [exact Hm|]. split; [exact ru_built|]. split; [exact ru_clear|]. split; [exact D1|]. split; [exact D2|]. split.
  - unfold ru_S. rewrite map_sub. intros C. assert (E : match sub (whole 1 ru_map ru_sources) [5; 0; 5]%nat with Some _ => true | None => false end = true) by (vm_compute; reflexivity). destruct (sub (whole 1 ru_map ru_sources) [5; 0; 5]%nat); discriminate.
  - intros x Hx. cbn in Hx. repeat (destruct Hx as [<-|Hx]; [vm_compute; lia|]). contradiction.
Qed.
