From Coq Require Import ZArith QArith List Bool Arith Lia Permutation.
From Verif Require Import Base ListFacts IndexModel IndexSpec GridSpec GridProofs ArrayModel TreeModel RefineModel RefineSpec RefineProps GeomModel GeomSpec GeomProofs
  GroupModel GroupSpec GroupProofs GroupProps ReduceModel ReduceSpec ReduceProofs ReduceProps MessageModel MessageSpec ExchangeModel ExchangeSpec ExchangeProofs ExchangeProps
  MergeModel MergeSpec MergeProofs MergeProps BuildModel BuildSpec.
Import ListNotations.
Open Scope nat_scope.

(** ** Lists split by a key *)
Lemma of_cell_app : forall X (cell : X -> nat) i a b, of_cell cell i (a ++ b) = of_cell cell i a ++ of_cell cell i b.
Proof. intros. apply filter_app. Qed.
Lemma of_cell_concat : forall X (cell : X -> nat) i ls, of_cell cell i (concat ls) = concat (map (of_cell cell i) ls).
Proof. intros. induction ls as [|l ls IH]; [reflexivity|]. cbn [concat map]. rewrite of_cell_app, IH. reflexivity. Qed.

Lemma split_keys : forall X (key : X -> nat) (l : list X) ks, NoDup ks ->
  Permutation (concat (map (fun k => of_cell key k l) ks)) (filter (fun x => existsb (Nat.eqb (key x)) ks) l).
Proof.
  intros X key l ks. induction ks as [|k ks IH]; intros N; cbn [map concat existsb].
  - clear N. induction l; [reflexivity|assumption].
  - inversion N as [|? ? Hk N' E]; subst. rewrite IH by assumption. clear IH N N'. unfold of_cell. induction l as [|x l IH]; [reflexivity|]. cbn [filter].
    destruct (Nat.eqb_spec (key x) k) as [Ek|Ek]; cbn [orb].
    + assert (F : existsb (Nat.eqb (key x)) ks = false).
      { destruct (existsb (Nat.eqb (key x)) ks) eqn:F; [|reflexivity]. apply existsb_exists in F. destruct F as (j & Hj & Ej). apply Nat.eqb_eq in Ej. congruence. }
      rewrite F. cbn [app]. apply perm_skip. assumption.
    + destruct (existsb _ ks); [|assumption]. rewrite <- Permutation_middle. apply perm_skip. assumption.
Qed.

Lemma filter_ext_in' : forall X (f g : X -> bool) l, (forall x, In x l -> f x = g x) -> filter f l = filter g l.
Proof. intros. apply filter_ext_in. assumption. Qed.

(** ** One tree's records on one rank *)
Definition cell_at {X} (pos : X -> point) (d : domain) (L : Z) (x : X) : nat := Z.to_nat (slot_of (index_of d L (pos x)) L).

Record sort_facts {X} (cell : X -> nat) (dim3 : nat) (grp : bool) (recs : list X) (s : sorted X) : Prop := {
  sf_len : length (s_count s) = dim3;
  sf_count : forall i, i < dim3 -> nth i (s_count s) 0%Z = Z.of_nat (length (of_cell cell i recs));
  sf_perm : Permutation (s_recs s) recs;
  sf_fits : grp = true -> forall i, i < dim3 -> ints (s_offset s) i + ints (s_count s) i <= length (s_recs s);
  sf_batch : grp = true -> forall i, i < dim3 -> cell_batch (ints (s_count s)) (ints (s_offset s)) (s_recs s) i = of_cell cell i recs }.

Lemma cell_records_filter : forall X (cell : X -> nat) recs i, cell_records recs (map (fun x => Z.of_nat (cell x)) recs) (Z.of_nat i) = of_cell cell i recs.
Proof.
  intros X cell recs i. unfold cell_records, of_cell. induction recs as [|x l IH]; [reflexivity|]. cbn [map combine filter snd].
  destruct (Nat.eqb_spec (cell x) i), (Z.eqb_spec (Z.of_nat (cell x)) (Z.of_nat i)); try lia; cbn [map fst]; rewrite IH; reflexivity.
Qed.
Lemma count_occ_cell : forall X (cell : X -> nat) recs i, count_occ Z.eq_dec (map (fun x => Z.of_nat (cell x)) recs) (Z.of_nat i) = length (of_cell cell i recs).
Proof.
  intros X cell recs i. unfold of_cell. induction recs as [|x l IH]; [reflexivity|]. cbn [map filter count_occ].
  destruct (Nat.eqb_spec (cell x) i), (Z.eq_dec (Z.of_nat (cell x)) (Z.of_nat i)); try lia; cbn [length]; rewrite IH; reflexivity.
Qed.
Lemma grouped_prefix : forall X (p : list X) gid a b, a <= b -> exists post, grouped p gid b = grouped p gid a ++ post.
Proof.
  intros X p gid a b H. induction H as [|b H (post & E)]; [exists []; rewrite app_nil_r; reflexivity|]. cbn [grouped]. rewrite E, <- app_assoc. eexists. reflexivity.
Qed.

Lemma sort_ok : forall X (pos : X -> point) d L grp recs, (0 < dsize d)%Q -> (0 <= L <= 10)%Z -> (forall x, In x recs -> in_domain d (pos x)) ->
  exists s, sort_tree pos d L grp recs = Ok s /\ sort_facts (cell_at pos d L) (Z.to_nat (8 ^ L)) grp recs s.
Proof.
  intros X pos d L grp recs Hs HL HD. set (dim3 := Z.to_nat (8 ^ L)). set (cell := cell_at pos d L). set (gid := map (fun x => Z.of_nat (cell x)) recs).
  assert (P8 : (0 < 8 ^ L)%Z) by (apply Z.pow_pos_nonneg; lia).
  assert (Ed : (8 ^ L)%Z = Z.of_nat dim3) by (unfold dim3; lia).
  assert (Bd : forall x, In x recs -> (0 <= slot_of (index_of d L (pos x)) L < 8 ^ L)%Z).
  { intros x Hx. destruct (box_exists d Hs L (pos x) (proj1 HL) (HD x Hx)) as [G _]. rewrite (pow8 L (proj1 HL)). exact (slot_bounds (index_of d L (pos x)) L (proj1 HL) eq_refl G). }
  assert (Eg : map (fun p => slot_of (index_of d L p) L) (map pos recs) = gid).
  { rewrite map_map. apply map_ext_in. intros x Hx. specialize (Bd x Hx). unfold cell, cell_at. lia. }
  assert (El : Z.of_nat (length (repeat 0%Z (Z.to_nat (8 ^ L)))) = (8 ^ L)%Z) by (rewrite repeat_length; lia).
  assert (HD' : forall p, In p (map pos recs) -> in_domain d p) by (intros p Hp; apply in_map_iff in Hp; destruct Hp as (x & <- & Hx); auto).
  pose proof (assign_ok d Hs L HL (map pos recs) _ HD' El) as Ea. cbv zeta in Ea. rewrite Eg in Ea. fold dim3 in Ea.
  set (count := tally (repeat 0%Z dim3) gid) in *.
  assert (Lc : length count = dim3) by (unfold count, tally; rewrite map_length, seq_length, repeat_length; reflexivity).
  assert (Nc : forall c, c < dim3 -> nth_error count c = Some (Z.of_nat (count_occ Z.eq_dec gid (Z.of_nat c)))).
  { intros c Hc. unfold count, tally. rewrite nth_error_map_seq by (rewrite repeat_length; assumption). rewrite nth_repeat_lt by assumption. reflexivity. }
  assert (Nn : forall i, i < dim3 -> nth i count 0%Z = Z.of_nat (length (of_cell cell i recs))).
  { intros i Hi. rewrite (nth_error_nth _ _ _ (Nc i Hi)). unfold gid. rewrite count_occ_cell. reflexivity. }
  unfold sort_tree. fold dim3. rewrite Ea. cbn [bind]. destruct grp.
  - assert (Lg : length recs = length gid) by (unfold gid; rewrite map_length; reflexivity).
    assert (Rg : Forall (fun g => (0 <= g < Z.of_nat dim3)%Z) gid).
    { apply Forall_forall. intros g Hg. unfold gid in Hg. apply in_map_iff in Hg. destruct Hg as (x & <- & Hx). specialize (Bd x Hx). unfold cell, cell_at. lia. }
    destruct (C12_group_stable X recs gid count dim3 Lg) as (off & E & Lo & No); [lia|assumption|assumption|].
    rewrite Ed, Lg, E. cbn [bind fst snd]. eexists. split; [reflexivity|].
    assert (Io : forall i, i < dim3 -> ints off i = length (grouped recs gid i)).
    { intros i Hi. unfold ints. rewrite (nth_error_nth _ _ _ (No i Hi)). lia. }
    assert (Ic : forall i, i < dim3 -> ints count i = length (of_cell cell i recs)) by (intros i Hi; unfold ints; rewrite Nn by assumption; lia).
    assert (Sp : forall i, i < dim3 -> exists post, grouped recs gid dim3 = grouped recs gid i ++ of_cell cell i recs ++ post).
    { intros i Hi. destruct (grouped_prefix X recs gid (S i) dim3) as (post & Ep); [lia|]. exists post. rewrite Ep. cbn [grouped]. unfold gid at 2. rewrite cell_records_filter, <- app_assoc. reflexivity. }
    constructor; cbn [s_recs s_count s_offset]; try assumption.
    + apply C12_group_permutation; assumption.
    + intros _ i Hi. rewrite Io, Ic by assumption. destruct (Sp i Hi) as (post & ->). rewrite !app_length. lia.
    + intros _ i Hi. unfold cell_batch. rewrite Io, Ic by assumption. destruct (Sp i Hi) as (post & ->). rewrite skipn_app, skipn_all, Nat.sub_diag. cbn [skipn app]. rewrite firstn_app, firstn_all, Nat.sub_diag. cbn [firstn]. apply app_nil_r.
  - eexists. split; [reflexivity|]. constructor; cbn [s_recs s_count s_offset]; try assumption; [reflexivity|discriminate|discriminate].
Qed.

(** ** Batches and arrivals *)
Lemma arrived_perm : forall X (e e' : list (nat * list X)) i, Permutation e e' -> Permutation (arrived e i) (arrived e' i).
Proof.
  intros X e e' i H. unfold arrived. induction H as [|[j b] l l' H IH|[j b] [k c] l|l l' l'' H1 IH1 H2 IH2]; [reflexivity| | |etransitivity; eassumption]; cbn [filter fst].
  - destruct (j =? i); [|assumption]. cbn [map concat snd]. apply Permutation_app_head. assumption.
  - destruct (j =? i), (k =? i); try reflexivity. cbn [map concat snd]. rewrite !app_assoc. apply Permutation_app_tail. apply Permutation_app_comm.
Qed.
Lemma arrived_nil_cells : forall X cnt off (recs : list X) l i, ~ In i l -> arrived (shipment cnt off recs l) i = [].
Proof.
  intros X cnt off recs l i. induction l as [|j l IH]; intros H; [reflexivity|]. unfold shipment in *. cbn [flat_map]. rewrite arrived_app, IH by (intro; apply H; right; assumption). rewrite app_nil_r.
  destruct (cnt j =? 0); [reflexivity|]. rewrite arrived_one. destruct (Nat.eqb_spec j i); [|reflexivity]. exfalso. apply H. left. assumption.
Qed.
Lemma arrived_shipment : forall X cnt off (recs : list X) l i, NoDup l -> In i l -> arrived (shipment cnt off recs l) i = cell_batch cnt off recs i.
Proof.
  intros X cnt off recs l i. induction l as [|j l IH]; intros N H; [contradiction|]. inversion N; subst. unfold shipment in *. cbn [flat_map]. rewrite arrived_app.
  destruct (Nat.eq_dec j i) as [->|Nj].
  - pose proof (arrived_nil_cells X cnt off recs l i H2) as Z. unfold shipment in Z. rewrite Z, app_nil_r. destruct (Nat.eqb_spec (cnt i) 0) as [E|E]; [unfold cell_batch; rewrite E; reflexivity|]. rewrite arrived_one, Nat.eqb_refl. reflexivity.
  - destruct H as [H|H]; [contradiction|]. rewrite IH by assumption. destruct (cnt j =? 0); [reflexivity|]. rewrite arrived_one, (proj2 (Nat.eqb_neq j i) Nj). reflexivity.
Qed.
Lemma arrived_flat : forall X E (f : E -> list (nat * list X)) l i, arrived (flat_map f l) i = flat_map (fun r => arrived (f r) i) l.
Proof. intros X E f l i. induction l as [|r l IH]; [reflexivity|]. cbn [flat_map]. rewrite arrived_app, IH. reflexivity. Qed.
Lemma cells_in : forall dim3 rank_map r i, In i (cells_of dim3 rank_map r) <-> i < dim3 /\ rank_map i = r.
Proof. intros. unfold cells_of. rewrite filter_In, in_seq, Nat.eqb_eq. lia. Qed.
Lemma cells_nodup : forall dim3 rank_map r, NoDup (cells_of dim3 rank_map r).
Proof. intros. apply NoDup_filter. apply seq_NoDup. Qed.

Lemma move_out : forall X (g : nat -> list X) l k, NoDup l -> In k l -> Permutation (g k ++ flat_map (fun r => if r =? k then [] else g r) l) (flat_map g l).
Proof.
  intros X g l k. induction l as [|j l IH]; intros N H; [contradiction|]. inversion N as [|? ? Hj N' E]; subst. cbn [flat_map].
  destruct (Nat.eqb_spec j k) as [->|Nj].
  - cbn [app]. apply Permutation_app_head. rewrite (flat_map_eq _ _ (fun r => if r =? k then [] else g r) g l); [reflexivity|].
    intros x Hx. destruct (Nat.eqb_spec x k); [subst; contradiction|reflexivity].
  - destruct H as [H|H]; [contradiction|]. rewrite <- (IH N' H). apply Permutation_app_swap_app.
Qed.
Lemma concat_seq : forall X (ls : list (list X)) (f : list X -> list X), flat_map (fun r => f (nth r ls [])) (seq 0 (length ls)) = concat (map f ls).
Proof.
  intros X ls f. rewrite flat_map_concat_map. f_equal. rewrite <- (map_map (fun r => nth r ls []) f). f_equal.
  apply nth_error_ext. intros k. destruct (Nat.lt_ge_cases k (length ls)) as [H|H].
  - rewrite nth_error_map_seq by assumption. symmetry. apply nth_error_nth'. assumption.
  - rewrite !(proj2 (nth_error_None _ _)); rewrite ?map_length, ?seq_length; [reflexivity|assumption|assumption].
Qed.

(** ** The segment of one rank *)
Lemma forall2_len : forall E F (P : E -> F -> Prop) l m, Forall2 P l m -> length l = length m.
Proof. intros E F P l m H. induction H; cbn [length]; congruence. Qed.
Lemma forall2_nth : forall E F (P : E -> F -> Prop) dflt l m, Forall2 P l m -> forall r y, nth_error m r = Some y -> P (nth r l dflt) y.
Proof.
  intros E F P dflt l m H. induction H as [|x y l m H Hs IH]; intros r z Ez; [destruct r; discriminate|]. destruct r; [injection Ez as <-; assumption|]. cbn [nth]. apply IH. assumption.
Qed.
Section Segment.
Context {X : Type}.
Variable cell : X -> nat.
Variable dim3 : nat.
Variable rank_map : nat -> nat.
Variable users : list (list X).
Variable locs : list (sorted X).
Hypothesis Hloc : Forall2 (sort_facts cell dim3 true) users locs.
Let all := concat users.
Hypothesis Hall : (Z.of_nat (length all) < 2 ^ 31)%Z.
Variable gc : nat -> nat.
Hypothesis Hgc : forall i, i < dim3 -> gc i = length (of_cell cell i all).

(** What the other ranks send to [me]. *)
Definition shipped (me : nat) : list (nat * list X) :=
  flat_map (fun r => if r =? me then [] else match nth_error locs r with
    | Some s => shipment (ints (s_count s)) (ints (s_offset s)) (s_recs s) (cells_of dim3 rank_map me) | None => [] end) (seq 0 (length locs)).

Lemma loc_nth : forall r s, nth_error locs r = Some s -> sort_facts cell dim3 true (nth r users []) s.
Proof. intros r s. apply (forall2_nth _ _ _ _ _ _ Hloc). Qed.
Lemma loc_len : length locs = length users. Proof. symmetry. apply (forall2_len _ _ _ _ _ Hloc). Qed.

Lemma shipped_cell : forall me i, i < dim3 -> rank_map i = me ->
  arrived (shipped me) i = flat_map (fun r => if r =? me then [] else of_cell cell i (nth r users [])) (seq 0 (length users)).
Proof.
  clear Hgc gc Hall. intros me i Hi Hm. unfold shipped. rewrite arrived_flat, loc_len. apply flat_map_eq. intros r Hr. apply in_seq in Hr. destruct (r =? me); [reflexivity|].
  destruct (nth_error locs r) as [s|] eqn:E; [|apply nth_error_None in E; rewrite loc_len in E; lia].
  rewrite arrived_shipment by (try apply cells_nodup; apply cells_in; auto). apply (sf_batch _ _ _ _ _ (loc_nth r s E) eq_refl). assumption.
Qed.
Lemma shipped_all : forall me i, me < length users -> i < dim3 -> rank_map i = me ->
  Permutation (of_cell cell i (nth me users []) ++ arrived (shipped me) i) (of_cell cell i all).
Proof.
  clear Hgc gc Hall. intros me i Hm Hi Hr. rewrite (shipped_cell me i Hi Hr). rewrite (move_out X (fun r => of_cell cell i (nth r users [])) (seq 0 (length users)) me (seq_NoDup _ _) (proj2 (in_seq _ _ _) (conj (Nat.le_0_l _) Hm))).
  rewrite concat_seq. unfold all. rewrite of_cell_concat. reflexivity.
Qed.
Lemma shipped_in : forall me i b, In (i, b) (shipped me) -> i < dim3 /\ rank_map i = me /\ b <> [].
Proof.
  clear Hgc gc Hall. intros me i b H. unfold shipped in H. apply in_flat_map in H. destruct H as (r & Hr & H). destruct (r =? me); [contradiction|].
  destruct (nth_error locs r) as [s|] eqn:E; [|contradiction]. unfold shipment in H. apply in_flat_map in H. destruct H as (j & Hj & H). apply cells_in in Hj.
  destruct (Nat.eqb_spec (ints (s_count s) j) 0) as [|Nz]; [contradiction|]. destruct H as [H|[]]. injection H as <- <-. split; [apply Hj|]. split; [apply Hj|].
  intros C. apply (f_equal (@length X)) in C. rewrite batch_len in C; [cbn in C; contradiction|]. apply (sf_fits _ _ _ _ _ (loc_nth r s E) eq_refl). apply Hj.
Qed.

Lemma total_cells : forall me n, n <= dim3 -> sum_shares rank_map me gc n = length (filter (fun x => (cell x <? n) && (rank_map (cell x) =? me)) all).
Proof.
  clear Hall Hloc. intros me n. induction n as [|n IH]; intros Hn; cbn [sum_shares].
  - rewrite (proj2 (filter_none _ _ _)); [reflexivity|]. intros x _. destruct (Nat.ltb_spec (cell x) 0); [lia|reflexivity].
  - rewrite IH by lia. unfold share, owned. rewrite Hgc by lia. clear. unfold of_cell. induction all as [|x l IHl]; [destruct (rank_map n =? me); reflexivity|]. cbn [filter].
    destruct (Nat.ltb_spec (cell x) n), (Nat.ltb_spec (cell x) (S n)), (Nat.eqb_spec (cell x) n); try lia; cbn [andb].
    + destruct (rank_map (cell x) =? me), (rank_map n =? me); cbn [length] in *; lia.
    + subst n. destruct (rank_map (cell x) =? me); cbn [length] in *; lia.
    + assumption.
Qed.
Lemma num_points_le : forall me, num_points dim3 rank_map me gc <= length all.
Proof. clear Hall Hloc. intros me. unfold num_points. rewrite total_cells by lia. apply filter_length_le. Qed.

Lemma segment_ok : forall me loc fresh evs, nth_error locs me = Some loc -> length fresh = num_points dim3 rank_map me gc -> Permutation evs (shipped me) ->
  exists mem, segment dim3 rank_map me gc loc fresh evs = Ok mem /\ length mem = num_points dim3 rank_map me gc /\
    forall i, i < dim3 -> rank_map i = me -> Permutation (firstn (gc i) (skipn (global_offset rank_map me gc i) mem)) (of_cell cell i all).
Proof.
  intros me loc fresh evs El Hf Hp. pose proof (loc_nth me loc El) as F. assert (Hm : me < length users) by (rewrite <- loc_len; apply nth_error_Some; congruence).
  assert (Lb : forall i, i < dim3 -> local_batch (ints (s_count loc)) (ints (s_offset loc)) (s_recs loc) i = of_cell cell i (nth me users [])).
  { intros i Hi. exact (sf_batch _ _ _ _ _ F eq_refl i Hi). }
  assert (Lc : forall i, i < dim3 -> ints (s_count loc) i = length (of_cell cell i (nth me users []))).
  { intros i Hi. unfold ints. rewrite (sf_count _ _ _ _ _ F i Hi). lia. }
  assert (Pi : forall i, i < dim3 -> rank_map i = me -> Permutation (of_cell cell i (nth me users []) ++ arrived evs i) (of_cell cell i all)).
  { intros i Hi Hr. rewrite <- (shipped_all me i Hm Hi Hr). apply Permutation_app_head. apply arrived_perm. assumption. }
  assert (Sum : forall i, i < dim3 -> rank_map i = me -> ints (s_count loc) i + length (arrived evs i) = gc i).
  { intros i Hi Hr. rewrite Hgc, Lc by assumption. rewrite <- (Permutation_length (Pi i Hi Hr)), app_length. reflexivity. }
  destruct (C14_merge_any_moment X dim3 rank_map me gc (ints (s_count loc)) (ints (s_offset loc)) (s_recs loc) fresh evs) as (st0 & st & E0 & E & _ & Lm & H & _).
  - pose proof (num_points_le me). lia.
  - assumption.
  - intros i Hi _. exact (sf_fits _ _ _ _ _ F eq_refl i Hi).
  - intros i b Hb. eapply Permutation_in in Hb; [|eassumption]. apply shipped_in. assumption.
  - intros i Hi Hr. rewrite Sum by assumption. lia.
  - exists (st_mem st). unfold segment. rewrite E0. cbn [bind]. rewrite E. cbn [bind]. split; [reflexivity|]. split; [congruence|]. intros i Hi Hr.
    destruct (H i Hi Hr) as (Hc & _). cbv zeta in Hc. rewrite Lb in Hc by assumption. rewrite (Permutation_length (Pi i Hi Hr)), <- Hgc in Hc by assumption. rewrite Hc. apply Pi; assumption.
Qed.

(** The array is its cells in order. *)
Lemma mem_cells : forall me (mem : list X) n, global_offset rank_map me gc n <= length mem ->
  firstn (global_offset rank_map me gc n) mem = concat (map (fun i => firstn (gc i) (skipn (global_offset rank_map me gc i) mem)) (cells_of n rank_map me)).
Proof.
  intros me mem n. induction n as [|n IH]; intros Hn; [reflexivity|]. cbn [global_offset] in *. unfold cells_of in *. rewrite seq_S, filter_app, map_app, concat_app, <- IH by lia. cbn [plus filter].
  unfold share, owned in *. destruct (rank_map n =? me); cbn [map concat]; [|rewrite Nat.add_0_r, app_nil_r; reflexivity]. rewrite app_nil_r.
  set (o := global_offset rank_map me gc n) in *. rewrite <- (firstn_skipn o mem) at 1. rewrite firstn_app, firstn_length_le by lia. rewrite firstn_all2 by (rewrite firstn_length_le; lia). f_equal. f_equal. lia.
Qed.
Lemma whole : forall me mem, length mem = num_points dim3 rank_map me gc -> (forall x, In x all -> cell x < dim3) ->
  (forall i, i < dim3 -> rank_map i = me -> Permutation (firstn (gc i) (skipn (global_offset rank_map me gc i) mem)) (of_cell cell i all)) ->
  Permutation mem (of_rank cell rank_map me all).
Proof.
  intros me mem Lm Hc H. assert (Eo : global_offset rank_map me gc dim3 = length mem) by (rewrite Lm; apply off_sum).
  rewrite <- (firstn_all mem) at 1. rewrite <- Eo, mem_cells by lia.
  transitivity (concat (map (fun i => of_cell cell i all) (cells_of dim3 rank_map me))).
  - assert (G : forall l, (forall i, In i l -> i < dim3 /\ rank_map i = me) -> Permutation (concat (map (fun i => firstn (gc i) (skipn (global_offset rank_map me gc i) mem)) l)) (concat (map (fun i => of_cell cell i all) l))).
    { intros l. induction l as [|i l IH]; intros Hl; [reflexivity|]. cbn [map concat]. apply Permutation_app; [apply H; apply Hl; left; reflexivity|apply IH; intros j Hj; apply Hl; right; assumption]. }
    apply G. intros i Hi. apply cells_in in Hi. assumption.
  - rewrite split_keys by apply cells_nodup. unfold of_rank. rewrite (filter_ext_in' X _ (fun x => rank_map (cell x) =? me)); [reflexivity|].
    intros x Hx. specialize (Hc x Hx). destruct (Nat.eqb_spec (rank_map (cell x)) me) as [E|E].
    + apply existsb_exists. exists (cell x). split; [apply cells_in; auto|apply Nat.eqb_refl].
    + destruct (existsb _ _) eqn:F; [|reflexivity]. apply existsb_exists in F. destruct F as (j & Hj & Ej). apply Nat.eqb_eq in Ej. subst j. apply cells_in in Hj. tauto.
Qed.
Lemma all_ranks : forall mems, (forall x, In x all -> rank_map (cell x) < length users) -> length mems = length users ->
  (forall r m, nth_error mems r = Some m -> Permutation m (of_rank cell rank_map r all)) -> Permutation (concat mems) all.
Proof.
  clear Hgc gc Hall Hloc locs. clear dim3. intros mems Hr Lm H.
  assert (G : forall k ms, (forall r m, nth_error ms r = Some m -> Permutation m (of_rank cell rank_map (k + r) all)) ->
    Permutation (concat ms) (concat (map (fun r => of_cell (fun x => rank_map (cell x)) r all) (seq k (length ms))))).
  { intros k ms. revert k. induction ms as [|m ms IH]; intros k Hm; [reflexivity|]. cbn [concat length seq map]. apply Permutation_app.
    - rewrite (Hm 0 m eq_refl), Nat.add_0_r. reflexivity.
    - apply IH. intros r m' E. rewrite (Hm (S r) m' E). rewrite Nat.add_succ_r. reflexivity. }
  rewrite (G 0 mems) by assumption. rewrite split_keys by apply seq_NoDup. rewrite filter_all; [reflexivity|].
  intros x Hx. apply existsb_exists. exists (rank_map (cell x)). split; [apply in_seq; specialize (Hr x Hx); lia|apply Nat.eqb_refl].
Qed.
End Segment.

(** ** Partitioning *)
Definition at_cell {X} rank_map me gc (mem : list X) (i : nat) : list X := firstn (gc i) (skipn (global_offset rank_map me gc i) mem).

Lemma skipn_skipn' : forall X a b (l : list X), skipn a (skipn b l) = skipn (b + a) l.
Proof. intros X a b. induction b as [|b IH]; intros l; [reflexivity|]. destruct l; [destruct a; reflexivity|]. cbn [skipn plus]. apply IH. Qed.
Lemma splice_before : forall X (m v : list X) o a n, a + n <= o -> o + length v <= length m ->
  firstn n (skipn a (firstn o m ++ v ++ skipn (o + length v) m)) = firstn n (skipn a m).
Proof.
  intros X m v o a n H Hl. rewrite skipn_app, firstn_length_le by lia. replace (a - o) with 0 by lia. cbn [skipn]. rewrite skipn_firstn_comm, firstn_app, firstn_length, skipn_length.
  replace (n - Nat.min (o - a) (length m - a)) with 0 by lia. cbn [firstn]. rewrite app_nil_r, firstn_firstn. f_equal. lia.
Qed.
Lemma splice_after : forall X (m v : list X) o a n, o + length v <= a -> o + length v <= length m ->
  firstn n (skipn a (firstn o m ++ v ++ skipn (o + length v) m)) = firstn n (skipn a m).
Proof.
  intros X m v o a n H Hl. f_equal. rewrite app_assoc, skipn_app, skipn_all2 by (rewrite app_length, firstn_length_le by lia; lia). cbn [app]. rewrite app_length, firstn_length_le by lia.
  rewrite skipn_skipn'. f_equal. lia.
Qed.
Lemma splice_at : forall X (m v : list X) o, o + length v <= length m -> firstn (length v) (skipn o (firstn o m ++ v ++ skipn (o + length v) m)) = v.
Proof.
  intros X m v o H. rewrite skipn_app, skipn_all2 by (rewrite firstn_length_le; lia). rewrite firstn_length_le by lia. rewrite Nat.sub_diag. cbn [skipn app]. rewrite firstn_app, firstn_all, Nat.sub_diag. cbn [firstn]. apply app_nil_r.
Qed.

Lemma partition_ok : forall X low part thr fuel cell_index dim3 rank_map me gc (mem mem' : list X), partition_contract part ->
  length mem = num_points dim3 rank_map me gc -> partition_cells low part thr fuel cell_index dim3 rank_map me gc mem = Ok mem' ->
  length mem' = length mem /\ forall i, i < dim3 -> rank_map i = me -> Permutation (at_cell rank_map me gc mem' i) (at_cell rank_map me gc mem i).
Proof.
  intros X low part thr fuel cell_index dim3 rank_map me gc mem mem' Hp Lm H. unfold partition_cells in H.
  assert (G : forall l m m', (forall i, In i l -> i < dim3) -> length m = length mem ->
    foldM (fun mem i => if negb (owned rank_map me i) then Ok mem else if gc i =? 0 then Ok mem else
      let o := global_offset rank_map me gc i in do l <- read_range X mem o (o + gc i); do r <- refine low part thr fuel (cell_index i) o l; write_range X mem o (snd r)) l m = Ok m' ->
    length m' = length mem /\ forall i, i < dim3 -> rank_map i = me -> Permutation (at_cell rank_map me gc m' i) (at_cell rank_map me gc m i)).
  { clear H mem'. intros l. induction l as [|i l IH]; intros m m' Hl Lk E; cbn [foldM] in E; [injection E as <-; split; [assumption|reflexivity]|].
    destruct (owned rank_map me i) eqn:Ow; cbn [negb] in E; [|apply IH in E; [assumption|intros j Hj; apply Hl; right; assumption|assumption]].
    destruct (Nat.eqb_spec (gc i) 0) as [Z|Z]; [apply IH in E; [assumption|intros j Hj; apply Hl; right; assumption|assumption]|].
    cbv zeta in E. set (o := global_offset rank_map me gc i) in *. pose proof (cell_fits dim3 rank_map me gc i (Hl i (or_introl eq_refl)) Ow) as Cf. fold o in Cf.
    unfold read_range in E. rewrite (proj2 (Nat.leb_le o (o + gc i))) in E by lia. rewrite (proj2 (Nat.leb_le (o + gc i) (length m))) in E by lia. cbn [andb bind] in E.
    replace (o + gc i - o) with (gc i) in E by lia. set (c := firstn (gc i) (skipn o m)) in *. assert (Lc : length c = gc i) by (unfold c; rewrite firstn_length_le; [reflexivity|rewrite skipn_length; lia]).
    destruct (refine low part thr fuel (cell_index i) o c) as [[t out]|] eqn:Er; cbn [bind snd] in E; [|discriminate].
    destruct (C15_refinement _ _ _ _ _ _ _ _ _ _ Hp Er) as (Pc & _). pose proof (Permutation_length Pc) as Lo. rewrite Lc in Lo.
    unfold write_range in E. rewrite <- Lo in E. rewrite (proj2 (Nat.leb_le (o + gc i) (length m))) in E by lia. cbn [bind] in E. rewrite Lo in E.
    set (m1 := firstn o m ++ out ++ skipn (o + length out) m) in *.
    assert (L1 : length m1 = length mem). { unfold m1. rewrite !app_length, firstn_length_le, skipn_length by lia. lia. }
    destruct (IH m1 m' (fun j Hj => Hl j (or_intror Hj)) L1 E) as [L' P']. split; [assumption|]. intros j Hj Hr. rewrite (P' j Hj Hr). unfold at_cell.
    assert (Oj : owned rank_map me j = true) by (apply Nat.eqb_eq; assumption).
    assert (Sh : share rank_map me gc j = gc j) by (unfold share; rewrite Oj; reflexivity). assert (Si : share rank_map me gc i = gc i) by (unfold share; rewrite Ow; reflexivity).
    destruct (Nat.lt_trichotomy j i) as [Lt|[->|Gt]].
    - unfold m1. rewrite splice_before; [reflexivity| |lia]. pose proof (off_next dim3 rank_map me gc j i Lt) as On. rewrite Sh in On. exact On.
    - fold o. rewrite Lo. unfold m1. rewrite splice_at by lia. rewrite <- Lo. fold c. symmetry. assumption.
    - unfold m1. rewrite splice_after; [reflexivity| |lia]. pose proof (off_next dim3 rank_map me gc i j Gt) as On. rewrite Si in On. fold o in On. lia. }
  apply (G (seq 0 dim3) mem mem'); [intros i Hi; apply in_seq in Hi; lia|reflexivity|assumption].
Qed.

(** ** The counts *)
Lemma counts_sum : forall X (cell : X -> nat) dim3 grp users locs i, Forall2 (sort_facts cell dim3 grp) users locs -> i < dim3 ->
  fold_right Z.add 0%Z (map (fun s => nth i (s_count s) 0%Z) locs) = Z.of_nat (length (of_cell cell i (concat users))).
Proof.
  intros X cell dim3 grp users locs i H Hi. induction H as [|u s us ss F H IH]; [reflexivity|]. cbn [map fold_right concat]. rewrite IH, of_cell_app, app_length, (sf_count _ _ _ _ _ F i Hi). lia.
Qed.

Section All.
Variables A B : Type.
Variable pos_s : A -> point.
Variable pos_t : B -> point.
Variable d : domain.
Hypothesis Hd : (0 < dsize d)%Q.
Variable L : Z.
Hypothesis HL : (0 <= L <= 9)%Z.
Variable same : bool.
Variable users : list (list A * list B).
Let srcs := concat (map fst users).
Let tgts := concat (map snd users).
Hypothesis Hin_s : forall x, In x srcs -> in_domain d (pos_s x).
Hypothesis Hin_t : forall x, In x tgts -> in_domain d (pos_t x).
Hypothesis Hs : (Z.of_nat (length srcs) < 2 ^ 31)%Z.
Hypothesis Ht : (Z.of_nat (length tgts) < 2 ^ 31)%Z.
Let dim3 := Z.to_nat (8 ^ L).
Let cs := cell_at pos_s d L.
Let ct := cell_at pos_t d L.

Lemma in_users_s : forall u x, In u users -> In x (fst u) -> In x srcs.
Proof. intros u x Hu Hx. apply in_concat. exists (fst u). split; [apply in_map; assumption|assumption]. Qed.
Lemma in_users_t : forall u x, In u users -> In x (snd u) -> In x tgts.
Proof. intros u x Hu Hx. apply in_concat. exists (snd u). split; [apply in_map; assumption|assumption]. Qed.

Lemma locals_ok : exists locals, mapM (sort_local_points A B pos_s pos_t d L same) users = Ok locals /\
  Forall2 (sort_facts cs dim3 true) (map fst users) (map fst locals) /\ Forall2 (sort_facts ct dim3 (negb same)) (map snd users) (map snd locals).
Proof.
  assert (I1 : forall u x, In u users -> In x (fst u) -> in_domain d (pos_s x)) by (intros u x Hu Hx; apply Hin_s; eapply in_users_s; eassumption).
  assert (I2 : forall u x, In u users -> In x (snd u) -> in_domain d (pos_t x)) by (intros u x Hu Hx; apply Hin_t; eapply in_users_t; eassumption).
  clear Hin_s Hin_t Hs Ht srcs tgts. induction users as [|u us IH]; [exists []; repeat split; constructor|].
  destruct IH as (ls & E & F1 & F2); [intros v x Hv; apply I1; right; assumption|intros v x Hv; apply I2; right; assumption|].
  destruct (sort_ok A pos_s d L true (fst u) Hd ltac:(lia) (fun x Hx => I1 u x (or_introl eq_refl) Hx)) as (s & Es & Fs).
  destruct (sort_ok B pos_t d L (negb same) (snd u) Hd ltac:(lia) (fun x Hx => I2 u x (or_introl eq_refl) Hx)) as (t & Et & Ft).
  exists ((s, t) :: ls). cbn [mapM]. unfold sort_local_points at 1. rewrite Es. cbn [bind]. rewrite Et. cbn [bind]. rewrite E. cbn [bind]. split; [reflexivity|]. split; constructor; assumption.
Qed.

Variable locals : list (sorted A * sorted B).
Hypothesis F1 : Forall2 (sort_facts cs dim3 true) (map fst users) (map fst locals).
Hypothesis F2 : Forall2 (sort_facts ct dim3 (negb same)) (map snd users) (map snd locals).

Lemma dim3_pos : 0 < dim3.
Proof. unfold dim3. assert ((0 < 8 ^ L)%Z) by (apply Z.pow_pos_nonneg; lia). lia. Qed.
Lemma dim3_small : (Z.of_nat dim3 < 2 ^ 31)%Z.
Proof. unfold dim3. assert ((0 < 8 ^ L)%Z) by (apply Z.pow_pos_nonneg; lia). assert ((8 ^ L <= 8 ^ 9)%Z) by (apply Z.pow_le_mono_r; lia). rewrite Z2Nat.id by lia. change (8 ^ 9)%Z with 134217728%Z in *. lia. Qed.

Lemma local_facts : forall l, In l locals -> (exists u, In u users /\ sort_facts cs dim3 true (fst u) (fst l)) /\ (exists u, In u users /\ sort_facts ct dim3 (negb same) (snd u) (snd l)).
Proof.
  intros l Hl. apply In_nth_error in Hl. destruct Hl as (r & Er).
  assert (Lu : length users = length locals) by (pose proof (forall2_len _ _ _ _ _ F1) as E; rewrite !map_length in E; exact E).
  assert (Hr : r < length users) by (rewrite Lu; apply nth_error_Some; congruence). destruct (nth_error users r) as [u|] eqn:Eu; [|apply nth_error_None in Eu; lia].
  split; exists u; (split; [eapply nth_error_In; eassumption|]).
  - pose proof (forall2_nth _ _ _ [] _ _ F1 r (fst l) (map_nth_error fst r locals Er)) as X. rewrite (nth_error_nth _ _ _ (map_nth_error fst r users Eu)) in X. assumption.
  - pose proof (forall2_nth _ _ _ [] _ _ F2 r (snd l) (map_nth_error snd r locals Er)) as X. rewrite (nth_error_nth _ _ _ (map_nth_error snd r users Eu)) in X. assumption.
Qed.

Lemma col_src : forall i, i < dim3 -> col_sum i (map (local_counts A B) locals) = Z.of_nat (length (of_cell cs i srcs)).
Proof.
  intros i Hi. unfold srcs. rewrite <- (counts_sum A cs dim3 true _ _ i F1 Hi). unfold col_sum, column. rewrite !map_map. f_equal. apply map_ext_in. intros l Hl.
  destruct (local_facts l Hl) as ((u & _ & F) & _). unfold local_counts. apply app_nth1. rewrite (sf_len _ _ _ _ _ F). assumption.
Qed.
Lemma col_tar : forall i, i < dim3 -> col_sum (i + dim3) (map (local_counts A B) locals) = Z.of_nat (length (of_cell ct i tgts)).
Proof.
  intros i Hi. unfold tgts. rewrite <- (counts_sum B ct dim3 _ _ _ i F2 Hi). unfold col_sum, column. rewrite !map_map. f_equal. apply map_ext_in. intros l Hl.
  destruct (local_facts l Hl) as ((u & _ & F) & _). unfold local_counts. rewrite app_nth2; rewrite (sf_len _ _ _ _ _ F); [|lia]. f_equal. lia.
Qed.

Lemma unif_ok : forall t, Permutation (contribs t) (map (local_counts A B) locals) ->
  exists unif, reduce int_sum_op (int_sum_ident (2 * dim3)) t = Ok unif /\ (forall i, i < dim3 -> count_src unif i = length (of_cell cs i srcs)) /\
    (forall i, i < dim3 -> count_tar L unif i = length (of_cell ct i tgts)).
Proof.
  intros t Hp.
  assert (V : forall v, In v (contribs t) -> length v = 2 * dim3 /\ forall i, (0 <= nth i v 0)%Z).
  { intros v Hv. eapply Permutation_in in Hv; [|eassumption]. apply in_map_iff in Hv. destruct Hv as (l & <- & Hl). destruct (local_facts l Hl) as ((u & _ & G1) & (u' & _ & G2)).
    unfold local_counts. rewrite app_length, (sf_len _ _ _ _ _ G1), (sf_len _ _ _ _ _ G2). split; [lia|]. intros i.
    destruct (Nat.lt_ge_cases i dim3); [rewrite app_nth1 by (rewrite (sf_len _ _ _ _ _ G1); assumption); rewrite (sf_count _ _ _ _ _ G1) by assumption; lia|].
    rewrite app_nth2 by (rewrite (sf_len _ _ _ _ _ G1); assumption). rewrite (sf_len _ _ _ _ _ G1).
    destruct (Nat.lt_ge_cases (i - dim3) dim3); [rewrite (sf_count _ _ _ _ _ G2) by assumption; lia|]. rewrite nth_overflow by (rewrite (sf_len _ _ _ _ _ G2); assumption). lia. }
  assert (Ls : forall i, length (of_cell cs i srcs) <= length srcs) by (intros; apply filter_length_le).
  assert (Lt : forall i, length (of_cell ct i tgts) <= length tgts) by (intros; apply filter_length_le).
  destruct (C44_int_sum (2 * dim3) t) as (unif & E & _ & N).
  - intros v Hv. apply V. assumption.
  - intros v i Hv. apply V. assumption.
  - intros i Hi. rewrite (col_sum_perm i _ _ Hp). unfold int_max. destruct (Nat.lt_ge_cases i dim3).
    + rewrite col_src by assumption. specialize (Ls i). lia.
    + replace i with (i - dim3 + dim3) by lia. rewrite col_tar by lia. specialize (Lt (i - dim3)). lia.
  - exists unif. split; [assumption|]. split; intros i Hi; unfold count_src, count_tar, ints.
    + rewrite N, (col_sum_perm i _ _ Hp), col_src by lia. lia.
    + fold dim3. rewrite N, (col_sum_perm _ _ _ Hp), col_tar by lia. lia.
Qed.

Variable zs : serializer A.
Variable zt : serializer B.
Hypothesis Zs : Forall (codec_ok zs) srcs.
Hypothesis Zt : same = false -> Forall (codec_ok zt) tgts.
Variable rank_map : nat -> nat.

Lemma cells_count : forall X (cell : X -> nat) u l, NoDup l -> list_sum (map (fun i => length (of_cell cell i u)) l) <= length u.
Proof.
  intros X cell u l N. transitivity (length (filter (fun x => existsb (Nat.eqb (cell x)) l) u)); [|apply filter_length_le]. rewrite <- (Permutation_length (split_keys X cell u l N)). clear N.
  induction l as [|i l IH]; [reflexivity|]. cbn [map concat]. rewrite list_sum_cons, app_length. lia.
Qed.
Lemma sendable_of : forall X (z : serializer X) (cell : X -> nat) u s me, sort_facts cell dim3 true u s -> Forall (codec_ok z) u -> (Z.of_nat (length u) < 2 ^ 31)%Z ->
  sendable z (ints (s_count s)) (ints (s_offset s)) (s_recs s) (cells_of dim3 rank_map me).
Proof.
  intros X z cell u s me F Zu Lu. split; [|split].
  - intros i Hi. apply cells_in in Hi. apply (sf_fits _ _ _ _ _ F eq_refl). apply Hi.
  - eapply Permutation_Forall; [|exact Zu]. symmetry. exact (sf_perm _ _ _ _ _ F).
  - pose proof (cells_count X cell u (cells_of dim3 rank_map me) (cells_nodup _ _ _)) as C.
    rewrite (map_ext_in _ (fun i => length (of_cell cell i u))); [lia|]. intros i Hi. apply cells_in in Hi. unfold ints. rewrite (sf_count _ _ _ _ _ F) by apply Hi. lia.
Qed.

(** Counts sent when S == T. *)
Definition counts_for (me : nat) : list (nat * nat) :=
  flat_map (fun r => if r =? me then [] else match nth_error locals r with
    | Some l => flat_map (fun i => if ints (s_count (fst l)) i =? 0 then [] else [(i, ints (s_count (fst l)) i)]) (cells_of dim3 rank_map me) | None => [] end) (seq 0 (length locals)).

Lemma arrivals_ok : forall junk rw sm tm me, exists log, arrivals A B L same zs zt junk rw sm tm rank_map locals me = Ok log /\
  to_sources log = shipped dim3 rank_map (map fst locals) me /\ to_targets log = (if same then [] else shipped dim3 rank_map (map snd locals) me) /\
  to_same log = (if same then counts_for me else []).
Proof.
  intros junk rw sm tm me. unfold arrivals. fold dim3.
  set (one := fun r => match nth_error locals r with Some l => shipment (ints (s_count (fst l))) (ints (s_offset (fst l))) (s_recs (fst l)) (cells_of dim3 rank_map me) | None => [] end).
  set (two := fun r => match nth_error locals r with Some l => shipment (ints (s_count (snd l))) (ints (s_offset (snd l))) (s_recs (snd l)) (cells_of dim3 rank_map me) | None => [] end).
  set (thr := fun r => match nth_error locals r with Some l => flat_map (fun i => if ints (s_count (fst l)) i =? 0 then [] else [(i, ints (s_count (fst l)) i)]) (cells_of dim3 rank_map me) | None => [] end).
  assert (Lcells : (Z.of_nat (length (cells_of dim3 rank_map me)) < 2 ^ 31)%Z).
  { pose proof (filter_length_le _ (fun i => rank_map i =? me) (seq 0 dim3)) as X. rewrite seq_length in X. fold (cells_of dim3 rank_map me) in X. pose proof dim3_small. lia. }
  match goal with |- exists log, foldM ?f _ _ = _ /\ _ => set (step := f) end.
  assert (G : forall l log, (forall r, In r l -> r < length locals) -> exists log', foldM step l log = Ok (log ++ log') /\
    to_sources log' = flat_map (fun r => if r =? me then [] else one r) l /\ to_targets log' = (if same then [] else flat_map (fun r => if r =? me then [] else two r) l) /\
    to_same log' = (if same then flat_map (fun r => if r =? me then [] else thr r) l else [])).
  { intros l. induction l as [|r l IH]; intros log Hl.
    - exists []. rewrite app_nil_r. split; [reflexivity|]. split; [reflexivity|]. split; destruct same; reflexivity.
    - cbn [foldM flat_map]. unfold step at 1. destruct (r =? me) eqn:Er.
      + cbn [bind app]. apply IH. intros q Hq. apply Hl. right. assumption.
      + assert (Hr : r < length locals) by (apply Hl; left; reflexivity). destruct (nth_error locals r) as [lc|] eqn:El; [|apply nth_error_None in El; lia].
        assert (One : one r = shipment (ints (s_count (fst lc))) (ints (s_offset (fst lc))) (s_recs (fst lc)) (cells_of dim3 rank_map me)) by (unfold one; rewrite El; reflexivity).
        assert (Two : two r = shipment (ints (s_count (snd lc))) (ints (s_offset (snd lc))) (s_recs (snd lc)) (cells_of dim3 rank_map me)) by (unfold two; rewrite El; reflexivity).
        assert (Thr : thr r = flat_map (fun i => if ints (s_count (fst lc)) i =? 0 then [] else [(i, ints (s_count (fst lc)) i)]) (cells_of dim3 rank_map me)) by (unfold thr; rewrite El; reflexivity).
        destruct (local_facts lc (nth_error_In _ _ El)) as ((u & Hu & G1) & (u' & Hu' & G2)).
        assert (Lus : (Z.of_nat (length (fst u)) < 2 ^ 31)%Z).
        { assert (length (fst u) <= length srcs); [|lia]. unfold srcs. apply in_split in Hu. destruct Hu as (a & b & ->). rewrite map_app. cbn [map]. rewrite concat_app. cbn [concat]. rewrite !app_length. lia. }
        assert (Lut : (Z.of_nat (length (snd u')) < 2 ^ 31)%Z).
        { assert (length (snd u') <= length tgts); [|lia]. unfold tgts. apply in_split in Hu'. destruct Hu' as (a & b & ->). rewrite map_app. cbn [map]. rewrite concat_app. cbn [concat]. rewrite !app_length. lia. }
        assert (Cs : Forall (codec_ok zs) (fst u)) by (apply Forall_forall; intros x Hx; apply (proj1 (Forall_forall _ _) Zs); exact (in_users_s u x Hu Hx)).
        destruct (C13_messages A B dim3 rank_map same zs zt (junk r) rw sm tm me (ints (s_count (fst lc))) (ints (s_count (snd lc))) (ints (s_offset (fst lc))) (ints (s_offset (snd lc))) (s_recs (fst lc)) (s_recs (snd lc)))
          as (msg & lg & E1 & E2 & T1 & T2 & T3 & _).
        * apply (sendable_of A zs cs (fst u)); assumption.
        * intros Sf. assert (negb same = true) as Sn by (rewrite Sf; reflexivity). rewrite Sn in G2. apply (sendable_of B zt ct (snd u')); [assumption| |assumption].
          apply Forall_forall. intros x Hx. apply (proj1 (Forall_forall _ _) (Zt Sf)). exact (in_users_t u' x Hu' Hx).
        * assumption.
        * unfold nth_res at 1. rewrite El. cbn [bind]. rewrite E1. cbn [bind]. rewrite E2. cbn [bind].
          destruct (IH (log ++ lg) (fun q Hq => Hl q (or_intror Hq))) as (log' & E & S1 & S2 & S3). exists (lg ++ log'). rewrite E, <- app_assoc. split; [reflexivity|].
          unfold to_sources, to_targets, to_same in *. rewrite !flat_map_app, T1, T2, T3, S1, S2, S3, One, Two, Thr. split; [reflexivity|]. split; destruct same; reflexivity. }
  destruct (G (seq 0 (length locals)) []) as (log & E & S1 & S2 & S3); [intros r Hr; apply in_seq in Hr; lia|]. exists log. split; [exact E|]. rewrite S1, S2, S3. clear E S1 S2 S3 G.
  assert (M1 : forall r, nth_error (map fst locals) r = match nth_error locals r with Some l => Some (fst l) | None => None end) by (intros r; apply nth_error_map).
  assert (M2 : forall r, nth_error (map snd locals) r = match nth_error locals r with Some l => Some (snd l) | None => None end) by (intros r; apply nth_error_map).
  unfold shipped, counts_for. rewrite !map_length. split; [|split].
  - apply flat_map_eq. intros r _. rewrite M1. unfold one. destruct (nth_error locals r); reflexivity.
  - assert (Q : forall x y : list (nat * list B), x = y -> (if same then [] else x) = (if same then [] else y)) by (intros x y ->; reflexivity). apply Q. apply flat_map_eq. intros r _. rewrite M2. unfold two. destruct (nth_error locals r); reflexivity.
  - reflexivity.
Qed.
End All.

(** ** Results *)
Lemma cell_at_ok : forall X (pos : X -> point) d L recs cell, (0 < dsize d)%Q -> (0 <= L)%Z -> (forall x, In x recs -> in_domain d (pos x)) -> cell_numbers pos d L recs cell ->
  forall x, In x recs -> cell x = cell_at pos d L x /\ cell x < Z.to_nat (8 ^ L).
Proof.
  intros X pos d L recs cell Hd HL Hin Hc x Hx. destruct (Hc x Hx) as (i & G & El & Bx & Es). destruct (box_exists d Hd L (pos x) HL (Hin x Hx)) as [G' B'].
  assert (E : i = index_of d L (pos x)) by (eapply box_unique; [exact Hd|exact G|exact G'|rewrite El; reflexivity|exact Bx|exact B']). unfold cell_at. rewrite <- E, Es, Nat2Z.id. split; [reflexivity|].
  pose proof (slot_bounds i L HL El G) as S. rewrite <- (pow8 L HL) in S. lia.
Qed.
Lemma of_cell_ext : forall X (c c' : X -> nat) l, (forall x, In x l -> c x = c' x) -> forall i, of_cell c i l = of_cell c' i l.
Proof. intros X c c' l H i. apply filter_ext_in'. intros x Hx. rewrite H by assumption. reflexivity. Qed.
Lemma of_rank_ext : forall X (c c' : X -> nat) rm l, (forall x, In x l -> c x = c' x) -> forall i, of_rank c rm i l = of_rank c' rm i l.
Proof. intros X c c' rm l H i. apply filter_ext_in'. intros x Hx. rewrite H by assumption. reflexivity. Qed.

Lemma result_ok : forall X (cell : X -> nat) dim3 rank_map users locs low part thr fuel cell_index gc me loc mem', Forall2 (sort_facts cell dim3 true) users locs ->
  (Z.of_nat (length (concat users)) < 2 ^ 31)%Z -> (forall i, i < dim3 -> gc i = length (of_cell cell i (concat users))) -> (forall x, In x (concat users) -> cell x < dim3) ->
  partition_contract part -> nth_error locs me = Some loc ->
  tree_result low part thr fuel cell_index dim3 rank_map gc loc (shipped dim3 rank_map locs me) me mem' ->
  (forall i, i < dim3 -> rank_map i = me -> Permutation (at_cell rank_map me gc mem' i) (of_cell cell i (concat users))) /\ Permutation mem' (of_rank cell rank_map me (concat users)).
Proof.
  intros X cell dim3 rank_map users locs low part thr fuel cell_index gc me loc mem' F Hn Hgc Hc Hp El (evs & fresh & mem & Pe & Lf & Es & Ep).
  destruct (segment_ok cell dim3 rank_map users locs F Hn gc Hgc me loc fresh evs El Lf Pe) as (mem1 & E1 & L1 & P1). rewrite Es in E1. injection E1 as <-.
  destruct (partition_ok X low part thr fuel cell_index dim3 rank_map me gc mem mem' Hp L1 Ep) as [L2 P2].
  assert (P3 : forall i, i < dim3 -> rank_map i = me -> Permutation (at_cell rank_map me gc mem' i) (of_cell cell i (concat users))).
  { intros i Hi Hr. rewrite (P2 i Hi Hr). apply P1; assumption. }
  split; [assumption|]. apply (whole cell dim3 rank_map users gc Hgc me mem'); [congruence|assumption|assumption].
Qed.
Lemma cell_numbers_exist : forall X (pos : X -> point) d L recs, (0 < dsize d)%Q -> (0 <= L)%Z -> (forall x, In x recs -> in_domain d (pos x)) -> cell_numbers pos d L recs (cell_at pos d L).
Proof.
  intros X pos d L recs Hd HL Hin x Hx. destruct (box_exists d Hd L (pos x) HL (Hin x Hx)) as [G B]. exists (index_of d L (pos x)). split; [assumption|]. split; [reflexivity|]. split; [assumption|].
  pose proof (slot_bounds (index_of d L (pos x)) L HL eq_refl G). unfold cell_at. rewrite Z2Nat.id by lia. reflexivity.
Qed.

(** ** S == T *)
Lemma same_counts : forall A B (pos_s : A -> point) (pos_t : B -> point) d L users, (forall u, In u users -> map pos_t (snd u) = map pos_s (fst u)) ->
  forall u i, In u users -> length (of_cell (cell_at pos_t d L) i (snd u)) = length (of_cell (cell_at pos_s d L) i (fst u)).
Proof.
  intros A B pos_s pos_t d L users H u i Hu. specialize (H u Hu). clear Hu. destruct u as [a b]. cbn [fst snd] in *. unfold of_cell.
  assert (G : forall Y (pos : Y -> point) (l : list Y), length (filter (fun x => cell_at pos d L x =? i) l) = length (filter (fun p => cell_at (fun q => q) d L p =? i) (map pos l))).
  { intros Y pos l. induction l as [|y l IH]; [reflexivity|]. cbn [map filter]. change (cell_at (fun q => q) d L (pos y)) with (cell_at pos d L y). destruct (cell_at pos d L y =? i); cbn [length]; rewrite IH; reflexivity. }
  rewrite (G B pos_t b), (G A pos_s a), H. reflexivity.
Qed.
Lemma sum_perm : forall (e e' : list (nat * nat)) i, Permutation e e' -> list_sum (map snd (filter (fun x => fst x =? i) e)) = list_sum (map snd (filter (fun x => fst x =? i) e')).
Proof.
  intros e e' i H. induction H as [|[j b] l l' H IH|[j b] [k c] l|l l' l'' H1 IH1 H2 IH2]; [reflexivity| | |congruence]; cbn [filter fst].
  - destruct (j =? i); [|assumption]. cbn [map snd]. rewrite !list_sum_cons, IH. reflexivity.
  - destruct (j =? i), (k =? i); try reflexivity. cbn [map snd]. rewrite !list_sum_cons. lia.
Qed.
Lemma counts_for_in : forall A B L (locals : list (sorted A * sorted B)) rank_map me i n, In (i, n) (counts_for A B L locals rank_map me) -> i < Z.to_nat (8 ^ L) /\ rank_map i = me /\ 0 < n.
Proof.
  intros A B L locals rank_map me i n H. unfold counts_for in H. apply in_flat_map in H. destruct H as (r & _ & H). destruct (r =? me); [contradiction|]. destruct (nth_error locals r) as [l|]; [|contradiction].
  apply in_flat_map in H. destruct H as (j & Hj & H). apply cells_in in Hj. destruct (Nat.eqb_spec (ints (s_count (fst l)) j) 0) as [|N]; [contradiction|]. destruct H as [H|[]]. injection H as <- <-. split; [apply Hj|]. split; [apply Hj|]. lia.
Qed.
Lemma counts_total : forall A B pos_s pos_t d L (users : list (list A * list B)) rank_map locals,
  let dim3 := Z.to_nat (8 ^ L) in
  Forall2 (sort_facts (cell_at pos_s d L) dim3 true) (map fst users) (map fst locals) -> Forall2 (sort_facts (cell_at pos_t d L) dim3 false) (map snd users) (map snd locals) ->
  (forall u i, In u users -> length (of_cell (cell_at pos_t d L) i (snd u)) = length (of_cell (cell_at pos_s d L) i (fst u))) ->
  forall me l, nth_error locals me = Some l -> forall i, i < dim3 -> rank_map i = me ->
  ints (s_count (snd l)) i + list_sum (map snd (filter (fun e => fst e =? i) (counts_for A B L locals rank_map me))) = length (of_cell (cell_at pos_s d L) i (concat (map fst users))).
Proof.
  intros A B pos_s pos_t d L users rank_map locals dim3 F1 F2 Sm me l En i Hi Hr.
  assert (Lu : length users = length locals) by (pose proof (forall2_len _ _ _ _ _ F1) as E; rewrite !map_length in E; exact E).
  assert (Hm : me < length users) by (rewrite Lu; apply nth_error_Some; congruence).
  destruct (nth_error users me) as [u|] eqn:Eu; [|apply nth_error_None in Eu; lia].
  pose proof (forall2_nth _ _ _ [] _ _ F2 me (snd l) (map_nth_error snd me locals En)) as G. rewrite (nth_error_nth _ _ _ (map_nth_error snd me users Eu)) in G.
  assert (E0 : ints (s_count (snd l)) i = length (of_cell (cell_at pos_s d L) i (nth me (map fst users) []))).
  { unfold ints. rewrite (sf_count _ _ _ _ _ G i Hi), Nat2Z.id. rewrite (nth_error_nth _ _ _ (map_nth_error fst me users Eu)). apply Sm. eapply nth_error_In; eassumption. }
  pose proof (Permutation_length (shipped_all (cell_at pos_s d L) dim3 rank_map (map fst users) (map fst locals) F1 me i ltac:(rewrite map_length; assumption) Hi Hr)) as P. rewrite <- P, app_length, E0. f_equal.
  unfold counts_for, shipped. rewrite map_length, arrived_flat. fold dim3.
  induction (seq 0 (length locals)) as [|r rs IH]; [reflexivity|]. cbn [flat_map]. rewrite filter_app, map_app, list_sum_app, app_length, IH. f_equal.
  destruct (r =? me); [reflexivity|]. rewrite nth_error_map. destruct (nth_error locals r) as [lc|] eqn:Er; [|reflexivity]. cbn [option_map].
  pose proof (forall2_nth _ _ _ [] _ _ F1 r (fst lc) (map_nth_error fst r locals Er)) as G'.
  rewrite arrived_shipment by (try apply cells_nodup; apply cells_in; auto). rewrite batch_len by (apply (sf_fits _ _ _ _ _ G' eq_refl); assumption).
  assert (N : NoDup (cells_of dim3 rank_map me)) by apply cells_nodup. assert (I : In i (cells_of dim3 rank_map me)) by (apply cells_in; auto).
  set (c := ints (s_count (fst lc))). assert (Z : forall k, ~ In i k -> list_sum (map snd (filter (fun e => fst e =? i) (flat_map (fun j => if c j =? 0 then [] else [(j, c j)]) k))) = 0).
  { clear. intros k H. induction k as [|j k IH]; [reflexivity|]. cbn [flat_map]. rewrite filter_app, map_app, list_sum_app, IH by (intro; apply H; right; assumption).
    destruct (c j =? 0); [reflexivity|]. cbn [filter fst]. destruct (Nat.eqb_spec j i); [exfalso; apply H; left; assumption|reflexivity]. }
  clear - N I Z. induction (cells_of dim3 rank_map me) as [|j k IH]; [contradiction|]. inversion N; subst. cbn [flat_map]. rewrite filter_app, map_app, list_sum_app. destruct I as [->|I].
  - rewrite Z by assumption. destruct (Nat.eqb_spec (c i) 0) as [E|E]; [rewrite E; reflexivity|]. cbn [filter fst]. rewrite Nat.eqb_refl. cbn [map snd]. rewrite list_sum_cons. cbn. lia.
  - rewrite IH by assumption. destruct (c j =? 0); [reflexivity|]. cbn [filter fst]. destruct (Nat.eqb_spec j i); [subst; contradiction|reflexivity].
Qed.
