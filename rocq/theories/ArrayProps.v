(** C21-C24: Array allocate, get, put, collect. *)
From Coq Require Import ZArith List Bool Arith Lia Permutation.
From Verif Require Import Base ListFacts ArrayRefModel ReduceModel BufferModel ViewSetModel ArrayModel ArraySpec ArrayProofs.
Import ListNotations.
Open Scope nat_scope.

(** C21. For every order of the two reductions: each rank has its own count and the
    common total, and the same code is returned everywhere. *)
Theorem C21_allocate : forall A (dflt : A) args t1 t2, args <> [] -> all_ranks (length args) t1 -> all_ranks (length args) t2 ->
  (forall a, In a args -> (Z.of_nat (a_count a) < 2 ^ 64)%Z) ->
  exists codes ms, allocate A dflt None true args t1 t2 = Ok (codes, Some ms) /\ length codes = length args /\ length ms = length args /\
    (forall r a m, nth_error args r = Some a -> nth_error ms r = Some m ->
       m_local m = a_count a /\ m_total m = (Z.of_nat (wanted args) mod 2 ^ 64)%Z /\
       (forall s, a_seg a = Some s -> m_data m = Some s) /\
       (a_seg a = None -> 0 < a_count a -> a_mem a = true -> m_data m = Some (repeat dflt (a_count a)))) /\
    (forall c, In c codes -> c = kSuccess \/ c = kAllocationError) /\
    (forall c, In c codes -> (c = kSuccess <-> forall a, In a args -> a_seg a = None -> 0 < a_count a -> a_mem a = true)).
Proof.
  intros A dflt args t1 t2 Hne H1 H2 Hc. destruct (allocate_ok A dflt args t1 t2 Hne H1 H2 Hc) as (ms & E & F). eexists. exists ms. split; [exact E|].
  split; [apply map_length|]. split; [symmetry; eapply forall2_len; exact F|]. split; [|split].
  - clear -F. generalize dependent (Z.of_nat (wanted args) mod 2 ^ 64)%Z. intros total F. induction F as [|a m args ms (X & Y & W) F IH]; intros r b n Hb Hn; [destruct r; discriminate|].
    destruct r as [|r]; [|exact (IH r b n Hb Hn)]. cbn in Hb, Hn. injection Hb as <-. injection Hn as <-. split; [assumption|]. split; [assumption|]. split.
    + intros s Es. rewrite Es in W. assumption.
    + intros Es Hp Hm. rewrite Es, Hm in W. destruct (Nat.eqb_spec (a_count a) 0); [lia|assumption].
  - intros c Hi. apply in_map_iff in Hi. destruct Hi as (a & <- & _). destruct (existsb (fails A) args); auto.
  - intros c Hi. apply in_map_iff in Hi. destruct Hi as (x & <- & _). destruct (existsb (fails A) args) eqn:Ex.
    + split; [discriminate|]. intros H. exfalso. apply existsb_exists in Ex. destruct Ex as (a & Ha & Hf). unfold fails, needs in Hf. apply andb_true_iff in Hf. destruct Hf as [Hn Hm]. apply negb_true_iff in Hm.
      destruct (a_seg a) eqn:Es; [discriminate|]. apply negb_true_iff, Nat.eqb_neq in Hn. rewrite (H a Ha Es) in Hm by lia. discriminate.
    + split; [|reflexivity]. intros _ a Ha Es Hp. destruct (a_mem a) eqn:Em; [reflexivity|]. exfalso. assert (existsb (fails A) args = true); [|congruence]. apply existsb_exists. exists a. split; [assumption|].
      unfold fails, needs. rewrite Es, Em. destruct (Nat.eqb_spec (a_count a) 0); [lia|reflexivity].
Qed.
Print Assumptions C21_allocate.

(** The total is the sum of the counts whenever that fits in [size_t]. *)
Theorem C21_total : forall A (dflt : A) args t1 t2 codes ms, args <> [] -> all_ranks (length args) t1 -> all_ranks (length args) t2 ->
  (Z.of_nat (wanted args) < 2 ^ 64)%Z -> allocate A dflt None true args t1 t2 = Ok (codes, Some ms) -> forall m, In m ms -> m_total m = Z.of_nat (wanted args).
Proof.
  intros A dflt args t1 t2 codes ms Hne H1 H2 Hw E m Hm.
  assert (Hc : forall a, In a args -> (Z.of_nat (a_count a) < 2 ^ 64)%Z).
  { intros a Ha. assert (a_count a <= wanted args); [|lia]. clear -Ha. unfold wanted. induction args as [|b l IH]; [contradiction|]. cbn [map list_sum fold_right]. destruct Ha as [->|Ha]; [unfold list_sum; cbn; lia|]. specialize (IH Ha). unfold list_sum in *. cbn. lia. }
  destruct (allocate_ok A dflt args t1 t2 Hne H1 H2 Hc) as (ms' & E' & F). rewrite E in E'. injection E' as _ <-. rewrite Z.mod_small in F by lia.
  clear -F Hm. generalize dependent (Z.of_nat (wanted args)). intros total F. induction F as [|a m' args ms (X & Y & W) F IH]; [contradiction|]. destruct Hm as [->|Hm]; [assumption|apply IH; assumption].
Qed.
Print Assumptions C21_total.

(** A second allocation is refused on every rank and changes nothing. *)
Theorem C21_already_allocated : forall A (dflt : A) ms ok args t1 t2,
  allocate A dflt (Some ms) ok args t1 t2 = Ok (map (fun _ => kDomainError) args, Some ms).
Proof. reflexivity. Qed.
Print Assumptions C21_already_allocated.

Example C21_nonvacuous :
  let args := [{| a_count := 3; a_seg := None; a_mem := true |}; {| a_count := 0; a_seg := None; a_mem := false |}; {| a_count := 2; a_seg := Some [7; 8]; a_mem := false |}] in
  let t := ONode (ONode (OLeaf 2) OIdent) (ONode (OLeaf 0) (OLeaf 1)) in
  all_ranks (length args) t /\
  allocate nat 0 None true args t t =
    Ok ([0; 0; 0]%Z, Some [{| m_local := 3; m_total := 5; m_data := Some [0; 0; 0] |}; {| m_local := 0; m_total := 5; m_data := None |}; {| m_local := 2; m_total := 5; m_data := Some [7; 8] |}]).
Proof.
  split; [|reflexivity]. cbn. apply (Permutation_trans (l' := [0; 2; 1])); [apply perm_swap|apply perm_skip, perm_swap].
Qed.

(** C22.  Each rank calls get with its own range and buffer. *)
Definition get_call (A : Type) : Type := (meta A * nat * nat * list A)%type.
Definition run_get {A} (c : get_call A) : res (Z * list A) := let '(m, first, last, out) := c in get_local A m first last out.

Theorem C22_get : forall A (calls : list (get_call A)) t, calls <> [] -> all_ranks (length calls) t ->
  (forall m first last out, In (m, first, last, out) calls -> exists d, segment_is m d /\ (first <= last <= length d -> last - first <= length out)) ->
  exists codes outs, collective run_get calls t = Ok (codes, outs) /\ length codes = length calls /\ length outs = length calls /\
    (forall c, In c codes -> (c = kSuccess \/ c = kDomainError) /\
       (c = kSuccess <-> forall m first last out, In (m, first, last, out) calls -> first <= last <= m_local m)) /\
    (forall r m first last out out' d, nth_error calls r = Some (m, first, last, out) -> segment_is m d -> nth_error outs r = Some out' ->
       (first <= last <= length d -> out' = firstn (last - first) (skipn first d) ++ skipn (last - first) out) /\
       (~ first <= last <= length d -> out' = out)).
Proof.
  intros A calls t Hne Ht HI.
  set (seg := fun m : meta A => match m_data m with Some d => d | None => [] end).
  assert (Hseg : forall m d, segment_is m d -> d = seg m) by (intros m d [_ [H|[H X]]]; unfold seg; rewrite H; congruence).
  set (g := fun c : get_call A => let '(m, first, last, out) := c in if valid_range A m first last then (kSuccess, firstn (last - first) (skipn first (seg m)) ++ skipn (last - first) out) else (kDomainError, out)).
  assert (Hg : forall c, In c calls -> run_get c = Ok (g c) /\ (fst (g c) = kSuccess \/ fst (g c) = kDomainError)).
  { intros [[[m first] last] out] Hc. destruct (HI m first last out Hc) as (d & Hd & Ho). pose proof (Hseg m d Hd). subst d. cbn [run_get g]. rewrite (get_local_ok A m (seg m)); [|assumption|].
    - split; [reflexivity|]. destruct (valid_range A m first last); auto.
    - intros V. apply Ho. unfold valid_range in V. apply andb_true_iff in V. rewrite !Nat.leb_le in V. rewrite <- (proj1 Hd). assumption. }
  rewrite (collective_ok _ _ run_get g calls t Hne Ht Hg). eexists. eexists. split; [reflexivity|]. split; [apply map_length|]. split; [apply map_length|]. split.
  - intros c Hc. apply in_map_iff in Hc. destruct Hc as (x & <- & _).
    assert (V : forallb (fun b => (fst (g b) =? 0)%Z) calls = true <-> forall m first last out, In (m, first, last, out) calls -> first <= last <= m_local m).
    { rewrite forallb_forall. split.
      - intros H m first last out Hc. specialize (H _ Hc). cbn [g] in H. unfold valid_range in H. destruct (Nat.leb_spec first last), (Nat.leb_spec last (m_local m)); cbn in H; try discriminate. auto.
      - intros H [[[m first] last] out] Hc. specialize (H _ _ _ _ Hc). cbn [g]. unfold valid_range. destruct (Nat.leb_spec first last), (Nat.leb_spec last (m_local m)); try lia. reflexivity. }
    destruct (forallb (fun b => (fst (g b) =? 0)%Z) calls); (split; [auto|]); split; intros H; try discriminate; try reflexivity.
    + apply V. reflexivity.
    + exfalso. apply V in H. discriminate.
  - intros r m first last out out' d Hr Hd Ho. rewrite nth_error_map, Hr in Ho. cbn [option_map g] in Ho. injection Ho as <-. pose proof (Hseg m d Hd) as X. subst d. destruct Hd as [Hl _]. unfold valid_range. rewrite Hl.
    destruct (Nat.leb_spec first last), (Nat.leb_spec last (length (seg m))); cbn [andb snd]; (split; intros Hx; [try reflexivity|try reflexivity]); exfalso; try (apply Hx; split; assumption); lia.
Qed.
Print Assumptions C22_get.

Example C22_nonvacuous :
  let m := {| m_local := 4; m_total := 6; m_data := Some [10; 11; 12; 13] |} in
  let calls := [(m, 1, 3, [0; 0; 0]); ({| m_local := 2; m_total := 6; m_data := Some [20; 21] |}, 0, 2, [5; 5])] in
  segment_is m [10; 11; 12; 13] /\ collective run_get calls (ONode (OLeaf 1) (OLeaf 0)) = Ok ([0; 0]%Z, [[11; 12; 0]; [20; 21]]) /\
  collective run_get [(m, 1, 5, [0; 0; 0; 0]); (m, 0, 1, [9])] (ONode (OLeaf 1) (OLeaf 0)) = Ok ([6; 6]%Z, [[0; 0; 0; 0]; [10]]).
Proof. split; [split; [reflexivity|left; reflexivity]|]. split; reflexivity. Qed.

(** C23.  With exactly last-first input records, put does what it should only when the
    range starts at the first record: the code copies [last] records. *)
Theorem C23_put_correct_iff : forall A (m : meta A) d first last inp, segment_is m d -> d <> [] -> first <= last <= length d -> length inp = last - first ->
  ((exists m' d', put_local A m first last inp = Ok (kSuccess, m') /\ segment_is m' d' /\ replaced d d' inp first) <-> first = 0).
Proof.
  intros A m d first last inp Hm Hd Hr Hi. assert (V : valid_range A m first last = true).
  { unfold valid_range. rewrite (proj1 Hm). apply andb_true_iff. rewrite !Nat.leb_le. assumption. }
  rewrite (put_local_eval A m d first last inp Hm V). destruct d as [|x d]; [congruence|]. cbn [length Nat.eqb].
  destruct (Nat.leb_spec last (length inp)) as [H|H].
  - assert (first = 0 \/ last = 0) by lia. destruct (Nat.eq_dec first 0) as [->|]; [|lia]. cbn [length] in Hr. cbn [Nat.add]. destruct (Nat.leb_spec last (S (length d))); [|lia].
    split; [reflexivity|]. intros _. assert (El : last = length inp) by lia. subst last. rewrite (firstn_all2 inp) by lia. eexists. exists (firstn 0 (x :: d) ++ inp ++ skipn (length inp) (x :: d)). split; [reflexivity|].
    pose proof (write_replaced A (x :: d) inp 0) as R. cbn [length Nat.add] in R. specialize (R ltac:(lia)). split; [|exact R].
    split; [cbn [m_local m_data]; rewrite (proj1 Hm); symmetry; apply (proj1 R)|left; reflexivity].
  - split; [intros (m' & d' & X & _); discriminate|]. intros ->. lia.
Qed.
Print Assumptions C23_put_correct_iff.

(** What put does when the input buffer is long enough to be read: records first to
    first+last-1 are replaced, or memory beyond the segment is written. *)
Theorem C23_put_effect : forall A (m : meta A) d first last inp, segment_is m d -> d <> [] -> first <= last <= length d -> last <= length inp ->
  (first + last <= length d -> exists m' d', put_local A m first last inp = Ok (kSuccess, m') /\ segment_is m' d' /\ replaced d d' (firstn last inp) first) /\
  (length d < first + last -> put_local A m first last inp = Fail Oob).
Proof.
  intros A m d first last inp Hm Hd Hr Hi. assert (V : valid_range A m first last = true).
  { unfold valid_range. rewrite (proj1 Hm). apply andb_true_iff. rewrite !Nat.leb_le. assumption. }
  rewrite (put_local_eval A m d first last inp Hm V). destruct (Nat.eqb_spec (length d) 0) as [E|_]; [destruct d; [congruence|discriminate]|].
  destruct (Nat.leb_spec last (length inp)) as [_|H]; [|lia]. assert (L : length (firstn last inp) = last) by (rewrite firstn_length; lia). split; intros H.
  - destruct (Nat.leb_spec (first + last) (length d)) as [_|X]; [|lia]. eexists. exists (firstn first d ++ firstn last inp ++ skipn (first + last) d). split; [reflexivity|].
    pose proof (write_replaced A d (firstn last inp) first ltac:(lia)) as R. rewrite L in R. split; [|exact R]. split; [cbn [m_local]; rewrite (proj1 Hm); symmetry; apply R|left; reflexivity].
  - destruct (Nat.leb_spec (first + last) (length d)) as [X|_]; [lia|reflexivity].
Qed.
Print Assumptions C23_put_effect.

(** An invalid range is refused and nothing is written. *)
Theorem C23_put_invalid : forall A (m : meta A) d first last inp, segment_is m d -> ~ first <= last <= length d -> put_local A m first last inp = Ok (kDomainError, m).
Proof.
  intros A m d first last inp [Hl _] Hr. unfold put_local. rewrite range_check. unfold valid_range. rewrite Hl. destruct (Nat.leb_spec first last), (Nat.leb_spec last (length d)); try reflexivity. lia.
Qed.
Print Assumptions C23_put_invalid.

(** Putting one record at position 1 of 4 overwrites record 2 as well (or reads past the
    end of a one-record input), and putting the last two of 4 writes past the segment. *)
Theorem C23_put_refuted :
  let m := {| m_local := 4; m_total := 4; m_data := Some [10; 11; 12; 13] |} in
  put_local nat m 1 2 [99; 98] = Ok (kSuccess, {| m_local := 4; m_total := 4; m_data := Some [10; 99; 98; 13] |}) /\
  put_local nat m 1 2 [99] = Fail Oob /\ put_local nat m 2 4 [1; 2; 3; 4] = Fail Oob.
Proof. repeat split. Qed.
Print Assumptions C23_put_refuted.

Example C23_nonvacuous :
  let m := {| m_local := 3; m_total := 3; m_data := Some [1; 2; 3] |} in
  segment_is m [1; 2; 3] /\ put_local nat m 0 2 [8; 9] = Ok (kSuccess, {| m_local := 3; m_total := 3; m_data := Some [8; 9; 3] |}).
Proof. split; [split; [reflexivity|left; reflexivity]|reflexivity]. Qed.

(** C24.  Whatever order the records of the replies are written in, the result is the
    concatenation in rank order. *)
Theorem C24_collect : forall A (mgr : manager A) ms ds data, serializer_contract mgr -> Forall2 segment_is ms ds -> (Z.of_nat (length (concat ds)) < 2 ^ 64)%Z ->
  exists ws, collect_writes A mgr ms data = Ok ws /\
    forall init sched, length init = length (concat ds) -> Permutation sched ws -> run_writes A init sched = Ok (concat ds).
Proof.
  intros A mgr ms ds data HM F Hl. unfold collect_writes. destruct (collect_writes_ok A mgr HM ms ds data 0 F Hl) as (ws & E & C). rewrite E. cbn [bind]. exists (concat ws). split; [reflexivity|].
  intros init sched Hi HP. apply run_any_order; [assumption|]. rewrite <- C. assumption.
Qed.
Print Assumptions C24_collect.

(** The buffer of [total_count] records is long enough exactly when the metadata of rank 0
    still holds the true total; a stale smaller total makes some write run off it. *)
Theorem C24_collect_total_needed : forall A (mgr : manager A) ms ds data, serializer_contract mgr -> Forall2 segment_is ms ds -> (Z.of_nat (length (concat ds)) < 2 ^ 64)%Z ->
  exists ws, collect_writes A mgr ms data = Ok ws /\ forall init, length init < length (concat ds) -> run_writes A init ws = Fail Oob.
Proof.
  intros A mgr ms ds data HM F Hl. unfold collect_writes. destruct (collect_writes_ok A mgr HM ms ds data 0 F Hl) as (ws & E & C). rewrite E. cbn [bind]. exists (concat ws). split; [reflexivity|].
  intros init Hi. rewrite C. unfold run_writes. clear -Hi. generalize dependent (concat ds). intros d Hi.
  assert (G : forall (d : list A) k init, length init < k + length d -> k <= length init -> foldM (fun out w => set_res out (fst w) (snd w)) (combine (seq k (length d)) d) init = Fail Oob).
  { induction d0 as [|x d0 IH]; intros k ini Hk Hle; cbn [length] in Hk; [lia|]. cbn [length seq combine foldM fst snd]. destruct (Nat.eq_dec k (length ini)) as [->|N].
    - assert (X : set_res ini (length ini) x = Fail Oob). { clear. induction ini as [|y l IHl]; [reflexivity|]. cbn. rewrite IHl. reflexivity. } rewrite X. reflexivity.
    - rewrite set_res_ok by lia. cbn [bind]. apply IH; rewrite upd_length; lia. }
  apply G; lia.
Qed.
Print Assumptions C24_collect_total_needed.

(** A serializer with records of different sizes: n is a byte n+1 followed by n bytes. *)
Definition ex_mgr : manager nat := {| s_size := fun n => S n; s_ser := fun n => Z.of_nat (S n) :: repeat 9%Z n; s_de := fun l => match l with [] => None | z :: _ => Some (Z.to_nat z - 1, Z.to_nat z) end |}.
Example C24_nonvacuous : serializer_contract ex_mgr /\
  match collect_writes nat ex_mgr [{| m_local := 2; m_total := 3; m_data := Some [4; 0] |}; {| m_local := 0; m_total := 3; m_data := None |}; {| m_local := 1; m_total := 3; m_data := Some [2] |}] 77 with
  | Ok ws => run_writes nat [100; 100; 100] (rev ws) = Ok [4; 0; 2]
  | Fail _ => False
  end.
Proof.
  split; [|vm_compute; reflexivity]. intros a. cbn [s_ser s_size s_de ex_mgr length]. rewrite repeat_length. split; [reflexivity|]. split; [lia|]. intros rest. cbn [app]. rewrite Nat2Z.id. f_equal. f_equal. lia.
Qed.
