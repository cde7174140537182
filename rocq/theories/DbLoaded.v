(** A trace read from files is fit for the database. *)
From Coq Require Import String Ascii ZArith List Bool Arith Lia Permutation Sorted.
From Verif Require Import Base ListFacts TraceModel TraceSpec ReadModel ReadSpec ReadProofs ReadTrace ReadLoad DbModel DbSpec DbProofs DbLoops DbContents.
Import ListNotations.
Open Scope Z_scope.

Lemma loaded_shape sort args fs t lo hi n : Forall2 (fun a f => open_file (fst a) (snd a) = Ok f) args fs -> load sort args = Ok (t, lo, hi, n) ->
  exists z, t = whole true fs (sorted_worker sort z fs) /\ n = num_events t.
Proof.
  intros Op Ld. assert (Ne : forall l w, present fs l w -> belonging fs l w <> []) by (intros l w P E; rewrite (empty_fails sort args fs l w Op P E) in Ld; discriminate). unfold load in Ld. change new_trace with (canon []) in Ld. rewrite (add_all args fs Op []) in Ld. cbn [app bind] in Ld. destruct (reset_ok fs Ne) as (z & _ & Ez). rewrite Ez in Ld. cbn [bind] in Ld. rewrite (finalize_ok sort z fs Ne) in Ld. cbn [bind] in Ld. destruct (trace_min _); [|discriminate]. cbn [bind] in Ld. destruct (trace_max _); [|discriminate]. cbn [bind] in Ld. injection Ld as <- _ _ <-. exists z. split; reflexivity.
Qed.
Lemma events_total t : num_events t = total (workers_of t).
Proof.
  assert (One : forall l n, fold_left (fun n '(_, w) => n + length (w_events w))%nat l n = (n + total (map (@snd Z worker) l))%nat). { induction l as [|[k w] l IH]; intros n; [cbn; lia|]. cbn [fold_left map snd]. rewrite IH, total_cons. lia. }
  assert (All : forall (l : list (Z * locality)) n, fold_left (fun n '(_, x) => n + locality_events x)%nat l n = (n + total (flat_map (fun '(_, x) => map snd (l_workers x)) l))%nat). { induction l as [|[k x] l IH]; intros n; [cbn; lia|]. cbn [fold_left flat_map]. rewrite IH, total_app. unfold locality_events. rewrite One. lia. }
  unfold num_events, workers_of. rewrite All. reflexivity.
Qed.

(** ** Numbers of workers *)
Definition known_ok (next : Z) (known : list (Z * Z * Z)) : Prop := NoDup (map fst known) /\ NoDup (map snd known) /\ forall a, In a known -> snd a < next.
Lemma known_in l w (known : list (Z * Z * Z)) : existsb (fun '(l', w', _) => (l' =? l) && (w' =? w)) known = true <-> In (l, w) (map fst known).
Proof.
  rewrite existsb_exists. split.
  - intros ([[l' w'] n] & I & E). apply andb_true_iff in E. destruct E as [E1 E2]. apply Z.eqb_eq in E1, E2. subst. apply (in_map fst) in I. exact I.
  - intros I. apply in_map_iff in I. destruct I as ([[l' w'] n] & E & I). cbn in E. injection E as -> ->. exists (l, w, n). split; [exact I|]. rewrite !Z.eqb_refl. reflexivity.
Qed.
Lemma number_workers_ok fs : forall next known, known_ok next known -> exists next', known_ok next' (number_workers next known fs) /\ (forall a, In a known -> In a (number_workers next known fs)) /\ forall f, In f fs -> In (f_loc f, f_worker f) (map fst (number_workers next known fs)).
Proof.
  induction fs as [|f fs IH]; intros next known K; [exists next; split; [exact K|split; [intros a I; exact I|intros f []]]|]. cbn [number_workers]. destruct (existsb _ known) eqn:E.
  - apply known_in in E. destruct (IH next known K) as (next' & A & B & C). exists next'. split; [exact A|]. split; [exact B|]. intros g [<-|I]; [|apply C, I]. apply in_map_iff in E. destruct E as (a & Ea & Ia). rewrite <- Ea. apply in_map, B, Ia.
  - assert (N : ~ In (f_loc f, f_worker f) (map fst known)) by (intros Q; apply known_in in Q; congruence). destruct K as (K1 & K2 & K3). destruct (IH (next + 2) (known ++ [(f_loc f, f_worker f, next)])) as (next' & A & B & C).
    + split; [|split].
      * rewrite map_app. apply NoDup_join; [exact K1|constructor; [intros []|constructor]|]. intros a I [<-|[]]. apply N, I.
      * rewrite map_app. apply NoDup_join; [exact K2|constructor; [intros []|constructor]|]. intros a I [<-|[]]. cbn [snd] in I. apply in_map_iff in I. destruct I as (b & Eb & Ib). specialize (K3 b Ib). lia.
      * intros a I. apply in_app_or in I. destruct I as [I|[<-|[]]]; [specialize (K3 a I); lia|cbn; lia].
    + exists next'. split; [exact A|]. split; [intros a I; apply B, in_or_app; left; exact I|]. intros g [<-|I]; [|apply C, I]. apply (in_map fst _ (f_loc f, f_worker f, next)), B, in_or_app. right. left. reflexivity.
Qed.
Lemma number_of_in l w (known : list (Z * Z * Z)) : In (l, w) (map fst known) -> In (l, w, number_of l w known) known.
Proof.
  induction known as [|[[l' w'] n] known IH]; [intros []|]. cbn [map fst number_of In]. destruct ((l' =? l) && (w' =? w)) eqn:E; [apply andb_true_iff in E; destruct E as [E1 E2]; apply Z.eqb_eq in E1, E2; subst; left; reflexivity|]. intros [Q|Q]; [injection Q as -> ->; rewrite !Z.eqb_refl in E; discriminate|]. right. apply IH, Q.
Qed.
Lemma nodup_snd {A B} (l : list (A * B)) a a' b : NoDup (map snd l) -> In (a, b) l -> In (a', b) l -> a = a'.
Proof.
  induction l as [|[x y] l IH]; intros D I J; [destruct I|]. cbn [map snd] in D. apply NoDup_cons_iff in D. destruct D as [D1 D2]. destruct I as [I|I], J as [J|J]; [congruence| | |exact (IH D2 I J)].
  - injection I as -> ->. exfalso. apply D1, (in_map snd _ _ J).
  - injection J as -> ->. exfalso. apply D1, (in_map snd _ _ I).
Qed.
Lemma gid_injective fs l w l' w' : present fs l w -> present fs l' w' -> gid fs l w = gid fs l' w' -> l = l' /\ w = w'.
Proof.
  intros (f & If & <- & <-) (f' & If' & <- & <-) E. unfold gid in E. destruct (number_workers_ok fs 0 []) as (next & (_ & K2 & _) & _ & C); [split; [constructor|split; [constructor|intros a []]]|]. pose proof (number_of_in _ _ _ (C f If)) as A. pose proof (number_of_in _ _ _ (C f' If')) as A'. rewrite E in A. pose proof (nodup_snd _ _ _ _ K2 A A') as Q. injection Q as -> ->. split; reflexivity.
Qed.

(** ** Fitness *)
Lemma NoDup_map_in {A B} (f : A -> B) l : NoDup l -> (forall a b, In a l -> In b l -> f a = f b -> a = b) -> NoDup (map f l).
Proof.
  intros D. induction D as [|a l N D IH]; intros F; [constructor|]. cbn [map]. constructor; [|apply IH; intros x y I J; apply F; right; assumption]. intros I. apply in_map_iff in I. destruct I as (b & E & I). apply N. rewrite (F a b); [exact I|left; reflexivity|right; exact I|symmetry; exact E].
Qed.
Lemma sorted_nodup ks : StronglySorted Z.lt ks -> NoDup ks.
Proof. induction 1 as [|k ks S IH F]; [constructor|]. constructor; [|exact IH]. rewrite Forall_forall in F. intros I. specialize (F k I). lia. Qed.
Section Fit.
  Context (sort : list entry -> list entry) (z : Z -> Z) (fs : list file).
  Let g := sorted_worker sort z fs.
  Let t := whole true fs g.
  Lemma whole_workers : workers_of t = flat_map (fun l => map (g l) (wkeys fs l)) (lkeys fs).
  Proof.
    unfold workers_of, t, whole. cbn [t_locs]. unfold keyed. induction (lkeys fs) as [|l ls IH]; [reflexivity|]. cbn [map flat_map l_workers]. rewrite IH. f_equal. rewrite map_map. reflexivity.
  Qed.
  Lemma whole_homes : map home (workers_of t) = flat_map (fun l => map (pair l) (wkeys fs l)) (lkeys fs).
  Proof. rewrite whole_workers. induction (lkeys fs) as [|l ls IH]; [reflexivity|]. cbn [flat_map]. rewrite map_app, IH, map_map. reflexivity. Qed.
  Lemma homes_once : NoDup (map home (workers_of t)).
  Proof.
    rewrite whole_homes. pose proof (sorted_nodup _ (lkeys_sorted fs)) as D. induction D as [|l ls N D IH]; [constructor|]. cbn [flat_map]. apply NoDup_join; [|exact IH|].
    - apply FinFun.Injective_map_NoDup; [intros a b Q; congruence|apply sorted_nodup, wkeys_sorted].
    - intros [a b] I J. apply in_map_iff in I. destruct I as (w & Q & _). injection Q as <- <-. apply in_flat_map in J. destruct J as (l' & Il & J). apply in_map_iff in J. destruct J as (w' & Q & _). injection Q as -> _. contradiction.
  Qed.
  Lemma worker_in x : In x (workers_of t) <-> exists l w, present fs l w /\ x = g l w.
  Proof.
    rewrite whole_workers, in_flat_map. split.
    - intros (l & _ & I). apply in_map_iff in I. destruct I as (w & <- & I). exists l, w. split; [apply wkeys_in, I|reflexivity].
    - intros (l & w & P & ->). apply in_keys in P. destruct P as [P1 P2]. exists l. split; [exact P1|apply in_map, P2].
  Qed.
  Lemma has_in l : has_locality t l = true <-> In l (lkeys fs).
  Proof. unfold has_locality, t, whole. cbn [t_locs]. rewrite lookup_keyed. destruct (in_dec Z.eq_dec l (lkeys fs)); split; intros H; try reflexivity; try assumption; try discriminate; contradiction. Qed.
  Lemma lkeys_present l : In l (lkeys fs) <-> exists w, present fs l w.
  Proof. rewrite lkeys_in. split; [intros (f & I & <-); exists (f_worker f), f; split; [exact I|split; reflexivity]|intros (w & f & I & El & _); exists f; split; assumption]. Qed.
  Theorem loaded_fit : fs <> [] -> (forall f, In f fs -> 0 <= f_loc f < 2147483647) -> exists m, fit t (gid fs) m.
  Proof.
    intros Nf Rg. assert (Le : lkeys fs <> []). { destruct fs as [|f r]; [contradiction|]. intros Q. assert (I : In (f_loc f) (lkeys (f :: r))) by (apply lkeys_in; exists f; split; [left; reflexivity|reflexivity]). rewrite Q in I. destruct I. }
    destruct (exists_last Le) as (ks & m & Ek). exists m. assert (Im : In m (lkeys fs)) by (rewrite Ek; apply in_elt).
    assert (Mx : forall l, In l (lkeys fs) -> l <= m). { intros l I. pose proof (lkeys_sorted fs) as S. rewrite Ek in S, I. clear - S I. induction ks as [|k ks IH]; cbn [app] in S, I; [destruct I as [<-|[]]; lia|]. inversion S as [|? ? S' F]; subst. destruct I as [<-|I]; [|apply IH; assumption]. rewrite Forall_forall in F. specialize (F m (in_elt m ks [])). lia. }
    assert (Rk : forall l, In l (lkeys fs) -> 0 <= l < 2147483647) by (intros l I; apply lkeys_in in I; destruct I as (f & I & <-); apply Rg, I).
    split.
    - exact homes_once.
    - intros l w evs. split.
      + intros H. assert (P : present fs l w). { apply in_keys. unfold t in H. rewrite whole_events in H. destruct (in_dec Z.eq_dec l (lkeys fs)); [|discriminate]. destruct (in_dec Z.eq_dec w (wkeys fs l)); [split; assumption|discriminate]. } unfold t in H. rewrite (whole_present true fs g l w P) in H. injection H as <-. exists (g l w). split; [apply worker_in; exists l, w; split; [exact P|reflexivity]|split; [reflexivity|split; reflexivity]].
      + intros (x & I & <- & <- & <-). apply worker_in in I. destruct I as (l & w & P & ->). cbn [w_loc w_id g sorted_worker]. apply (whole_present true fs g l w P).
    - intros l. rewrite has_in, lkeys_present. split.
      + intros [w P]. exists w, (w_events (g l w)). apply (whole_present true fs g l w P).
      + intros (w & evs & H). exists w. apply in_keys. unfold t in H. rewrite whole_events in H. destruct (in_dec Z.eq_dec l (lkeys fs)); [|discriminate]. destruct (in_dec Z.eq_dec w (wkeys fs l)); [split; assumption|discriminate].
    - unfold max_locality, t, whole. cbn [t_locs]. rewrite Ek. unfold keyed. rewrite map_app, rev_app_distr. reflexivity.
    - apply Rk, Im.
    - intros l H. apply has_in in H. specialize (Rk l H). specialize (Mx l H). lia.
    - replace (map (number (gid fs)) (workers_of t)) with (map (fun p => gid fs (fst p) (snd p)) (map home (workers_of t))) by (rewrite map_map; reflexivity). apply NoDup_map_in; [exact homes_once|]. intros [a b] [c d] I J Q. apply in_map_iff in I, J. destruct I as (x & Ex & I), J as (y & Ey & J). injection Ex as <- <-. injection Ey as <- <-. apply worker_in in I, J. destruct I as (l & w & P & ->), J as (l' & w' & P' & ->). cbn [w_loc w_id g sorted_worker fst snd] in *. destruct (gid_injective fs l w l' w' P P' Q) as [-> ->]. reflexivity.
  Qed.
End Fit.
