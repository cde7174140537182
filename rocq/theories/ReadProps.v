(** Properties C85 and C86: reading trace files, putting a trace together. *)
From Coq Require Import String Ascii ZArith List Bool Arith Lia Permutation Sorted.
From Verif Require Import Base ListFacts TraceModel ReadModel ReadSpec ReadProofs ReadTrace ReadLoad.
Import ListNotations.
Open Scope Z_scope.

(** ** C85: names *)
Definition network_event (k : kind) : Prop := k = Begin Progress \/ k = End Progress.
Definition network_class (c : text) : Prop := c = str "NETWORK".
Definition other_class (c : text) : Prop := In c [str "SCHED"; str "LCO"; str "PROCESS"; str "MEMORY"; str "TRACE"].

Lemma same_iff a b : same_text a b = true <-> a = b.
Proof. unfold same_text. destruct (list_eq_dec ascii_dec a b); split; intros H; try congruence; reflexivity. Qed.
Lemma from_in l s k : from_name l s = Some k -> In (s, k) l.
Proof. induction l as [|[n k'] l IH]; [discriminate|]. cbn [from_name]. destruct (same_text s n) eqn:E; [apply same_iff in E; intros H; left; congruence|intros H; right; apply IH, H]. Qed.
Lemma dashmm_iff s k : from_name dashmm_names s = Some k <-> s = str (event_name k) /\ ~ network_event k.
Proof.
  unfold network_event. split.
  - intros H. apply from_in in H. cbn [dashmm_names In] in H. repeat (destruct H as [H|H]; [injection H as <- <-; split; [reflexivity|intros [Q|Q]; discriminate Q]|]). destruct H.
  - intros [-> N]. destruct k as [w|w|]; [destruct w|destruct w|]; try reflexivity; exfalso; apply N; [left|right]; reflexivity.
Qed.
Lemma network_iff s k : from_name network_names s = Some k <-> s = str (event_name k) /\ network_event k.
Proof.
  unfold network_event. split.
  - intros H. apply from_in in H. cbn [network_names In] in H. repeat (destruct H as [H|H]; [injection H as <- <-; split; [reflexivity|(left; reflexivity) || (right; reflexivity)]|]). destruct H.
  - intros [-> [->| ->]]; reflexivity.
Qed.
(** Class and name select an event exactly if the class has it and the name is its name. *)
Theorem C85_kinds : forall c e k, proto c e = Some k <-> e = str (event_name k) /\ (network_class c /\ network_event k \/ other_class c /\ ~ network_event k).
Proof.
  intros c e k. unfold proto, network_class. destruct (same_text c (str "NETWORK")) eqn:E.
  - apply same_iff in E. subst c. rewrite network_iff. split; [intros [A B]; auto|]. intros [A [[_ B]|[B _]]]; [auto|]. exfalso. cbn [other_class In] in B. repeat (destruct B as [B|B]; [discriminate B|]). destruct B.
  - assert (N : c <> str "NETWORK") by (intros Q; apply same_iff in Q; congruence). match goal with |- context [if ?b then _ else _] => destruct b eqn:O end.
    + rewrite dashmm_iff. assert (B : other_class c). { rewrite !orb_true_iff, !same_iff in O. unfold other_class. cbn [In]. intuition congruence. } split; [intros [A D]; auto|]. intros [A [[D _]|[_ D]]]; [contradiction|auto].
    + split; [discriminate|]. intros [_ [[D _]|[D _]]]; [contradiction|]. exfalso. apply Bool.not_true_iff_false in O. apply O. rewrite !orb_true_iff, !same_iff. unfold other_class in D. cbn [In] in D. intuition congruence.
Qed.
Print Assumptions C85_kinds.
Example C85_kinds_nonvacuous : proto (str "TRACE") (str "DASHMM_MTOL_END") = Some (End MtoL) /\ proto (str "NETWORK") (str "DASHMM_MTOL_END") = None.
Proof. split; reflexivity. Qed.

(** The events read pair up: a kind of work has one number, no other work shares it, and it is
    not 0, which segment.h:95 takes for no segment at all. *)
Theorem C85_segments : (forall w w', segment_id w = segment_id w' -> w = w') /\ (forall w s, event_of (Begin w) s = mkE s (segment_id w) true false /\ event_of (End w) s = mkE s (segment_id w) false true /\ segment_id w <> 0).
Proof. split; [intros [] []; try reflexivity; discriminate|intros w s; split; [reflexivity|split; [reflexivity|destruct w; discriminate]]]. Qed.
Print Assumptions C85_segments.

Lemma dots (p : text) : part_of_name p -> p <> [] /\ ~ In "."%char p.
Proof. intros (A & B & _). split; assumption. Qed.
Lemma no_slash_decimal s n : decimal s n -> part_of_name s.
Proof. intros (N & F & _). split; [exact N|]. rewrite Forall_forall in F. split; intros I; specialize (F _ I); cbn in F; lia. Qed.
Lemma event_part c k : (network_class c /\ network_event k \/ other_class c /\ ~ network_event k) -> c <> [] /\ ~ In "_"%char c /\ part_of_name (c ++ ["_"%char] ++ str (event_name k)).
Proof.
  intros H. assert (C : In c [str "NETWORK"; str "SCHED"; str "LCO"; str "PROCESS"; str "MEMORY"; str "TRACE"]) by (destruct H as [[H _]|[H _]]; [left; symmetry; exact H|right; exact H]). clear H.
  assert (D : forall x (l : text), existsb (Ascii.eqb x) l = false -> ~ In x l) by (intros x l E I; assert (Q : existsb (Ascii.eqb x) l = true) by (apply existsb_exists; exists x; split; [exact I|apply Ascii.eqb_refl]); congruence).
  cbn [In] in C. repeat (destruct C as [<-|C]; [split; [discriminate|]; split; [apply D; reflexivity|]; split; [discriminate|]; destruct k as [w|w|]; [destruct w|destruct w|]; split; apply D; reflexivity|]). destruct C.
Qed.
(** A name of the form the runtime writes gives the locality, the worker and the kind. *)
Theorem C85_name : forall dir loc worker a b cls k ext l w, directory dir -> decimal loc l -> decimal worker w -> l < 2 ^ 31 -> w < 2 ^ 31 -> part_of_name a -> part_of_name b -> part_of_name ext ->
  (network_class cls /\ network_event k \/ other_class cls /\ ~ network_event k) -> interpret_filename (file_name dir loc worker a b cls (str (event_name k)) ext) = Ok (l, w, k).
Proof.
  intros dir loc worker a b cls k ext l w Hd Hl Hw Bl Bw Ha Hb He Hk. destruct (event_part cls k Hk) as (Nc & Uc & Pc). unfold interpret_filename, file_name.
  set (ev := cls ++ ["_"%char] ++ str (event_name k)) in *. set (final := loc ++ "."%char :: worker ++ "."%char :: a ++ "."%char :: b ++ "."%char :: ev ++ "."%char :: ext).
  replace (dir ++ loc ++ ["."%char] ++ worker ++ ["."%char] ++ a ++ ["."%char] ++ b ++ ["."%char] ++ cls ++ ["_"%char] ++ str (event_name k) ++ ["."%char] ++ ext) with (dir ++ final) by (unfold final, ev; rewrite <- !app_assoc; reflexivity).
  pose proof (no_slash_decimal _ _ Hl) as Pl. pose proof (no_slash_decimal _ _ Hw) as Pw.
  assert (Ns : ~ In "/"%char final). { unfold final. intros I. repeat (apply in_app_or in I; destruct I as [I|I]; [unfold part_of_name in *; tauto|]; destruct I as [I|I]; [discriminate I|]). unfold part_of_name in *. tauto. }
  rewrite (split_last _ _ _ Ns Hd). cbn [bind].
  assert (Es : split final "."%char = [loc; worker; a; b; ev; ext]).
  { unfold split. rewrite split_pieces. cbn [skipn]. unfold final at 2. assert (Len : (6 <= S (length final))%nat) by (unfold final; rewrite !app_length; cbn [length]; rewrite !app_length; cbn [length]; rewrite !app_length; cbn [length]; rewrite !app_length; cbn [length]; rewrite !app_length; cbn [length]; lia).
    remember (S (length final)) as fuel eqn:Q. clear Q. do 6 (destruct fuel as [|fuel]; [lia|]). do 5 (rewrite pieces_cons by (unfold part_of_name in *; tauto)). rewrite pieces_end by (unfold part_of_name in *; tauto). reflexivity. }
  rewrite Es. cbn [length Nat.eqb negb nth_res nth_error bind]. rewrite (stoi_ok _ _ Hl Bl). cbn [bind]. rewrite (stoi_ok _ _ Hw Bw). cbn [bind]. unfold ev. cbn [app]. rewrite (split_once_ok _ _ _ Uc Nc). cbn [nth_res nth_error bind].
  destruct cls as [|c0 cls]; [contradiction|]. assert (Ne : str (event_name k) <> []) by (destruct k as [x|x|]; [destruct x|destruct x|]; discriminate). destruct (str (event_name k)) as [|e0 en] eqn:Ee; [contradiction|]. rewrite <- Ee. rewrite (proj2 (C85_kinds (c0 :: cls) (str (event_name k)) k)) by (split; [reflexivity|exact Hk]). reflexivity.
Qed.
Print Assumptions C85_name.
Example C85_name_nonvacuous : file_name (str "/tmp/run.1/") (str "012") (str "3") (str "00002") (str "hpx") (str "TRACE") (str (event_name (Begin StoT))) (str "npy") = str "/tmp/run.1/012.3.00002.hpx.TRACE_DASHMM_STOT_BEGIN.npy" /\
  directory (str "/tmp/run.1/") /\ decimal (str "012") 12 /\ decimal (str "3") 3 /\ part_of_name (str "hpx") /\ interpret_filename (str "/tmp/run.1/012.3.00002.hpx.TRACE_DASHMM_STOT_BEGIN.npy") = Ok (12, 3, Begin StoT).
Proof.
  split; [reflexivity|]. split; [right; exists (str "/tmp/run.1"); reflexivity|]. split; [split; [discriminate|]; split; [repeat constructor|reflexivity]|]. split; [split; [discriminate|]; split; [repeat constructor|reflexivity]|]. split; [|vm_compute; reflexivity].
  split; [discriminate|]. split; cbn; intros H; repeat (destruct H as [H|H]; [discriminate H|]); exact H.
Qed.

(** Names that do not have the form are taken for ones that have it: whatever follows the digits
    of a number is dropped, empty parts do not count, and numbers may be negative. *)
Theorem C85_name_refuted : interpret_filename (str "7x..3.a.b.TRACE_DASHMM_STOT_BEGIN.c") = Ok (7, 3, Begin StoT) /\ interpret_filename (str "-1.2zz.a.b.MEMORY_DASHMM_ZEROREF.c") = Ok (-1, 2, ZeroRef).
Proof. split; vm_compute; reflexivity. Qed.
Print Assumptions C85_name_refuted.

(** ** C85: contents *)
Theorem C85_contents : forall version header stamps, length version = 2%nat -> Z.of_nat (length header) < 65536 -> Forall stamp64 stamps ->
  (do rest <- check_and_skip_header (contents version header stamps); read_stamps rest) = Ok stamps.
Proof.
  intros v h s Hv Hh Hs. unfold contents. rewrite header_ok by assumption. cbn [bind]. rewrite <- (app_nil_r (concat _)), read_app by exact Hs. cbn [read_stamps bind]. rewrite app_nil_r. reflexivity.
Qed.
Print Assumptions C85_contents.
(** A file cut off within a stamp is refused, as is one without the six first bytes. *)
Theorem C85_truncated : forall version header stamps part, length version = 2%nat -> Z.of_nat (length header) < 65536 -> Forall stamp64 stamps -> (0 < length part < 8)%nat ->
  (do rest <- check_and_skip_header (contents version header stamps ++ part); read_stamps rest) = Fail BadOp.
Proof.
  intros v h s p Hv Hh Hs Hp. unfold contents. rewrite <- !app_assoc. rewrite header_ok by assumption. cbn [bind]. rewrite read_app by exact Hs. rewrite read_part by exact Hp. reflexivity.
Qed.
Print Assumptions C85_truncated.
Theorem C85_header : forall bytes rest, check_and_skip_header bytes = Ok rest -> exists more, bytes = codes "HPXnpy" ++ more.
Proof. exact header_only. Qed.
Print Assumptions C85_header.
(** Name and contents together. *)
Theorem C85_file : forall dir loc worker a b cls k ext l w version header stamps, directory dir -> decimal loc l -> decimal worker w -> l < 2 ^ 31 -> w < 2 ^ 31 -> part_of_name a -> part_of_name b -> part_of_name ext ->
  (network_class cls /\ network_event k \/ other_class cls /\ ~ network_event k) -> length version = 2%nat -> Z.of_nat (length header) < 65536 -> Forall stamp64 stamps ->
  open_file (file_name dir loc worker a b cls (str (event_name k)) ext) (contents version header stamps) = Ok (mkFile l w k stamps).
Proof.
  intros dir loc worker a b cls k ext l w v h s Hd Hl Hw Bl Bw Ha Hb He Hk Hv Hh Hs. unfold open_file. rewrite (C85_name dir loc worker a b cls k ext l w) by assumption. cbn [bind]. pose proof (C85_contents v h s Hv Hh Hs) as E. destruct (check_and_skip_header (contents v h s)); [|discriminate]. cbn [bind] in E |- *. rewrite E. reflexivity.
Qed.
Print Assumptions C85_file.
Example C85_contents_nonvacuous : contents [1; 0] [123; 125] [258; 2 ^ 64 - 1] = [72; 80; 88; 110; 112; 121; 1; 0; 2; 0; 123; 125; 2; 1; 0; 0; 0; 0; 0; 0; 255; 255; 255; 255; 255; 255; 255; 255] /\ Forall stamp64 [258; 2 ^ 64 - 1].
Proof. split; [vm_compute; reflexivity|repeat constructor; cbn; lia]. Qed.
(** A header claimed to be longer than the file leaves no events, and no error. *)
Theorem C85_long_header_refuted : (do rest <- check_and_skip_header (codes "HPXnpy" ++ [1; 0] ++ [255; 255] ++ [123; 125] ++ little_endian 8 258); read_stamps rest) = Ok [].
Proof. vm_compute. reflexivity. Qed.
Print Assumptions C85_long_header_refuted.

(** ** C86 *)
(** Every worker gets the events of all its files and no others, in order of time, counted from
    the zero of its locality; the number of events and the first and last time are right, and no
    file can be added afterwards. *)
Theorem C86_load : forall sort args fs, sort_contract sort -> Forall (fun a => Forall byte (snd a)) args -> Forall2 (fun a f => open_file (fst a) (snd a) = Ok f) args fs -> (forall l w, present fs l w -> belonging fs l w <> []) ->
  exists t lo hi, load sort args = Ok (t, lo, hi, list_sum (map (fun f => length (f_stamps f)) fs)) /\
    (forall l w, present fs l w -> exists z evs, zero_of fs l z /\ events_of t l w = Some evs /\ Permutation evs (map (since z) (belonging fs l w)) /\ StronglySorted (fun a b => e_stamp a <= e_stamp b) evs) /\
    (forall l w, ~ present fs l w -> events_of t l w = None) /\
    (forall l w evs e, events_of t l w = Some evs -> In e evs -> lo <= e_stamp e <= hi) /\
    (fs <> [] -> exists l w evs e l' w' evs' e', events_of t l w = Some evs /\ In e evs /\ e_stamp e = lo /\ events_of t l' w' = Some evs' /\ In e' evs' /\ e_stamp e' = hi) /\
    (forall f, trace_add t f = Fail BadOp).
Proof. exact loaded. Qed.
Print Assumptions C86_load.
(** There is one zero, and as long as no event precedes it, times are the differences to it. *)
Theorem C86_zero : forall fs l, (exists z, zero_of fs l z) /\ (forall z z', zero_of fs l z -> zero_of fs l z' -> z = z') /\
  (forall z e, 0 <= z <= e_stamp e -> stamp64 (e_stamp e) -> e_stamp (since z e) = e_stamp e - z /\ e_kind (since z e) = e_kind e).
Proof.
  intros fs l. split; [|split].
  - assert (G : forall ks, StronglySorted Z.lt ks -> (exists w z, In w ks /\ marks fs l w z /\ forall w' z', In w' ks -> w' < w -> ~ marks fs l w' z') \/ forall w z, In w ks -> ~ marks fs l w z).
    { intros ks S. induction S as [|k ks S IH F]; [right; intros w z []|]. assert (D : (exists z, marks fs l k z) \/ forall z, ~ marks fs l k z). { unfold marks. destruct (belonging fs l k) as [|[k0 s0] r]; [right; intros z [_ [r H]]; discriminate|]. destruct k0; try (right; intros z [_ [r' H]]; discriminate). destruct (Z.eq_dec s0 (2 ^ 64 - 1)) as [->|N]; [right; intros z [N [r' H]]; congruence|left; exists s0; split; [exact N|exists r; reflexivity]]. }
      destruct D as [[z M]|N]; [left; exists k, z; split; [left; reflexivity|]; split; [exact M|]; intros w' z' [<-|I] L; [lia|rewrite Forall_forall in F; specialize (F w' I); lia]|].
      destruct IH as [(w & z & I & M & L)|IH]; [left; exists w, z; split; [right; exact I|]; split; [exact M|]; intros w' z' [<-|I'] Lw; [apply N|exact (L w' z' I' Lw)]|right; intros w z [<-|I]; [apply N|apply IH, I]]. }
    assert (P : forall w z, marks fs l w z -> In w (wkeys fs l)). { intros w z [_ [r M]]. destruct (in_dec Z.eq_dec w (wkeys fs l)) as [I|N]; [exact I|]. rewrite wkeys_in in N. rewrite (absent_belonging _ _ _ N) in M. discriminate. }
    destruct (G _ (wkeys_sorted fs l)) as [(w & z & I & M & L)|N]; [exists z; left; exists w; split; [exact M|]; intros w' z' Lw M'; exact (L w' z' (P _ _ M') Lw M')|exists 0; right; split; [intros w z M; exact (N w z (P _ _ M) M)|reflexivity]].
  - intros z z'. apply zero_unique.
  - intros z e H S. unfold since. destruct (z =? 0) eqn:E; [apply Z.eqb_eq in E; subst z; split; [lia|reflexivity]|]. cbn [e_stamp e_kind]. unfold stamp64 in S. rewrite Z.mod_small by lia. split; reflexivity.
Qed.
Print Assumptions C86_zero.

(** Without reference events the order of the files does not matter. *)
Lemma belonging_perm fs gs l w : Permutation fs gs -> Permutation (belonging fs l w) (belonging gs l w).
Proof.
  intros P. unfold belonging. induction P as [|f fs gs P IH|f g fs|fs gs hs P IH Q IH2]; [constructor| | |eapply Permutation_trans; eassumption].
  - cbn [filter]. destruct ((f_loc f =? l) && (f_worker f =? w)); [cbn [map concat]; apply Permutation_app_head, IH|exact IH].
  - cbn [filter]. destruct ((f_loc f =? l) && (f_worker f =? w)), ((f_loc g =? l) && (f_worker g =? w)); cbn [map concat]; try apply Permutation_refl. rewrite !app_assoc. apply Permutation_app_tail, Permutation_app_comm.
Qed.
Lemma present_perm fs gs l w : Permutation fs gs -> present fs l w -> present gs l w.
Proof. intros P (f & I & H). exists f. split; [eapply Permutation_in; eassumption|exact H]. Qed.
Lemma no_marks fs l : (forall f, In f fs -> f_kind f <> ZeroRef) -> forall w z, ~ marks fs l w z.
Proof.
  intros H w z [_ [r M]]. assert (I : In (mkEntry ZeroRef z) (belonging fs l w)) by (rewrite M; left; reflexivity). unfold belonging in I. apply in_concat in I. destruct I as (x & Hx & I). apply in_map_iff in Hx. destruct Hx as (f & <- & Hf). apply filter_In in Hf. apply in_map_iff in I. destruct I as (s & E & _). apply (H f (proj1 Hf)). congruence.
Qed.
Theorem C86_order : forall sort args args' fs, sort_contract sort -> Forall (fun a => Forall byte (snd a)) args -> Forall2 (fun a f => open_file (fst a) (snd a) = Ok f) args fs -> (forall l w, present fs l w -> belonging fs l w <> []) ->
  (forall f, In f fs -> f_kind f <> ZeroRef) -> Permutation args args' ->
  exists t t' lo hi n, load sort args = Ok (t, lo, hi, n) /\ load sort args' = Ok (t', lo, hi, n) /\
    forall l w, match events_of t l w, events_of t' l w with Some a, Some b => Permutation a b | None, None => True | _, _ => False end.
Proof.
  intros sort args args' fs S By Op Ne Nz Pa.
  assert (X : exists fs', Forall2 (fun a f => open_file (fst a) (snd a) = Ok f) args' fs' /\ Permutation fs fs').
  { clear By Ne Nz. revert fs Op. induction Pa as [|a l l' P IH|a b l|l m n P IH Q IH2]; intros fs Op.
    - exists fs. split; [exact Op|apply Permutation_refl].
    - inversion Op as [|? f ? fs0 H Op']; subst. destruct (IH fs0 Op') as (fs' & O' & P'). exists (f :: fs'). split; [constructor; assumption|constructor; exact P'].
    - inversion Op as [|? f ? fs0 H Op']; subst. inversion Op' as [|? g ? fs1 H' Op'']; subst. exists (g :: f :: fs1). split; [constructor; [exact H'|constructor; [exact H|exact Op'']]|apply perm_swap].
    - destruct (IH fs Op) as (f1 & O1 & P1). destruct (IH2 f1 O1) as (f2 & O2 & P2). exists f2. split; [exact O2|eapply Permutation_trans; eassumption]. }
  destruct X as (fs' & Op' & Pf). assert (By' : Forall (fun a => Forall byte (snd a)) args') by (rewrite Forall_forall in *; intros a I; apply By, (Permutation_in _ (Permutation_sym Pa)), I).
  assert (Ne' : forall l w, present fs' l w -> belonging fs' l w <> []). { intros l w P C. apply (Ne l w (present_perm _ _ _ _ (Permutation_sym Pf) P)). pose proof (belonging_perm fs fs' l w Pf) as Q. rewrite C in Q. apply Permutation_sym, Permutation_nil in Q. exact Q. }
  assert (Nz' : forall f, In f fs' -> f_kind f <> ZeroRef) by (intros f I; apply Nz, (Permutation_in _ (Permutation_sym Pf)), I).
  destruct (loaded sort args fs S By Op Ne) as (t & lo & hi & E & W & A & B & At & _). destruct (loaded sort args' fs' S By' Op' Ne') as (t' & lo' & hi' & E' & W' & A' & B' & At' & _).
  assert (Z0 : forall gs l z, (forall f, In f gs -> f_kind f <> ZeroRef) -> zero_of gs l z -> z = 0) by (intros gs l z H [(w & M & _)|[_ Q]]; [exfalso; exact (no_marks gs l H w z M)|exact Q]).
  assert (Ev : forall l w, match events_of t l w, events_of t' l w with Some a, Some b => Permutation a b | None, None => True | _, _ => False end).
  { intros l w. destruct (in_dec Z.eq_dec w (wkeys fs l)) as [I|N].
    - apply wkeys_in in I. destruct (W l w I) as (z & evs & Hz & -> & P & _). destruct (W' l w (present_perm _ _ _ _ Pf I)) as (z' & evs' & Hz' & -> & P' & _). apply (Z0 fs l z Nz) in Hz. apply (Z0 fs' l z' Nz') in Hz'. subst z z'. eapply Permutation_trans; [exact P|]. eapply Permutation_trans; [apply Permutation_map, belonging_perm, Pf|apply Permutation_sym, P'].
    - rewrite wkeys_in in N. rewrite (A l w N), (A' l w); [exact I|]. intros P. apply N, (present_perm _ _ _ _ (Permutation_sym Pf) P). }
  assert (Tr : forall l w evs e, events_of t l w = Some evs -> In e evs -> exists evs', events_of t' l w = Some evs' /\ In e evs') by (intros l w evs e Q I; specialize (Ev l w); rewrite Q in Ev; destruct (events_of t' l w) as [b|]; [|contradiction]; exists b; split; [reflexivity|eapply Permutation_in; eassumption]).
  assert (Tr' : forall l w evs e, events_of t' l w = Some evs -> In e evs -> exists evs', events_of t l w = Some evs' /\ In e evs') by (intros l w evs e Q I; specialize (Ev l w); rewrite Q in Ev; destruct (events_of t l w) as [b|]; [|contradiction]; exists b; split; [reflexivity|eapply Permutation_in; [apply Permutation_sym; exact Ev|exact I]]).
  assert (Sn : list_sum (map (fun f => length (f_stamps f)) fs) = list_sum (map (fun f => length (f_stamps f)) fs')) by (clear - Pf; unfold list_sum; induction Pf; cbn [map fold_right] in *; lia).
  assert (Eq : lo = lo' /\ hi = hi').
  { destruct fs as [|f0 fr].
    - apply Permutation_nil in Pf. subst fs'. inversion Op; subst. inversion Op'; subst. rewrite E in E'. injection E' as <- <- <-. split; reflexivity.
    - assert (N1 : f0 :: fr <> []) by discriminate. assert (N2 : fs' <> []) by (intros ->; apply Permutation_sym, Permutation_nil in Pf; discriminate).
      destruct (At N1) as (l1 & w1 & v1 & e1 & l2 & w2 & v2 & e2 & G1 & I1 & H1 & G2 & I2 & H2). destruct (At' N2) as (l3 & w3 & v3 & e3 & l4 & w4 & v4 & e4 & G3 & I3 & H3 & G4 & I4 & H4).
      destruct (Tr _ _ _ _ G1 I1) as (u1 & K1 & J1). destruct (Tr _ _ _ _ G2 I2) as (u2 & K2 & J2). destruct (Tr' _ _ _ _ G3 I3) as (u3 & K3 & J3). destruct (Tr' _ _ _ _ G4 I4) as (u4 & K4 & J4).
      pose proof (B' _ _ _ _ K1 J1). pose proof (B' _ _ _ _ K2 J2). pose proof (B _ _ _ _ K3 J3). pose proof (B _ _ _ _ K4 J4). lia. }
  destruct Eq as [<- <-]. rewrite <- Sn in E'. exists t, t', lo, hi, (list_sum (map (fun f => length (f_stamps f)) fs)). split; [exact E|]. split; [exact E'|exact Ev].
Qed.
Print Assumptions C86_order.

(** A worker whose files hold no event stops the program with an access outside of an array. *)
Theorem C86_empty_refuted : forall sort args fs l w, Forall2 (fun a f => open_file (fst a) (snd a) = Ok f) args fs -> present fs l w -> belonging fs l w = [] -> load sort args = Fail Oob.
Proof. exact empty_fails. Qed.
Print Assumptions C86_empty_refuted.

(** A sort for the examples *)
Fixpoint put (e : entry) (l : list entry) : list entry := match l with [] => [e] | x :: l' => if e_stamp e <=? e_stamp x then e :: l else x :: put e l' end.
Definition isort (l : list entry) : list entry := fold_right put [] l.
Lemma isort_ok : sort_contract isort.
Proof.
  assert (P : forall e l, Permutation (put e l) (e :: l)) by (intros e l; induction l as [|x l IH]; [apply Permutation_refl|]; cbn [put]; destruct (e_stamp e <=? e_stamp x); [apply Permutation_refl|]; eapply Permutation_trans; [apply perm_skip, IH|apply perm_swap]).
  intros l. induction l as [|e l [IP IS]]; [split; constructor|]. cbn [isort fold_right]. fold (isort l). split; [eapply Permutation_trans; [apply P|apply perm_skip, IP]|].
  clear IP. induction IS as [|x r S IH F]; [cbn; repeat constructor|]. cbn [put]. destruct (e_stamp e <=? e_stamp x) eqn:E.
  - apply Z.leb_le in E. constructor; [constructor; assumption|]. constructor; [exact E|]. rewrite Forall_forall in *. intros y Hy. specialize (F y Hy). lia.
  - apply Z.leb_gt in E. constructor; [exact IH|]. rewrite Forall_forall in *. intros y Hy. apply (Permutation_in _ (P e r)) in Hy. destruct Hy as [<-|Hy]; [lia|apply F, Hy].
Qed.
Definition ex_file (n : string) (stamps : list Z) : text * list Z := (str n, contents [1; 0] [123] stamps).
Definition ex_zero : text * list Z := ex_file "0.2.a.b.TRACE_DASHMM_ZEROREF.npy" [100].
Definition ex_begin : text * list Z := ex_file "0.2.a.b.TRACE_DASHMM_STOT_BEGIN.npy" [120; 110].
Definition ex_end : text * list Z := ex_file "0.2.a.b.TRACE_DASHMM_STOT_END.npy" [115; 130].
Definition ex_other : text * list Z := ex_file "1.0.a.b.NETWORK_PROGRESS_BEGIN.npy" [7].
Definition view (r : res (trace * Z * Z * nat)) (l w : Z) : option (list (kind * Z)) := match r with Ok (t, _, _, _) => option_map (map (fun e => (e_kind e, e_stamp e))) (events_of t l w) | Fail _ => None end.
Example C86_nonvacuous : exists fs, Forall2 (fun a f => open_file (fst a) (snd a) = Ok f) [ex_zero; ex_begin; ex_other; ex_end] fs /\ (forall l w, present fs l w -> belonging fs l w <> []) /\ zero_of fs 0 100 /\ zero_of fs 1 0 /\
  view (load isort [ex_zero; ex_begin; ex_other; ex_end]) 0 2 = Some [(ZeroRef, 0); (Begin StoT, 10); (End StoT, 15); (Begin StoT, 20); (End StoT, 30)] /\ view (load isort [ex_zero; ex_begin; ex_other; ex_end]) 1 0 = Some [(Begin Progress, 7)].
Proof.
  exists [mkFile 0 2 ZeroRef [100]; mkFile 0 2 (Begin StoT) [120; 110]; mkFile 1 0 (Begin Progress) [7]; mkFile 0 2 (End StoT) [115; 130]]. split; [repeat constructor; vm_compute; reflexivity|]. split; [|split; [|split; [|split; vm_compute; reflexivity]]].
  - intros l w (f & I & <- & <-). cbn [In] in I. repeat (destruct I as [<-|I]; [cbn; discriminate|]). destruct I.
  - left. exists 2. split; [split; [discriminate|eexists; reflexivity]|]. intros w' z' L [_ [r M]]. unfold belonging in M. cbn [filter f_loc f_worker] in M. rewrite (proj2 (Z.eqb_neq 2 w')) in M by lia. cbn in M. discriminate M.
  - right. split; [|reflexivity]. intros w z [_ [r M]]. unfold belonging in M. cbn [filter f_loc f_worker] in M. destruct (Z.eq_dec 0 w) as [<-|N]; [cbn in M; discriminate M|]. rewrite (proj2 (Z.eqb_neq 0 w) N) in M. cbn in M. discriminate M.
Qed.
(** The reference event counts only if its file comes before the other files of its worker. *)
Theorem C86_zero_order_refuted : Permutation [ex_zero; ex_begin] [ex_begin; ex_zero] /\ view (load isort [ex_zero; ex_begin]) 0 2 = Some [(ZeroRef, 0); (Begin StoT, 10); (Begin StoT, 20)] /\ view (load isort [ex_begin; ex_zero]) 0 2 = Some [(ZeroRef, 100); (Begin StoT, 110); (Begin StoT, 120)].
Proof. split; [apply perm_swap|]. split; vm_compute; reflexivity. Qed.
Print Assumptions C86_zero_order_refuted.
(** An event before the reference comes out as the last one of the trace, at nearly 2^64. *)
Theorem C86_before_zero_refuted : view (load isort [ex_zero; ex_file "0.2.a.b.TRACE_DASHMM_STOT_BEGIN.npy" [90; 110]]) 0 2 = Some [(ZeroRef, 0); (Begin StoT, 10); (Begin StoT, 2 ^ 64 - 10)].
Proof. vm_compute. reflexivity. Qed.
Print Assumptions C86_before_zero_refuted.
(** Segments that touch, read with a sort that keeps the order of equal times: the second begin
    comes before the first end and collating stops there. *)
Theorem C86_touching_refuted : sort_contract isort /\ exists evs, view (load isort [ex_file "0.2.a.b.TRACE_DASHMM_STOT_BEGIN.npy" [0; 5]; ex_file "0.2.a.b.TRACE_DASHMM_STOT_END.npy" [5; 9]]) 0 2 = Some evs /\
  fst (collate_all new_collator 0 0 2 (map (fun '(k, s) => event_of k s) evs)) = 1%nat.
Proof. split; [exact isort_ok|]. eexists. split; vm_compute; reflexivity. Qed.
Print Assumptions C86_touching_refuted.
