(** Edge insertion under the locks. *)
From Coq Require Import ZArith List Bool Arith Lia Permutation.
From Verif Require Import Base LookupModel DagModel LinkModel LinkSpec.
Import ListNotations.
Open Scope nat_scope.

Definition owned (l : link) : Prop := fst (l_source l) = l_src_info l /\ fst (l_dest l) = l_dest_info l.
Definition edge_of (l : link) : edge := mkEdge (l_op l) (l_source l) (l_dest l).

Lemma edge_op_edge : forall op this o, match edge_op op this o with Some l => owned l /\ call_edge (op, this, o) = Some (edge_of l) | None => call_edge (op, this, o) = None end.
Proof. intros [] this o; cbn; repeat split. Qed.
Lemma links_owned : forall cs, Forall owned (links_of cs).
Proof.
  induction cs as [|[[op this] o] cs IH]; [constructor|]. cbn [links_of flat_map]. fold (links_of cs). apply Forall_app. split; [|exact IH].
  pose proof (edge_op_edge op this o) as H. destruct (edge_op op this o); [|constructor]. constructor; [apply H|constructor].
Qed.
Lemma links_edges : forall cs, map edge_of (links_of cs) = edges_of cs.
Proof.
  induction cs as [|[[op this] o] cs IH]; [reflexivity|]. unfold links_of, edges_of. cbn [flat_map]. rewrite map_app. f_equal; [|exact IH].
  pose proof (edge_op_edge op this o) as H. destruct (edge_op op this o) as [l|]; [|rewrite H; reflexivity]. destruct H as [_ H]. rewrite H. reflexivity.
Qed.

(** ** Counting instructions *)
Definition isP (o : owner) (i : instr) : bool := match i with P o' => if owner_dec o' o then true else false | _ => false end.
Definition isV (o : owner) (i : instr) : bool := match i with V o' => if owner_dec o' o then true else false | _ => false end.
Definition isC (n : dnode) (i : instr) : bool := match i with WriteCount n' => if dnode_dec n' n then true else false | _ => false end.
Definition num (f : instr -> bool) (c : list instr) : nat := length (filter f c).
Definition outs (n : dnode) (c : list instr) : list (operation * dnode) :=
  flat_map (fun i => match i with WriteOut n' op d => if dnode_dec n' n then [(op, d)] else [] | _ => [] end) c.
Lemma num_app : forall f a b, num f (a ++ b) = num f a + num f b. Proof. intros. unfold num. rewrite filter_app, app_length. reflexivity. Qed.
Lemma num_cons : forall f i c, num f (i :: c) = (if f i then 1 else 0) + num f c. Proof. intros. unfold num. cbn. destruct (f i); reflexivity. Qed.
Lemma outs_cons : forall n i c, outs n (i :: c) = outs n [i] ++ outs n c. Proof. intros. unfold outs. cbn. rewrite app_nil_r. reflexivity. Qed.

Definition sumT (f : list instr -> nat) (ts : list thread) : nat := list_sum (map (fun t => f (code t)) ts).
Lemma sumT_mid : forall f a t b, sumT f (a ++ t :: b) = sumT f a + f (code t) + sumT f b.
Proof. intros. unfold sumT. rewrite map_app, list_sum_app. unfold list_sum. cbn. lia. Qed.
Lemma sumT_cons : forall f t b, sumT f (t :: b) = f (code t) + sumT f b.
Proof. reflexivity. Qed.
Definition outT (n : dnode) (ts : list thread) : list (operation * dnode) := flat_map (fun t => outs n (code t)) ts.
Lemma outT_mid : forall n a t b, outT n (a ++ t :: b) = outT n a ++ outs n (code t) ++ outT n b.
Proof. intros. unfold outT. rewrite flat_map_app. reflexivity. Qed.

Lemma outT_cons : forall n t b, outT n (t :: b) = outs n (code t) ++ outT n b. Proof. reflexivity. Qed.

(** ** The shape of a thread's code *)
Definition suffix (c : list instr) : Prop :=
  exists ph l rest, ph <= 7 /\ Forall owned (l :: rest) /\ c = skipn ph (link_code l) ++ flat_map link_code rest.
Definition okc (c : list instr) : Prop := c = [] \/ suffix c.
Lemma okc_all : forall ls, Forall owned ls -> okc (flat_map link_code ls).
Proof. intros [|l ls] H; [left; reflexivity|]. right. exists 0, l, ls. split; [lia|]. split; [assumption|reflexivity]. Qed.
Lemma okc_tail : forall i c, okc (i :: c) -> okc c.
Proof.
  intros i c [H|(ph & l & rest & L & O & E)]; [discriminate|]. destruct (Nat.eq_dec ph 7) as [->|N].
  - cbn in E. injection E as -> ->. apply okc_all. inversion O; assumption.
  - right. exists (S ph), l, rest. split; [lia|]. split; [exact O|].
    do 7 (destruct ph as [|ph]; [cbn in E; injection E as -> ->; reflexivity|]). lia.
Qed.

Lemma bal_all : forall o ls, num (isV o) (flat_map link_code ls) = num (isP o) (flat_map link_code ls).
Proof.
  intros o. induction ls as [|l ls IH]; [reflexivity|]. cbn [flat_map]. rewrite !num_app, IH. f_equal. unfold link_code. rewrite !num_cons. cbn [isV isP]. unfold num; cbn [filter length]. destruct (owner_dec (l_dest_info l) o), (owner_dec (l_src_info l) o); reflexivity.
Qed.
(** The lock a thread holds. *)
Lemma holds : forall c, okc c -> exists h : option owner,
  (forall o, num (isV o) c = num (isP o) c + match h with Some x => if owner_dec x o then 1 else 0 | None => 0 end) /\
  (forall n c', c = WriteCount n :: c' -> h = Some (fst n)) /\ (forall n op d c', c = WriteOut n op d :: c' -> h = Some (fst n)) /\
  (forall n c', c = ReadCount n :: c' -> h = Some (fst n) /\ exists c2, c' = WriteCount n :: c2) /\ (forall n c', c = ReadOut n :: c' -> h = Some (fst n) /\ exists op d c2, c' = WriteOut n op d :: c2) /\
  (forall o c', c = P o :: c' -> h = None /\ forall i c2, c' = i :: c2 -> (exists n, i = ReadCount n) \/ (exists n, i = ReadOut n)) /\
  (forall o c', c = V o :: c' -> forall i c2, c' = i :: c2 -> exists o', i = P o').
Proof.
  intros c [->|(ph & l & rest & L & O & E)].
  - exists None. repeat split; try discriminate; intros; discriminate.
  - assert (Ol : owned l) by (inversion O; assumption). destruct Ol as [Os Od]. destruct rest as [|l2 rest].
    all: assert (Hph : ph = 0 \/ ph = 1 \/ ph = 2 \/ ph = 3 \/ ph = 4 \/ ph = 5 \/ ph = 6 \/ ph = 7) by lia; clear L; destruct Hph as [->|[->|[->|[->|[->|[->|[->| ->]]]]]]].
    all: exists (match c with ReadCount n :: _ | WriteCount n :: _ => Some (fst n) | ReadOut n :: _ | WriteOut n _ _ :: _ => Some (fst n) | V o :: _ => Some o | _ => None end); subst c.
    all: split; [intros o; rewrite ?num_app, ?bal_all; cbn [skipn link_code app flat_map]; rewrite ?num_cons, ?num_app, ?bal_all; cbn [isV isP]; rewrite ?Od, ?Os; unfold link_code; rewrite ?num_cons; cbn [isV isP]; change (num (isV o) []) with 0; change (num (isP o) []) with 0; repeat (match goal with |- context [owner_dec ?a ?b] => destruct (owner_dec a b) end); lia|].
    all: cbn [skipn link_code app flat_map]; repeat split; intros; try discriminate; try congruence.
    all: repeat match goal with H : _ :: _ = _ :: _ |- _ => injection H; clear H; intros; subst end; try discriminate; eauto 6; try congruence.
Qed.

(** ** The invariant *)
Record Inv (es : list edge) (s : lstate) : Prop := {
  i_ok : forall t, In t (snd s) -> okc (code t);
  i_reg : forall t, In t (snd s) -> (forall n c, code t = WriteCount n :: c -> reg_count t = in_count (fst s) n) /\
            (forall n op d c, code t = WriteOut n op d :: c -> reg_out t = out_edges (fst s) n);
  i_sem : forall o, sema (fst s) o + sumT (num (isV o)) (snd s) = 1 + sumT (num (isP o)) (snd s);
  i_cnt : forall n, in_count (fst s) n + sumT (num (isC n)) (snd s) = length (into n es);
  i_out : forall n, Permutation (out_edges (fst s) n ++ outT n (snd s)) (map (fun e => (eop e, eto e)) (out_of n es)) }.

Definition inside (o : owner) (c : list instr) : Prop := num (isV o) c = S (num (isP o) c).
Lemma sum_ge : forall o ts, (forall t, In t ts -> okc (code t)) -> sumT (num (isP o)) ts <= sumT (num (isV o)) ts.
Proof.
  intros o. induction ts as [|t ts IH]; intros H; [cbn; lia|]. destruct (holds _ (H t (or_introl eq_refl))) as (h & Hh & _). specialize (Hh o). specialize (IH (fun t' I => H t' (or_intror I))).
  rewrite !sumT_cons. lia.
Qed.
Lemma sum_gt : forall o ts t, (forall t, In t ts -> okc (code t)) -> In t ts -> inside o (code t) -> S (sumT (num (isP o)) ts) <= sumT (num (isV o)) ts.
Proof.
  intros o ts t H I N. apply in_split in I. destruct I as (a & b & ->). rewrite !sumT_mid. pose proof (sum_ge o a (fun t' J => H t' (in_or_app _ _ _ (or_introl J)))). pose proof (sum_ge o b (fun t' J => H t' (in_or_app a (t :: b) t' (or_intror (or_intror J))))). unfold inside in N. lia.
Qed.
Lemma exclusive : forall es m t1 t t2 t' o, Inv es (m, t1 ++ t :: t2) -> In t' (t1 ++ t2) -> inside o (code t) -> inside o (code t') -> False.
Proof.
  intros es m t1 t t2 t' o [Ok _ Sm _ _] I N N'. specialize (Sm o). cbn [fst snd] in *. rewrite !sumT_mid in Sm.
  assert (X : S (sumT (num (isP o)) (t1 ++ t2)) <= sumT (num (isV o)) (t1 ++ t2)) by (apply (sum_gt o _ t'); [intros u J; apply Ok; apply in_app_or in J; apply in_or_app; cbn; tauto|assumption|assumption]).
  unfold sumT in X. rewrite !map_app, !list_sum_app in X. fold (sumT (num (isP o)) t1) (sumT (num (isP o)) t2) (sumT (num (isV o)) t1) (sumT (num (isV o)) t2) in X. unfold inside in N. lia.
Qed.
Lemma inside_count : forall c n c', okc c -> c = WriteCount n :: c' -> inside (fst n) c.
Proof. intros c n c' H E. destruct (holds c H) as (h & Hh & H1 & _). rewrite (H1 n c' E) in Hh. unfold inside. rewrite Hh. destruct (owner_dec (fst n) (fst n)); [lia|congruence]. Qed.
Lemma inside_out : forall c n op d c', okc c -> c = WriteOut n op d :: c' -> inside (fst n) c.
Proof. intros c n op d c' H E. destruct (holds c H) as (h & Hh & _ & H1 & _). rewrite (H1 n op d c' E) in Hh. unfold inside. rewrite Hh. destruct (owner_dec (fst n) (fst n)); [lia|congruence]. Qed.

Lemma upd_same : forall K V dec (f : K -> V) k v, upd dec f k v k = v. Proof. intros. unfold upd. destruct (dec k k); congruence. Qed.
Lemma upd_other : forall K V dec (f : K -> V) k v x, x <> k -> upd dec f k v x = f x. Proof. intros. unfold upd. destruct (dec x k); congruence. Qed.

Lemma inv_step : forall es s s', Inv es s -> lstep s s' -> Inv es s'.
Proof.
  intros es s s' HI H. destruct H as [m t1 t t2 m' t' Hs]. pose proof HI as [Ok Rg Sm Ct Out]. cbn [fst snd] in *.
  assert (Okt : okc (code t)) by (apply Ok; apply in_or_app; right; left; reflexivity).
  assert (In' : forall u, In u (t1 ++ t' :: t2) -> u = t' \/ In u (t1 ++ t2)) by (intros u I; apply in_app_or in I; destruct I as [I|[I|I]]; [right; apply in_or_app; auto|left; congruence|right; apply in_or_app; auto]).
  assert (InO : forall u, In u (t1 ++ t2) -> In u (t1 ++ t :: t2)) by (intros u I; apply in_app_or in I; apply in_or_app; cbn; tauto).
  destruct (holds _ Okt) as (h & _ & Hc & Ho & Hrc & Hro & Hp & Hv). unfold step_thread in Hs. destruct (code t) as [|i c] eqn:Ec; [discriminate|].
  assert (Okc : okc c) by (eapply okc_tail; exact Okt).
  destruct i as [o|o|n|n|n|n op d].
  - destruct (sema m o) as [|k] eqn:Es; [discriminate|]. injection Hs as <- <-. destruct (Hp o c eq_refl) as [_ Hn]. constructor; cbn [fst snd].
    + intros u I. apply In' in I. destruct I as [->|I]; [exact Okc|apply Ok, InO; exact I].
    + intros u I. apply In' in I. destruct I as [->|I]; [|apply (Rg u (InO u I))]. cbn [code]. split; intros; exfalso; destruct (Hn _ _ H) as [[? X]|[? X]]; discriminate X.
    + intros o'. specialize (Sm o'). rewrite !sumT_mid in *. cbn [code sema]. rewrite Ec, !num_cons in Sm. cbn [isV isP] in Sm. unfold upd. destruct (owner_dec o' o) as [->|N]; [destruct (owner_dec o o); [lia|congruence]|]. destruct (owner_dec o o'); [congruence|]. lia.
    + intros n. specialize (Ct n). rewrite !sumT_mid in *. cbn [code in_count]. rewrite Ec, num_cons in Ct. cbn [isC] in Ct. lia.
    + intros n. specialize (Out n). rewrite outT_mid in *. cbn [code out_edges]. rewrite Ec, outs_cons in Out. exact Out.
  - injection Hs as <- <-. specialize (Hv o c eq_refl). constructor; cbn [fst snd].
    + intros u I. apply In' in I. destruct I as [->|I]; [exact Okc|apply Ok, InO; exact I].
    + intros u I. apply In' in I. destruct I as [->|I]; [|apply (Rg u (InO u I))]. cbn [code]. split; intros; exfalso; destruct (Hv _ _ H) as [? X]; discriminate X.
    + intros o'. specialize (Sm o'). rewrite !sumT_mid in *. cbn [code sema]. rewrite Ec, !num_cons in Sm. cbn [isV isP] in Sm. unfold upd. destruct (owner_dec o' o) as [->|N]; [destruct (owner_dec o o); [lia|congruence]|]. destruct (owner_dec o o'); [congruence|]. lia.
    + intros n. specialize (Ct n). rewrite !sumT_mid in *. cbn [code in_count]. rewrite Ec, num_cons in Ct. cbn [isC] in Ct. lia.
    + intros n. specialize (Out n). rewrite outT_mid in *. cbn [code out_edges]. rewrite Ec, outs_cons in Out. exact Out.
  - injection Hs as <- <-. destruct (Hrc n c eq_refl) as [_ [c2 E2]]. constructor; cbn [fst snd].
    + intros u I. apply In' in I. destruct I as [->|I]; [exact Okc|apply Ok, InO; exact I].
    + intros u I. apply In' in I. destruct I as [->|I]; [|apply (Rg u (InO u I))]. cbn [code reg_count]. split; intros; [|congruence]. rewrite E2 in H. injection H as <- _. reflexivity.
    + intros o'. specialize (Sm o'). rewrite !sumT_mid in *. cbn [code]. rewrite Ec, !num_cons in Sm. cbn [isV isP] in Sm. lia.
    + intros n'. specialize (Ct n'). rewrite !sumT_mid in *. cbn [code]. rewrite Ec, num_cons in Ct. cbn [isC] in Ct. lia.
    + intros n'. specialize (Out n'). rewrite outT_mid in *. cbn [code]. rewrite Ec, outs_cons in Out. exact Out.
  - injection Hs as <- <-. assert (Rt : reg_count t = in_count m n) by (eapply (proj1 (Rg t ltac:(apply in_or_app; right; left; reflexivity))); exact Ec).
    assert (Nt : inside (fst n) (code t)) by (rewrite Ec; eapply inside_count; [exact Okt|reflexivity]). constructor; cbn [fst snd].
    + intros u I. apply In' in I. destruct I as [->|I]; [exact Okc|apply Ok, InO; exact I].
    + assert (Hn : forall i c2, c = i :: c2 -> exists o, i = V o). { clear - Okt. destruct Okt as [X|(ph & l & rest & L & O & E)]; [discriminate|]. assert (Hph : ph = 0 \/ ph = 1 \/ ph = 2 \/ ph = 3 \/ ph = 4 \/ ph = 5 \/ ph = 6 \/ ph = 7) by lia. destruct Hph as [->|[->|[->|[->|[->|[->|[->| ->]]]]]]]; cbn in E; try discriminate E. injection E as _ ->. intros i c2 X. injection X as <- _. eauto. }
      intros u I. apply In' in I. destruct I as [->|I].
      * cbn [code]. split; intros; exfalso; destruct (Hn _ _ H) as [? X]; discriminate X.
      * destruct (Rg u (InO u I)) as [R1 R2]. cbn [in_count out_edges]. split; [|exact R2]. intros n' c' Eu. destruct (dnode_dec n' n) as [->|N]; [|rewrite upd_other by assumption; eapply R1; exact Eu].
        exfalso. apply (exclusive _ _ _ _ _ u (fst n) HI I Nt). rewrite Eu. eapply inside_count; [rewrite <- Eu; apply Ok, InO; exact I|reflexivity].
    + intros o'. specialize (Sm o'). rewrite !sumT_mid in *. cbn [code sema]. rewrite Ec, !num_cons in Sm. cbn [isV isP] in Sm. lia.
    + intros n'. specialize (Ct n'). rewrite !sumT_mid in *. cbn [code in_count]. rewrite Ec, num_cons in Ct. cbn [isC] in Ct. rewrite Rt. unfold upd. destruct (dnode_dec n' n) as [->|N]; [destruct (dnode_dec n n); [lia|congruence]|]. destruct (dnode_dec n n'); [congruence|]. lia.
    + intros n'. specialize (Out n'). rewrite outT_mid in *. cbn [code out_edges]. rewrite Ec, outs_cons in Out. exact Out.
  - injection Hs as <- <-. destruct (Hro n c eq_refl) as [_ (op & d & c2 & E2)]. constructor; cbn [fst snd].
    + intros u I. apply In' in I. destruct I as [->|I]; [exact Okc|apply Ok, InO; exact I].
    + intros u I. apply In' in I. destruct I as [->|I]; [|apply (Rg u (InO u I))]. cbn [code reg_out]. split; intros; [congruence|]. rewrite E2 in H. injection H as <- _ _ _. reflexivity.
    + intros o'. specialize (Sm o'). rewrite !sumT_mid in *. cbn [code]. rewrite Ec, !num_cons in Sm. cbn [isV isP] in Sm. lia.
    + intros n'. specialize (Ct n'). rewrite !sumT_mid in *. cbn [code]. rewrite Ec, num_cons in Ct. cbn [isC] in Ct. lia.
    + intros n'. specialize (Out n'). rewrite outT_mid in *. cbn [code]. rewrite Ec, outs_cons in Out. exact Out.
  - injection Hs as <- <-. assert (Rt : reg_out t = out_edges m n) by (eapply (proj2 (Rg t ltac:(apply in_or_app; right; left; reflexivity))); exact Ec).
    assert (Nt : inside (fst n) (code t)) by (rewrite Ec; eapply inside_out; [exact Okt|reflexivity]). constructor; cbn [fst snd].
    + intros u I. apply In' in I. destruct I as [->|I]; [exact Okc|apply Ok, InO; exact I].
    + assert (Hn : forall i c2, c = i :: c2 -> exists o, i = V o). { clear - Okt. destruct Okt as [X|(ph & l & rest & L & O & E)]; [discriminate|]. assert (Hph : ph = 0 \/ ph = 1 \/ ph = 2 \/ ph = 3 \/ ph = 4 \/ ph = 5 \/ ph = 6 \/ ph = 7) by lia. destruct Hph as [->|[->|[->|[->|[->|[->|[->| ->]]]]]]]; cbn in E; try discriminate E. injection E as _ _ _ ->. intros i c2 X. injection X as <- _. eauto. }
      intros u I. apply In' in I. destruct I as [->|I].
      * cbn [code]. split; intros; exfalso; destruct (Hn _ _ H) as [? X]; discriminate X.
      * destruct (Rg u (InO u I)) as [R1 R2]. cbn [in_count out_edges]. split; [exact R1|]. intros n' op' d' c' Eu. destruct (dnode_dec n' n) as [->|N]; [|rewrite upd_other by assumption; eapply R2; exact Eu].
        exfalso. apply (exclusive _ _ _ _ _ u (fst n) HI I Nt). rewrite Eu. eapply inside_out; [rewrite <- Eu; apply Ok, InO; exact I|reflexivity].
    + intros o'. specialize (Sm o'). rewrite !sumT_mid in *. cbn [code sema]. rewrite Ec, !num_cons in Sm. cbn [isV isP] in Sm. lia.
    + intros n'. specialize (Ct n'). rewrite !sumT_mid in *. cbn [code in_count]. rewrite Ec, num_cons in Ct. cbn [isC] in Ct. lia.
    + intros n'. specialize (Out n'). rewrite outT_mid in *. cbn [code out_edges]. rewrite Ec, outs_cons in Out. rewrite Rt. unfold upd. unfold outs at 1 in Out. cbn [flat_map] in Out. destruct (dnode_dec n' n) as [->|N].
      * destruct (dnode_dec n n); [|congruence]. cbn [app] in Out. rewrite <- Out, <- !app_assoc. apply Permutation_app_head. cbn [app]. apply Permutation_middle.
      * destruct (dnode_dec n n'); [congruence|]. exact Out.
Qed.

(** ** Beginning and end *)
Lemma inv_start : forall tss, Forall (Forall owned) tss -> Inv (map edge_of (concat tss)) (lstart tss).
Proof.
  intros tss HO. constructor; cbn [lstart fst snd sema in_count out_edges].
  - intros t I. apply in_map_iff in I. destruct I as (ls & <- & I). cbn [code]. apply okc_all. rewrite Forall_forall in HO. auto.
  - intros t I. apply in_map_iff in I. destruct I as (ls & <- & I). cbn [code]. split; intros; destruct ls; discriminate.
  - intros o. enough (sumT (num (isV o)) (map (fun ls => mkThread (flat_map link_code ls) 0 []) tss) = sumT (num (isP o)) (map (fun ls => mkThread (flat_map link_code ls) 0 []) tss)) by lia.
    unfold sumT. rewrite !map_map. f_equal. apply map_ext. intros ls. cbn [code]. apply bal_all.
  - intros n. cbn [Nat.add]. clear HO. induction tss as [|ls tss IH]; [reflexivity|]. cbn [concat map]. rewrite sumT_cons, map_app. unfold into in *. rewrite filter_app, app_length. rewrite <- IH. cbn [code]. f_equal. clear.
    induction ls as [|l ls IH]; [reflexivity|]. cbn [flat_map map filter]. rewrite num_app, IH. unfold link_code. rewrite !num_cons. cbn [isC edge_of eto]. change (num (isC n) []) with 0. destruct (dnode_dec (l_dest l) n); cbn [length]; lia.
  - intros n. cbn [app]. clear HO. induction tss as [|ls tss IH]; [constructor|]. cbn [concat map]. rewrite outT_cons, map_app. unfold out_of in *. rewrite filter_app, map_app. cbn [code]. apply Permutation_app; [|exact IH]. clear.
    induction ls as [|l ls IH]; [constructor|]. cbn [flat_map map filter]. unfold outs in *. rewrite flat_map_app. cbn [link_code flat_map app edge_of efrom]. destruct (dnode_dec (l_source l) n); cbn [app map eop eto]; [apply perm_skip; exact IH|exact IH].
Qed.

Lemma inv_runs : forall es n s s', lruns n s s' -> Inv es s -> Inv es s'.
Proof. intros es n s s' H. induction H; intros I; [assumption|]. eapply inv_step; [apply IHlruns; assumption|eassumption]. Qed.

Lemma inv_end : forall es s, Inv es s -> finished s -> counts_right (fst s) es.
Proof.
  intros es [m ts] [_ _ _ Ct Out] F n. cbn [fst snd] in *. specialize (Ct n). specialize (Out n).
  assert (S0 : sumT (num (isC n)) ts = 0). { clear - F. unfold finished in F. cbn [snd] in F. induction ts as [|t ts IH]; [reflexivity|]. rewrite sumT_cons. rewrite (F t (or_introl eq_refl)), IH by (intros; apply F; right; assumption). reflexivity. }
  assert (O0 : outT n ts = []). { clear - F. unfold finished in F. cbn [snd] in F. induction ts as [|t ts IH]; [reflexivity|]. rewrite outT_cons. rewrite (F t (or_introl eq_refl)), IH by (intros; apply F; right; assumption). reflexivity. }
  rewrite O0, app_nil_r in Out. split; [lia|exact Out].
Qed.

(** ** No deadlock, and every run ends *)
Definition work (s : lstate) : nat := sumT (@length instr) (snd s).
Lemma step_work : forall s s', lstep s s' -> work s = S (work s').
Proof.
  intros s s' H. destruct H as [m t1 t t2 m' t' Hs]. unfold work. cbn [snd]. rewrite !sumT_mid. enough (length (code t) = S (length (code t'))) by lia.
  unfold step_thread in Hs. destruct (code t) as [|i c]; [discriminate|]. destruct i; try (destruct (sema m o); [discriminate|]); injection Hs as <- <-; reflexivity.
Qed.
Lemma runs_work : forall n s s', lruns n s s' -> work s = n + work s'.
Proof. intros n s s' H. induction H as [|n s s' s'' H IH St]; [reflexivity|]. rewrite IH, (step_work _ _ St). lia. Qed.

Lemma progress : forall es s, Inv es s -> finished s \/ exists s', lstep s s'.
Proof.
  intros es [m ts] HI. pose proof HI as [Ok _ Sm _ _]. cbn [fst snd] in *.
  assert (D : (forall t, In t ts -> code t = []) \/ exists t, In t ts /\ code t <> []).
  { clear. induction ts as [|t ts IH]; [left; intros ? []|]. destruct (code t) eqn:E; [|right; exists t; split; [left; reflexivity|congruence]]. destruct IH as [H|(u & I & H)]; [left; intros u [<-|I]; auto|right; exists u; split; [right; exact I|exact H]]. }
  destruct D as [D|(t & I & Nt)]; [left; exact D|right].
  destruct (step_thread m t) as [[m' t']|] eqn:Es; [apply in_split in I; destruct I as (a & b & ->); eexists; apply lstep_do; exact Es|].
  (* blocked at P o: somebody is inside o *)
  unfold step_thread in Es. destruct (code t) as [|i c] eqn:Ec; [congruence|]. destruct i; try discriminate. destruct (sema m o) as [|k] eqn:Eo; [|discriminate].
  assert (H : exists u, In u ts /\ inside o (code u)).
  { specialize (Sm o). rewrite Eo in Sm. assert (G : sumT (num (isP o)) ts < sumT (num (isV o)) ts) by lia. clear - G Ok. induction ts as [|u ts IH]; [cbn in G; lia|]. rewrite !sumT_cons in G.
    destruct (holds _ (Ok u (or_introl eq_refl))) as (h & Hh & _). specialize (Hh o). destruct (Nat.eq_dec (num (isV o) (code u)) (S (num (isP o) (code u)))) as [E|E]; [exists u; split; [left; reflexivity|exact E]|].
    destruct IH as (v & J & N); [intros; apply Ok; right; assumption|destruct h as [x|]; [destruct (owner_dec x o)|]; lia|exists v; split; [right; exact J|exact N]]. }
  destruct H as (u & J & N). assert (St : exists m' u', step_thread m u = Some (m', u')).
  { unfold step_thread. destruct (holds _ (Ok u J)) as (h & Hh & _ & _ & _ & _ & Hp & _). specialize (Hh o). destruct (code u) as [|i c'] eqn:Eu; [unfold inside in N; cbn in N; lia|]. destruct i; eauto. destruct (Hp _ _ eq_refl) as [-> _]. unfold inside in N. lia. }
  destruct St as (m' & u' & St). apply in_split in J. destruct J as (a & b & ->). eexists. apply lstep_do. exact St.
Qed.
