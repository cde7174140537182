(** C95: what RankWise and RankLocal hold and give back. *)
From Coq Require Import ZArith List Bool Arith Lia.
From Verif Require Import Base ListFacts RankwiseModel RankwiseSpec RankwiseProofs.
Import ListNotations.
Open Scope Z_scope.

Section Claims.
  Context {T : Type} (zero : T) (num_ranks : Z).
  Notation rstep := (rstep zero num_ranks).
  Notation rsteps := (rsteps zero num_ranks).
  Notation reached := (reached zero num_ranks).

  (** At all times every cell is pinned once for each object on it, every registered copy belongs
      to exactly one object, and none to none. *)
  Theorem C95_balanced : forall w, reached w ->
    (forall a, pins w a = Z.of_nat (how_many (on_cell a) (locals w))) /\
    (forall c v, nth_error (copies w) c = Some (Some v) -> how_many (on_copy c) (locals w) = 1%nat) /\
    (forall c, nth_error (copies w) c = Some None \/ nth_error (copies w) c = None -> how_many (on_copy c) (locals w) = 0%nat).
  Proof.
    intros w Rw. pose proof (reached_inv _ _ w Rw) as I. split; [apply I|]. split.
    - intros c v E. rewrite (I_copies _ w I). unfold one_copy. rewrite E. reflexivity.
    - intros c E. rewrite (I_copies _ w I). unfold one_copy. destruct E as [-> | ->]; reflexivity.
  Qed.
  (** With all objects gone nothing is pinned and no copy is left. *)
  Theorem C95_released : forall w, reached w -> (forall i o, nth_error (locals w) i <> Some (Some o)) ->
    (forall a, pins w a = 0) /\ forall c v, nth_error (copies w) c <> Some (Some v).
  Proof.
    intros w Rw N. destruct (C95_balanced w Rw) as (P & C & _).
    assert (H : forall p : option rank_local -> bool, p None = false -> how_many p (locals w) = 0%nat).
    { intros p Hp. apply how_0. intros [o|] I; [|exact Hp]. apply In_nth_error in I. destruct I as (i & I). destruct (N i o I). }
    split; [intros a; rewrite P, H by reflexivity; reflexivity|]. intros c v E. specialize (C c v E). rewrite H in C by reflexivity. discriminate.
  Qed.
  (** An object can always end, unless its cell has been freed under it. *)
  Theorem C95_end : forall w i o, reached w -> nth_error (locals w) i = Some (Some o) ->
    ((exists w', rstep w (LocalEnd i) = Ok w') <-> forall a, local_ o = Some (Cell a) -> live w (fst a)) /\
    ((exists a, local_ o = Some (Cell a) /\ ~ live w (fst a)) -> rstep w (LocalEnd i) = Fail BadOp).
  Proof.
    intros w i o Rw N. pose proof (reached_inv _ _ w Rw) as I. pose proof (nth_error_bound _ _ _ _ N) as Hi. cbn [RankwiseModel.rstep]. rewrite (proj2 (the_local_inv w i o) N). cbn [bind].
    assert (F : (exists a, local_ o = Some (Cell a) /\ ~ live w (fst a)) -> local_end w o = Fail BadOp) by (intros (a & La & D); exact (end_fail num_ranks w i o a I N La D)).
    split; [split|].
    - intros (w' & H) a La. destruct (nth_error (blocks w) (fst a)) as [[l|]|] eqn:E; [exists l; exact E|..]; exfalso; rewrite F in H; try discriminate; exists a; (split; [exact La|]); intros (l & X); congruence.
    - intros D. destruct (end_ok num_ranks w i o I N D) as (w' & -> & El & _). cbn [bind]. rewrite El, set_res_ok by exact Hi. cbn [bind]. eexists. reflexivity.
    - intros D. rewrite (F D). reflexivity.
  Qed.
  (** A move hands everything over; the object moved from holds nothing and ends without doing
      anything. *)
  Theorem C95_move : forall w i o, nth_error (locals w) i = Some (Some o) ->
    exists w', rstep w (LocalMove i) = Ok w' /\ pins w' = pins w /\ copies w' = copies w /\ blocks w' = blocks w /\
      nth_error (locals w') (length (locals w)) = Some (Some o) /\ (forall j, j <> i -> (j < length (locals w))%nat -> nth_error (locals w') j = nth_error (locals w) j) /\
      exists old, nth_error (locals w') i = Some (Some old) /\ local_valid old = false /\ local_read w' old = Fail NullDeref /\ local_end w' old = Ok w'.
  Proof.
    intros w i o N. pose proof (nth_error_bound _ _ _ _ N) as Hi. cbn [RankwiseModel.rstep]. rewrite (proj2 (the_local_inv w i o) N). cbn [bind local_move]. rewrite set_res_ok by exact Hi. cbn [bind]. eexists. split; [reflexivity|]. cbn [pins copies blocks locals with_locals].
    split; [reflexivity|]. split; [reflexivity|]. split; [reflexivity|]. split; [rewrite nth_error_app2 by (rewrite upd_length; lia); rewrite upd_length, Nat.sub_diag; destruct o; reflexivity|]. split; [intros j Nj Hj; rewrite nth_error_app1 by (rewrite upd_length; exact Hj); apply upd_other; congruence|].
    exists (mkLocal None None false). split; [rewrite nth_error_app1 by (rewrite upd_length; exact Hi); apply upd_same, Hi|]. repeat split.
  Qed.
  (** The part of this rank is used in place, without memory for a copy: it is read and written
      where it is. *)
  Theorem C95_here : forall w b me room, reached w -> live w b -> 0 <= me < num_ranks ->
    exists w' o, here w (Some b) me room = Ok (w', o) /\ blocks w' = blocks w /\ copies w' = copies w /\ local_valid o = true /\ remote_ o = false /\
      local_read w' o = load w (b, me) /\ (exists v, load w (b, me) = Ok v) /\
      forall v, exists w'', local_write w' o v = Ok w'' /\ load w'' (b, me) = Ok v /\ forall a, a <> (b, me) -> load w'' a = load w a.
  Proof.
    intros w b me room Rw Lv M. pose proof (reached_inv _ _ w Rw) as I. destruct (load_live num_ranks w (b, me) I ltac:(cbn; lia) Lv) as (x & E). unfold here, there, address_at. cbn [bind]. unfold local_new. rewrite E. cbn [bind snd]. rewrite Z.eqb_refl.
    do 2 eexists. split; [reflexivity|]. split; [reflexivity|]. split; [reflexivity|]. split; [reflexivity|]. split; [reflexivity|]. cbn [local_read local_]. split; [exact E|]. split; [exists x; reflexivity|].
    intros v. destruct Lv as (l & El). cbn [local_write local_ fst snd]. rewrite (proj2 (block_inv (pin w (b, me)) b l) El). cbn [bind]. pose proof (I_block _ w I _ _ El) as Hl. rewrite set_resZ_ok by lia. cbn [bind]. pose proof (nth_error_bound _ _ _ _ El) as Hb. rewrite set_res_ok by exact Hb. cbn [bind].
    eexists. split; [reflexivity|]. split.
    - apply load_inv. cbn [fst snd blocks with_blocks pin with_pins]. exists (upd l (Z.to_nat me) v). split; [apply upd_same, Hb|]. split; [lia|]. apply upd_same. lia.
    - intros [b' r] Na. unfold load, block. cbn [fst snd blocks with_blocks pin with_pins]. unfold nth_res. destruct (Nat.eq_dec b b') as [<-|Nb]; [|rewrite upd_other by exact Nb; reflexivity]. rewrite upd_same by exact Hb. rewrite El. cbn [bind]. unfold nth_resZ, nth_res. destruct (Z.ltb_spec r 0); [reflexivity|]. rewrite upd_other; [reflexivity|]. intros Q. apply Na. f_equal. lia.
  Qed.
  (** The part of another rank is a copy of what it was at the time, *)
  Theorem C95_there : forall w b me rank, reached w -> live w b -> 0 <= rank < num_ranks -> rank <> me ->
    exists w' o c, there w (Some b) me rank true = Ok (w', o) /\ blocks w' = blocks w /\ pins w' = pins w /\ local_valid o = true /\ remote_ o = true /\ local_ o = Some (Copy c) /\
      local_read w' o = load w (b, rank) /\ exists v, load w (b, rank) = Ok v.
  Proof.
    intros w b me rank Rw Lv M Ne. pose proof (reached_inv _ _ w Rw) as I. destruct (load_live num_ranks w (b, rank) I ltac:(cbn; lia) Lv) as (x & E). unfold there, address_at. cbn [bind]. unfold local_new. rewrite E. cbn [bind snd]. destruct (Z.eqb_spec rank me); [contradiction|].
    do 3 eexists. split; [reflexivity|]. repeat (split; [reflexivity|]). cbn [local_read local_]. split; [|exists x; reflexivity]. apply copy_inv. cbn [copies with_copies]. rewrite nth_error_app2, Nat.sub_diag by lia. reflexivity.
  Qed.
  (** and stays that whatever all threads do, *)
  Theorem C95_snapshot : forall l w i o c w', reached w -> nth_error (locals w) i = Some (Some o) -> local_ o = Some (Copy c) -> Forall (leaves_alone i) l -> rsteps w l = Ok w' ->
    nth_error (locals w') i = Some (Some o) /\ local_read w' o = local_read w o.
  Proof.
    induction l as [|p l IH]; intros w i o c w' Rw N Lo A H.
    - injection H as <-. auto.
    - apply Forall_cons_iff in A. destruct A as [A A']. unfold RankwiseModel.rsteps in H. cbn [foldM] in H. destruct (rstep w p) as [w1|] eqn:E; [|discriminate]. cbn [bind] in H.
      destruct (copy_kept zero num_ranks w p w1 i o c (reached_inv _ _ w Rw) N Lo A E) as [N1 C1].
      assert (R1 : reached w1) by (apply (reached_more _ _ w [p] w1 Rw); unfold RankwiseModel.rsteps; cbn [foldM]; rewrite E; reflexivity).
      destruct (IH w1 i o c w' R1 N1 Lo A' H) as [N2 Q]. split; [exact N2|]. rewrite Q. unfold local_read. rewrite Lo. unfold copy, nth_res. rewrite C1. reflexivity.
  Qed.
  (** so what is written through it never reaches the other rank. *)
  Theorem C95_remote_write : forall (w : world T) o c v w', local_ o = Some (Copy c) -> local_write w o v = Ok w' -> blocks w' = blocks w.
  Proof.
    intros w o c v w' Lo H. unfold local_write in H. rewrite Lo in H. destruct (copy w c); [|discriminate]. cbn [bind] in H. destruct (set_res (copies w) c (Some v)); [|discriminate]. cbn [bind] in H. injection H as <-. reflexivity.
  Qed.
  (** Without memory for the copy the object is not valid and must not be used. *)
  Theorem C95_no_room_refuted : forall w b me rank, reached w -> live w b -> 0 <= rank < num_ranks -> rank <> me ->
    exists o, there w (Some b) me rank false = Ok (w, o) /\ local_valid o = false /\ local_read w o = Fail NullDeref /\ forall v, local_write w o v = Fail NullDeref.
  Proof.
    intros w b me rank Rw Lv M Ne. pose proof (reached_inv _ _ w Rw) as I. destruct (load_live num_ranks w (b, rank) I ltac:(cbn; lia) Lv) as (x & E). unfold there, address_at. cbn [bind]. unfold local_new. rewrite E. cbn [bind snd]. destruct (Z.eqb_spec rank me); [contradiction|]. eexists. split; [reflexivity|]. repeat split.
  Qed.
  (** Move assignment never returns properly; what its stores do is to forget a pin for good. *)
  Theorem C95_assign_refuted : forall w i j, rstep w (LocalAssign i j) = Fail BadOp.
  Proof. reflexivity. Qed.
  Theorem C95_assign_leaks_refuted : forall w i j oi oj a, reached w -> i <> j -> nth_error (locals w) i = Some (Some oi) -> nth_error (locals w) j = Some (Some oj) ->
    local_ oi = Some (Cell a) -> let '(x, y) := local_assign oi oj in
    pins w a = Z.of_nat (how_many (on_cell a) (upd (upd (locals w) i (Some x)) j (Some y))) + 1.
  Proof.
    intros w i j oi oj a Rw Ne Ni Nj La. cbn [local_assign]. pose proof (I_pins _ w (reached_inv _ _ w Rw) a) as P. rewrite P. pose proof (nth_error_bound _ _ _ _ Ni) as Hi.
    pose proof (how_upd (on_cell a) (locals w) i (Some oi) (Some (mkLocal (local_ oj) (global_ oj) (remote_ oj))) Ni) as K1. assert (Nj' : nth_error (upd (locals w) i (Some (mkLocal (local_ oj) (global_ oj) (remote_ oj)))) j = Some (Some oj)) by (rewrite upd_other by exact Ne; exact Nj).
    pose proof (how_upd (on_cell a) _ j (Some oj) (Some (mkLocal None None false)) Nj') as K2. rewrite !on_cell_of in K1, K2. cbn [local_] in K1, K2. rewrite La, (proj2 (geqb a a) eq_refl) in K1. destruct (match local_ oj with Some (Cell b) => gaddr_eqb b a | _ => false end); lia.
  Qed.
  (** Allocation gives zeros on every rank; twice, or freeing nothing, is caught by an assertion;
      objects that were made from the address stay valid after it is freed. *)
  Theorem C95_wise : forall w, reached w ->
    (exists w', wise_allocate zero num_ranks w None = Ok (w', Some (length (blocks w))) /\ (forall r, 0 <= r < num_ranks -> load w' (length (blocks w), r) = Ok zero) /\ forall a v, load w a = Ok v -> load w' a = Ok v) /\
    (forall b, wise_allocate zero num_ranks w (Some b) = Fail AssertFail) /\ wise_destroy w None = Fail AssertFail /\ (forall me rank room, there w None me rank room = Fail AssertFail) /\
    (forall b, live w b -> exists w', wise_destroy w (Some b) = Ok (w', None) /\ (forall me rank room, there w' (Some b) me rank room = Fail BadOp) /\ wise_destroy w' (Some b) = Fail BadOp).
  Proof.
    intros w Rw. split; [|split; [reflexivity|split; [reflexivity|split; [reflexivity|]]]].
    - eexists. split; [reflexivity|]. split.
      + intros r Hr. apply load_inv. cbn [fst snd blocks with_blocks]. exists (repeat zero (Z.to_nat num_ranks)). split; [rewrite nth_error_app2, Nat.sub_diag by lia; reflexivity|]. split; [lia|]. apply nth_error_repeat. lia.
      + intros a v H. apply load_inv in H. destruct H as (l & E & P & N). apply load_inv. exists l. cbn [blocks with_blocks]. split; [|auto]. rewrite nth_error_app1 by (eapply nth_error_bound; exact E). exact E.
    - intros b (l & E). cbn [wise_destroy]. rewrite (proj2 (block_inv w b l) E). cbn [bind]. pose proof (nth_error_bound _ _ _ _ E) as Hb. rewrite set_res_ok by exact Hb. cbn [bind]. eexists. split; [reflexivity|].
      assert (K : block (with_blocks w (upd (blocks w) b None)) b = Fail BadOp) by (unfold block, nth_res; cbn [blocks with_blocks]; rewrite upd_same by exact Hb; reflexivity).
      split; [intros me rank room; unfold there, address_at; cbn [bind]; unfold local_new, load; cbn [fst]; rewrite K; reflexivity|]. cbn [wise_destroy]. rewrite K. reflexivity.
  Qed.
  (** DualTree::destroy frees the dual tree while it is pinned: the unpinning at the end of the
      function is too late.  With the object ended before, it would be right. *)
  Theorem C95_destroy_refuted : forall w me k s t bk bs bt room, reached w -> 0 <= me < num_ranks -> NoDup [k; s; t] -> NoDup [bk; bs; bt] ->
    nth_error (wises w) k = Some (Some bk) -> nth_error (wises w) s = Some (Some bs) -> nth_error (wises w) t = Some (Some bt) -> live w bk -> live w bs -> live w bt ->
    rsteps w (dualtree_destroy w me k s t room) = Fail BadOp /\
    exists w', rsteps w [LocalThere me k me room; WiseDestroy s; WiseDestroy t; LocalEnd (length (locals w)); WiseDestroy k] = Ok w' /\ forall a, pins w' a = pins w a.
  Proof.
    intros w me k s t bk bs bt room Rw M Nk Nb Wk Ws Wt Lk Ls Lt. destruct (C95_here w bk me room Rw Lk M) as (w1 & o & E1 & B1 & C1 & V1 & R1 & _).
    assert (K : local_ o = Some (Cell (bk, me)) /\ locals w1 = locals w /\ wises w1 = wises w /\ forall x, pins w1 x = pins w x + if gaddr_eqb x (bk, me) then 1 else 0).
    { unfold here, there, address_at in E1. cbn [bind] in E1. unfold local_new in E1. destruct (load w (bk, me)); [|discriminate]. cbn [bind snd] in E1. rewrite Z.eqb_refl in E1. injection E1 as <- <-. auto. }
    destruct K as (Lo & El & Ew & Ep). set (w2 := with_locals w1 (locals w1 ++ [Some o])).
    assert (S1 : rstep w (LocalThere me k me room) = Ok w2). { cbn [RankwiseModel.rstep]. unfold nth_res. rewrite Wk. cbn [bind]. unfold add_local. fold (here w (Some bk) me room). rewrite E1. reflexivity. }
    assert (D : forall x i b, nth_error (wises x) i = Some (Some b) -> live x b -> rstep x (WiseDestroy i) = Ok (with_wises (with_blocks x (upd (blocks x) b None)) (upd (wises x) i None))).
    { intros x i b Wi (l & Eb). cbn [RankwiseModel.rstep]. unfold nth_res. rewrite Wi. cbn [bind wise_destroy]. rewrite (proj2 (block_inv x b l) Eb). cbn [bind]. rewrite set_res_ok by (eapply nth_error_bound; exact Eb). cbn [bind wises with_blocks]. rewrite set_res_ok by (eapply nth_error_bound; exact Wi). reflexivity. }
    apply NoDup_cons_iff in Nk. destruct Nk as [Nk1 Nk]. apply NoDup_cons_iff in Nk. destruct Nk as [Nk2 _]. apply NoDup_cons_iff in Nb. destruct Nb as [Nb1 Nb]. apply NoDup_cons_iff in Nb. destruct Nb as [Nb2 _]. cbn in Nk1, Nk2, Nb1, Nb2.
    assert (N1 : s <> t) by (intros Q; apply Nk2; auto). assert (N2 : s <> k) by (intros Q; apply Nk1; auto). assert (N3 : t <> k) by (intros Q; apply Nk1; auto).
    assert (M1 : bs <> bt) by (intros Q; apply Nb2; auto). assert (M2 : bs <> bk) by (intros Q; apply Nb1; auto). assert (M3 : bt <> bk) by (intros Q; apply Nb1; auto).
    assert (S2 := D w2 s bs). cbn [wises with_locals w2] in S2. rewrite Ew in S2. unfold live in S2. cbn [blocks with_locals w2] in S2. rewrite B1 in S2. specialize (S2 Ws Ls). set (w3 := with_wises _ _) in S2. assert (V3 : wises w3 = upd (wises w) s None) by (unfold w3, w2; cbn [wises with_wises]; rewrite ?Ew; reflexivity). assert (U3 : blocks w3 = upd (blocks w) bs None) by (unfold w3, w2; cbn [blocks with_wises with_blocks]; rewrite ?B1; reflexivity).
    assert (Wt3 : nth_error (wises w3) t = Some (Some bt)) by (rewrite V3, upd_other by assumption; exact Wt). assert (Lt3 : live w3 bt) by (destruct Lt as (l & X); exists l; rewrite U3, upd_other by assumption; exact X). assert (S3 := D w3 t bt Wt3 Lt3). rewrite U3, V3 in S3. set (w4 := with_wises _ _) in S3.
    assert (V4 : wises w4 = upd (upd (wises w) s None) t None) by reflexivity. assert (U4 : blocks w4 = upd (upd (blocks w) bs None) bt None) by reflexivity.
    assert (R4 : reached w4). { apply (reached_more _ _ w [LocalThere me k me room; WiseDestroy s; WiseDestroy t]); [exact Rw|]. unfold RankwiseModel.rsteps. cbn [foldM]. rewrite S1. cbn [bind]. rewrite S2. cbn [bind]. rewrite S3. reflexivity. }
    assert (Wk4 : nth_error (wises w4) k = Some (Some bk)) by (rewrite V4, !upd_other by assumption; exact Wk).
    assert (Lk4 : live w4 bk) by (destruct Lk as (l & X); exists l; rewrite U4, !upd_other by assumption; exact X).
    assert (N4 : nth_error (locals w4) (length (locals w)) = Some (Some o)) by (cbn [locals with_wises with_blocks w4 w3 w2 with_locals]; rewrite El, nth_error_app2, Nat.sub_diag by lia; reflexivity).
    split.
    - unfold dualtree_destroy, RankwiseModel.rsteps. cbn [foldM]. rewrite S1. cbn [bind]. rewrite S2. cbn [bind]. rewrite S3. cbn [bind]. rewrite (D w4 k bk Wk4 Lk4). cbn [bind]. set (w5 := with_wises _ _).
      assert (R5 : reached w5). { apply (reached_more _ _ w4 [WiseDestroy k]); [exact R4|]. unfold RankwiseModel.rsteps. cbn [foldM]. rewrite (D w4 k bk Wk4 Lk4). reflexivity. }
      assert (N5 : nth_error (locals w5) (length (locals w)) = Some (Some o)) by exact N4.
      rewrite (proj2 (C95_end w5 _ o R5 N5)); [reflexivity|]. exists (bk, me). split; [exact Lo|]. intros (l & X). cbn [fst blocks with_wises with_blocks w5] in X. destruct Lk4 as (l4 & Y). rewrite upd_same in X by (eapply nth_error_bound; exact Y). discriminate.
    - destruct (proj2 (proj1 (C95_end w4 _ o R4 N4))) as (w5 & S5); [intros a X; rewrite Lo in X; injection X as <-; exact Lk4|].
      assert (Q5 : wises w5 = wises w4 /\ blocks w5 = blocks w4 /\ forall a, pins w5 a = pins w a).
      { cbn [RankwiseModel.rstep] in S5. rewrite (proj2 (the_local_inv w4 _ o) N4) in S5. cbn [bind] in S5. pose proof (I_local _ w4 (reached_inv _ _ w4 R4) o (nth_error_In _ _ N4)) as Wf. unfold wf_local in Wf. rewrite Lo in Wf. destruct Wf as (G & Rm & _). unfold local_end in S5. rewrite Lo, G, Rm in S5. unfold unpin in S5. destruct (load w4 (bk, me)); [|discriminate]. cbn [bind] in S5. destruct (0 <? pins w4 (bk, me)); [|discriminate]. cbn [bind] in S5. destruct (set_res _ _ None); [|discriminate]. cbn [bind] in S5. injection S5 as <-. split; [reflexivity|]. split; [reflexivity|].
        intros x. change (pins w1 x - (if gaddr_eqb x (bk, me) then 1 else 0) = pins w x). rewrite Ep. lia. }
      destruct Q5 as (Q1 & Q2 & Q3). assert (S6 := D w5 k bk). unfold live in S6. rewrite Q1, Q2 in S6. specialize (S6 Wk4 Lk4). eexists. split; [unfold RankwiseModel.rsteps; cbn [foldM]; rewrite S1; cbn [bind]; rewrite S2; cbn [bind]; rewrite S3; cbn [bind]; rewrite S5; cbn [bind]; rewrite S6; reflexivity|]. intros a. cbn [pins with_wises with_blocks]. apply Q3.
  Qed.
End Claims.
Print Assumptions C95_balanced.
Print Assumptions C95_released.
Print Assumptions C95_end.
Print Assumptions C95_move.
Print Assumptions C95_here.
Print Assumptions C95_there.
Print Assumptions C95_snapshot.
Print Assumptions C95_remote_write.
Print Assumptions C95_no_room_refuted.
Print Assumptions C95_assign_refuted.
Print Assumptions C95_assign_leaks_refuted.
Print Assumptions C95_wise.
Print Assumptions C95_destroy_refuted.

(** Two ranks: rank 0 writes its part in place, rank 1 takes a copy and writes to it, the objects
    are moved and end; then the dual tree of the last claim. *)
Definition ex_ops : list (rop Z) :=
  [WiseNew None; WiseAllocate 0; LocalThere 0 0 0 false; LocalWrite 0 7; LocalThere 1 0 0 true; LocalWrite 0 9; LocalWrite 1 5; LocalMove 1; LocalThere 1 0 0 false].
Example C95_nonvacuous : exists w, rsteps 0 2 empty_world ex_ops = Ok w /\ pins w (0%nat, 0) = 1 /\ load w (0%nat, 0) = Ok 9 /\ map (fun x => match x with Some o => Some (local_valid o, remote_ o) | None => None end) (locals w) = [Some (true, false); Some (false, false); Some (true, true); Some (false, false)] /\
  (exists w', rsteps 0 2 w [LocalEnd 1; LocalEnd 2; LocalEnd 0; LocalEnd 3; WiseDestroy 0] = Ok w' /\ pins w' (0%nat, 0) = 0 /\ copies w' = [None]) /\
  exists w', rsteps 0 2 w [WiseNew None; WiseAllocate 1; WiseNew None; WiseAllocate 2; WiseNew None; WiseAllocate 3] = Ok w' /\ rsteps 0 2 w' (dualtree_destroy w' 1 1 2 3 true) = Fail BadOp.
Proof.
  eexists. split; [vm_compute; reflexivity|]. split; [reflexivity|]. split; [reflexivity|]. split; [reflexivity|]. split; eexists; (split; [vm_compute; reflexivity|]); [split; reflexivity|reflexivity].
Qed.
