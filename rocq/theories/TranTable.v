(** The table holds, for each cosine it is asked for, the matrices of that rotation. *)
From Coq Require Import Reals ZArith List Lia Lra Psatz Bool.
From Coquelicot Require Import Coquelicot.
From Verif Require Import Base ListFacts LegSpec LegProofs LegAdd LapModel LapArrays LapProofs SolidProofs SolidAdd SolidPair TranModel TranArrays TranWigner TranDmat.
Import ListNotations.
Open Scope R_scope.

(** ** the comparator *)
Definition fl (a : R) : Z := Int_part (a * 1000000).
Lemma same_key_fl a b : same_key a b = Z.eqb (fl a) (fl b).
Proof.
  unfold same_key, builtin_cmp. fold (fl a) (fl b). set (x := fl a). set (y := fl b). destruct (Z.eqb_spec x y) as [E|E].
  - rewrite E. destruct (Req_EM_T (IZR y / 100000) (IZR y / 100000)) as [_|N]; [reflexivity|congruence].
  - assert (N : IZR x / 100000 <> IZR y / 100000) by (intros H; apply E, eq_IZR; lra).
    destruct (Req_EM_T (IZR x / 100000) (IZR y / 100000)) as [H|_]; [contradiction|]. destruct (Req_EM_T (IZR y / 100000) (IZR x / 100000)) as [H|_]; [congruence|].
    destruct (Rlt_dec (IZR x / 100000) (IZR y / 100000)); [reflexivity|]. destruct (Rlt_dec (IZR y / 100000) (IZR x / 100000)); [reflexivity|lra].
Qed.
Lemma fl_of a z : IZR z <= a * 1000000 < IZR z + 1 -> fl a = z.
Proof.
  intros H. unfold fl. pose proof (base_Int_part (a * 1000000)) as [U L]. set (y := Int_part (a * 1000000)) in *.
  assert (A : (y < z + 1)%Z) by (apply lt_IZR; rewrite plus_IZR; lra). assert (B : (z < y + 1)%Z) by (apply lt_IZR; rewrite plus_IZR; lra). lia.
Qed.

Lemma map_at_set_same k v m k' : fl k' = fl k -> map_at k' (map_set k v m) = Ok v.
Proof.
  intros E. induction m as [|[a w] m IH]; cbn [map_set map_at].
  - rewrite same_key_fl, E, Z.eqb_refl. reflexivity.
  - destruct (same_key k a) eqn:S; cbn [map_at]; rewrite same_key_fl, E, <- same_key_fl, S; [reflexivity|exact IH].
Qed.
Lemma map_at_set_other k v m k' : fl k' <> fl k -> map_at k' (map_set k v m) = map_at k' m.
Proof.
  intros N. induction m as [|[a w] m IH]; cbn [map_set map_at].
  - rewrite same_key_fl. destruct (Z.eqb_spec (fl k') (fl k)); [contradiction|reflexivity].
  - destruct (same_key k a) eqn:S; cbn [map_at]; [|rewrite IH; reflexivity].
    rewrite same_key_fl in S. apply Z.eqb_eq in S. rewrite same_key_fl, <- S. destruct (Z.eqb_spec (fl k') (fl k)); [contradiction|reflexivity].
Qed.

(** ** the keys *)
Definition sqk : list R :=
  [1 / 5; 1 / 6; 1 / 9; 1 / 10; 1 / 11; 1 / 14; 1 / 19; 4 / 5; 2 / 3; 1 / 2; 4 / 9; 1 / 3; 4 / 13; 2 / 7; 4 / 17; 2 / 11;
   9 / 10; 9 / 11; 9 / 13; 9 / 14; 9 / 17; 9 / 19; 9 / 22].
Definition flk : list Z := [447213; 408248; 333333; 316227; 301511; 267261; 229415; 894427; 816496; 707106; 666666; 577350; 554700; 534522; 485071; 426401; 948683; 904534; 832050; 801783; 727606; 688247; 639602]%Z.
Lemma sqrt_frac a b : 0 <= a -> 0 < b -> sqrt a / sqrt b = sqrt (a / b).
Proof. intros Ha Hb. symmetry. apply sqrt_div; assumption. Qed.
Lemma cbetas_sqrt : cbetas = map sqrt sqk ++ [0].
Proof.
  unfold cbetas, sqk. cbn [map app].
  replace (1 / sqrt 5) with (sqrt (1 / 5)) by (rewrite <- sqrt_frac, sqrt_1 by lra; reflexivity).
  replace (1 / sqrt 6) with (sqrt (1 / 6)) by (rewrite <- sqrt_frac, sqrt_1 by lra; reflexivity).
  replace (1 / sqrt 9) with (sqrt (1 / 9)) by (rewrite <- sqrt_frac, sqrt_1 by lra; reflexivity).
  replace (1 / sqrt 10) with (sqrt (1 / 10)) by (rewrite <- sqrt_frac, sqrt_1 by lra; reflexivity).
  replace (1 / sqrt 11) with (sqrt (1 / 11)) by (rewrite <- sqrt_frac, sqrt_1 by lra; reflexivity).
  replace (1 / sqrt 14) with (sqrt (1 / 14)) by (rewrite <- sqrt_frac, sqrt_1 by lra; reflexivity).
  replace (1 / sqrt 19) with (sqrt (1 / 19)) by (rewrite <- sqrt_frac, sqrt_1 by lra; reflexivity).
  replace (2 / sqrt 5) with (sqrt (4 / 5)) by (rewrite <- sqrt_frac by lra; f_equal; replace 4 with (2 * 2) by ring; apply sqrt_square; lra).
  reflexivity.
Qed.
Definition keys : list R := cbetas ++ map Ropp (firstn 23 cbetas).
Lemma keys_eq : keys = map sqrt sqk ++ [0] ++ map Ropp (map sqrt sqk).
Proof. unfold keys. rewrite cbetas_sqrt. rewrite <- app_assoc. reflexivity. Qed.

(** the cosines times a million are at least 1/1000 away from the integers *)
Definition inside (v : R) (z : Z) : Prop := IZR z + 1 / 1000 <= v * 1000000 <= IZR z + 999 / 1000.
Lemma inside_sqrt q z : (0 <= z)%Z -> 0 <= q -> (IZR z + 1 / 1000) * (IZR z + 1 / 1000) <= q * 1000000000000 <= (IZR z + 999 / 1000) * (IZR z + 999 / 1000) -> inside (sqrt q) z.
Proof.
  intros Hz Hq [L U]. apply IZR_le in Hz. pose proof (sqrt_pos q) as P. pose proof (sqrt_sqrt q Hq) as S. unfold inside. split.
  - apply Rsqr_incr_0; unfold Rsqr; [|lra|nra]. replace (sqrt q * 1000000 * (sqrt q * 1000000)) with ((sqrt q * sqrt q) * 1000000000000) by ring. rewrite S. exact L.
  - apply Rsqr_incr_0; unfold Rsqr; [|nra|lra]. replace (sqrt q * 1000000 * (sqrt q * 1000000)) with ((sqrt q * sqrt q) * 1000000000000) by ring. rewrite S. exact U.
Qed.
Lemma inside_opp v z : inside v z -> inside (- v) (- z - 1).
Proof. unfold inside. rewrite minus_IZR, opp_IZR. lra. Qed.
Lemma inside_fl v z v' : inside v z -> Rabs (v' - v) < 1 / 1000000000 -> fl v' = z.
Proof. intros [A B] H. apply Rcomplements.Rabs_lt_between in H. destruct H as [H1 H2]. apply fl_of. split; lra. Qed.

Lemma Forall2_map_l {A B C} (P : B -> C -> Prop) (f : A -> B) l m : Forall2 (fun a c => P (f a) c) l m -> Forall2 P (map f l) m.
Proof. induction 1; cbn [map]; constructor; assumption. Qed.
Lemma Forall2_imp {A B} (P Q : A -> B -> Prop) l m : (forall a b, P a b -> Q a b) -> Forall2 P l m -> Forall2 Q l m.
Proof. intros H. induction 1; constructor; auto. Qed.
Lemma inside_all : Forall2 inside (map sqrt sqk) flk.
Proof.
  apply Forall2_map_l. unfold sqk, flk. repeat (apply Forall2_cons; [apply inside_sqrt; [lia|lra|split; lra]|]). apply Forall2_nil.
Qed.
Definition flks : list Z := flk ++ [0%Z] ++ map (fun z => (- z - 1)%Z) flk.
Lemma keys_fl : Forall2 (fun k z => fl k = z) keys flks.
Proof.
  rewrite keys_eq. unfold flks. apply Forall2_app; [|apply Forall2_app].
  - eapply Forall2_imp; [|apply inside_all]. intros a b H. apply (inside_fl a b a H). rewrite Rminus_eq_0, Rabs_R0. lra.
  - constructor; [|constructor]. apply fl_of. lra.
  - apply Forall2_map_l. generalize inside_all. generalize (map sqrt sqk) flk. intros l0 m0 H. induction H as [|a b l m Hab _ IH]; cbn [map]; constructor; [|exact IH].
    apply inside_opp in Hab. apply (inside_fl (- a) _ _ Hab). rewrite Rminus_eq_0, Rabs_R0. lra.
Qed.
Fixpoint distinctb (l : list Z) : bool := match l with [] => true | a :: l => negb (existsb (Z.eqb a) l) && distinctb l end.
Lemma distinct_ok l : distinctb l = true -> NoDup l.
Proof.
  induction l as [|a l IH]; intros H; constructor; cbn [distinctb] in H; apply andb_prop in H; destruct H as [H1 H2].
  - intros I. apply Bool.negb_true_iff in H1. assert (T : existsb (Z.eqb a) l = true) by (apply existsb_exists; exists a; split; [exact I|apply Z.eqb_refl]). congruence.
  - apply IH, H2.
Qed.
Lemma flks_distinct : NoDup flks.
Proof. apply distinct_ok. vm_compute. reflexivity. Qed.
Lemma fl_sep_gen (l : list R) (m : list Z) : Forall2 (fun k z => fl k = z) l m -> NoDup m -> forall a b, In a l -> In b l -> fl a = fl b -> a = b.
Proof.
  induction 1 as [|k z l m E F IH]; intros D a b Ia Ib Eab; [destruct Ia|]. inversion D as [|? ? N D']; subst.
  assert (In' : forall c, In c l -> In (fl c) m). { clear - F. induction F as [|k z l m E F IH]; intros c I; [destruct I|]. destruct I as [->|I]; [left; congruence|right; apply IH, I]. }
  destruct Ia as [->|Ia], Ib as [->|Ib]; [reflexivity| | |apply IH; assumption].
  - exfalso. apply N. rewrite Eab. apply In', Ib.
  - exfalso. apply N. rewrite <- Eab. apply In', Ia.
Qed.
Lemma fl_sep a b : In a keys -> In b keys -> fl a = fl b -> a = b.
Proof. apply (fl_sep_gen _ _ keys_fl flks_distinct). Qed.
Lemma Forall2_in {A B} (P : A -> B -> Prop) l m : Forall2 P l m -> forall c, In c l -> exists z, P c z.
Proof. induction 1 as [|a b l m Hab _ IH]; intros c J; [destruct J|]. destruct J as [<-|J]; [exists b; exact Hab|apply IH, J]. Qed.
Lemma fl_near k v : In k keys -> k <> 0 -> Rabs (v - k) < 1 / 1000000000 -> fl v = fl k.
Proof.
  intros I N H. assert (X : exists z, inside k z).
  { rewrite keys_eq in I. apply in_app_or in I. assert (G : forall c, In c (map sqrt sqk) -> exists z, inside c z).
    { apply (Forall2_in _ _ _ inside_all). }
    destruct I as [I|I]; [apply G, I|]. apply in_app_or in I. destruct I as [[<-|[]]|I]; [congruence|].
    apply in_map_iff in I. destruct I as (c & <- & J). destruct (G c J) as [z Hz]. exists (- z - 1)%Z. apply inside_opp, Hz. }
  destruct X as [z Hz]. rewrite (inside_fl k z v Hz H). symmetry. apply (inside_fl k z k Hz). rewrite Rminus_eq_0, Rabs_R0. lra.
Qed.

(** ** the maps *)
Definition rotation_pair (p : nat) (k : R) (dp dm : list R) : Prop :=
  holds p (cos (acos k / 2)) (sin (acos k / 2)) dp /\ holds p (cos (acos k / 2)) (- sin (acos k / 2)) dm.
Definition served (p : nat) (mp mm : dmap) (k : R) : Prop :=
  exists dp dm, map_at k mp = Ok dp /\ map_at k mm = Ok dm /\ rotation_pair p k dp dm.
Lemma add_dmatrix_ok p c mp mm : (1 <= p)%nat -> exists mp' mm', add_dmatrix p (mp, mm) c = Ok (mp', mm') /\ served p mp' mm' c /\
  (forall k, fl k <> fl c -> map_at k mp' = map_at k mp /\ map_at k mm' = map_at k mm) /\
  (forall k, fl k = fl c -> map_at k mp' = map_at c mp' /\ map_at k mm' = map_at c mm').
Proof.
  intros Hp. unfold add_dmatrix. destruct (generate_ok p (acos c) Hp) as (dp & dm & E & H1 & H2). rewrite E. cbn [bind fst snd].
  exists (map_set c dp mp), (map_set c dm mm). split; [reflexivity|]. split; [|split].
  - exists dp, dm. rewrite !map_at_set_same by reflexivity. repeat split; assumption.
  - intros k N. rewrite !map_at_set_other by exact N. split; reflexivity.
  - intros k E'. rewrite !(map_at_set_same _ _ _ k E'), !(map_at_set_same _ _ _ c eq_refl). split; reflexivity.
Qed.
Lemma map_at_fl k k' m : fl k = fl k' -> map_at k m = map_at k' m.
Proof. intros E. induction m as [|[a v] m IH]; [reflexivity|]. cbn [map_at]. rewrite !same_key_fl, E, IH. reflexivity. Qed.
Lemma map_at_none k m : (forall a v, In (a, v) m -> fl k <> fl a) -> map_at k m = Fail Oob.
Proof.
  induction m as [|[a v] m IH]; intros H; [reflexivity|]. cbn [map_at]. rewrite same_key_fl. destruct (Z.eqb_spec (fl k) (fl a)) as [E|_].
  - exfalso. apply (H a v (or_introl eq_refl) E).
  - apply IH. intros. apply (H a0 v0). right. assumption.
Qed.
Lemma fold_dmatrix_ok p l : (1 <= p)%nat -> (forall a, In a l -> In a keys) -> forall done mp mm, (forall a, In a done -> In a keys) -> (forall k, In k done -> served p mp mm k) ->
  (forall k, (forall a, In a done -> fl k <> fl a) -> map_at k mp = Fail Oob /\ map_at k mm = Fail Oob) ->
  exists mp' mm', foldM (add_dmatrix p) l (mp, mm) = Ok (mp', mm') /\ (forall k, In k (done ++ l) -> served p mp' mm' k) /\
  (forall k, (forall a, In a (done ++ l) -> fl k <> fl a) -> map_at k mp' = Fail Oob /\ map_at k mm' = Fail Oob).
Proof.
  intros Hp. induction l as [|c l IH]; intros Hl done mp mm Hd S N.
  - exists mp, mm. split; [reflexivity|]. rewrite app_nil_r. split; assumption.
  - cbn [foldM]. destruct (add_dmatrix_ok p c mp mm Hp) as (mp' & mm' & E & Sc & O & _). rewrite E. cbn [bind].
    destruct (IH (fun a I => Hl a (or_intror I)) (done ++ [c]) mp' mm') as (mq & mr & E' & S' & N').
    + intros a I. apply in_app_or in I. destruct I as [I|[<-|[]]]; [apply Hd, I|apply Hl; left; reflexivity].
    + intros k I. apply in_app_or in I. destruct I as [I|[<-|[]]]; [|exact Sc]. destruct (Z.eq_dec (fl k) (fl c)) as [Ef|Nf].
      * rewrite (fl_sep k c (Hd k I) (Hl c (or_introl eq_refl)) Ef). exact Sc.
      * destruct (O k Nf) as [O1 O2]. unfold served. rewrite O1, O2. apply S, I.
    + intros k F. destruct (O k) as [O1 O2]; [apply F, in_or_app; right; left; reflexivity|]. rewrite O1, O2. apply N. intros a I. apply F, in_or_app. left. exact I.
    + exists mq, mr. split; [exact E'|]. rewrite <- app_assoc in S', N'. split; assumption.
Qed.
Lemma foldM_app {A B} (f : A -> B -> res A) l m s : foldM f (l ++ m) s = (do t <- foldM f l s; foldM f m t).
Proof. revert s. induction l as [|a l IH]; intros s; [reflexivity|]. cbn [app foldM]. destruct (f s a); [apply IH|reflexivity]. Qed.
Lemma wigner_maps_ok p : (1 <= p)%nat -> exists mp mm, generate_wigner_dmatrix p = Ok (mp, mm) /\ (forall k, In k keys -> served p mp mm k) /\
  (forall k, (forall a, In a keys -> fl k <> fl a) -> map_at k mp = Fail Oob /\ map_at k mm = Fail Oob).
Proof.
  intros Hp. unfold generate_wigner_dmatrix. rewrite <- foldM_app. fold keys. apply (fold_dmatrix_ok p keys Hp (fun a I => I) []).
  - intros a [].
  - intros a [].
  - intros k _. split; reflexivity.
Qed.

(** ** the table *)
Lemma fl_bound (l : list R) (m : list Z) : Forall2 (fun k z => fl k = z) l m -> List.Forall (fun z => (-1000000 < z < 999999)%Z) m -> forall k, In k l -> (-1000000 < fl k < 999999)%Z.
Proof. induction 1 as [|a b l m E F' IH]; intros G c J; [destruct J|]. inversion G; subst. destruct J as [<-|J]; [assumption|apply IH; assumption]. Qed.
Lemma flks_bound : List.Forall (fun z => (-1000000 < z < 999999)%Z) flks.
Proof. unfold flks, flk; cbn [app map]; repeat (apply List.Forall_cons; [lia|]); apply List.Forall_nil. Qed.
Lemma keys_bound k : In k keys -> -1 < k < 1.
Proof.
  intros I. pose proof (fl_bound _ _ keys_fl flks_bound k I) as Z1. unfold fl in Z1.
  pose proof (base_Int_part (k * 1000000)) as [U L]. destruct Z1 as [Z1 Z2]. set (z := Int_part (k * 1000000)) in *. assert (Q1 : (-999999 <= z <= 999998)%Z) by lia. destruct Q1 as [Q1 Q2]. apply IZR_le in Q1. apply IZR_le in Q2. lra.
Qed.
Record sound (tb : table) : Prop := mkSound {
  g_pos : (1 <= tb_p tb)%nat;
  g_sqf : generate_sqf (tb_p tb) = Ok (tb_sqf tb);
  g_binom : forall n m, (m <= n <= 2 * tb_p tb)%nat -> nth_error (tb_sqbinom tb) (midx n m) = Some (sb n m);
  g_keys : forall k, In k keys -> served (tb_p tb) (tb_plus tb) (tb_minus tb) k;
  g_other : forall k, (forall a, In a keys -> fl k <> fl a) -> dmat_plus tb k = Fail Oob /\ dmat_minus tb k = Fail Oob }.
Lemma table_of_order_ok p : (1 <= p)%nat -> exists tb, table_of_order p = Ok tb /\ tb_p tb = p /\ sound tb.
Proof.
  intros Hp. unfold table_of_order. destruct (sqf_ok p) as (sqf & E1 & _). destruct (sqbinom_ok p Hp) as (b & E2 & Hb). destruct (wigner_maps_ok p Hp) as (mp & mm & E3 & Hk & Ho).
  rewrite E1. cbn [bind]. rewrite E2. cbn [bind]. rewrite E3. cbn [bind]. eexists. split; [reflexivity|]. split; [reflexivity|]. constructor; cbn [tb_p tb_sqf tb_sqbinom tb_plus tb_minus]; try assumption.
Qed.
Lemma table_good p tb : (1 <= p)%nat -> table_of_order p = Ok tb -> tb_p tb = p /\ sound tb.
Proof. intros Hp E. destruct (table_of_order_ok p Hp) as (t & E' & H). rewrite E in E'. injection E' as ->. exact H. Qed.

Lemma acos_half k : -1 < k < 1 -> let c := cos (acos k / 2) in let s := sin (acos k / 2) in c * c + s * s = 1 /\ c * c - s * s = k /\ 2 * c * s = sqrt (1 - k * k).
Proof.
  intros H c s. split; [|split].
  - pose proof (sin2_cos2 (acos k / 2)) as E. unfold Rsqr in E. fold c s in E. lra.
  - unfold c, s. rewrite <- cos_2a. replace (2 * (acos k / 2)) with (acos k) by field. apply cos_acos. lra.
  - replace (2 * c * s) with (2 * s * c) by ring. unfold c, s. rewrite <- sin_2a. replace (2 * (acos k / 2)) with (acos k) by field. rewrite sin_acos by lra. reflexivity.
Qed.

(** ** the cosines that are asked for *)
Lemma key_sqrt q : In q sqk -> In (sqrt q) keys /\ In (- sqrt q) keys.
Proof.
  intros I. rewrite keys_eq. split; apply in_or_app; [left; apply in_map, I|right]. apply in_or_app. right. rewrite map_map. apply in_map_iff. exists q. split; [reflexivity|exact I].
Qed.
Lemma key_zero : In 0 keys.
Proof. rewrite keys_eq. apply in_or_app. right. left. reflexivity. Qed.
Lemma key_diag : In (1 / sqrt 3) keys /\ In (- 1 / sqrt 3) keys.
Proof.
  destruct (key_sqrt (1 / 3)) as [A B]; [unfold sqk; cbn [In]; tauto|]. assert (E : sqrt (1 / 3) = 1 / sqrt 3) by (rewrite <- sqrt_frac, sqrt_1 by lra; reflexivity).
  rewrite E in A, B. split; [exact A|]. replace (-1 / sqrt 3) with (- (1 / sqrt 3)) by (unfold Rdiv; ring). exact B.
Qed.
Lemma sq_ratio z s : In z [1; 2; 3]%Z -> In s [1; 2; 4; 5; 8; 9; 10; 13; 18]%Z -> In (IZR (z * z) / IZR (s + z * z)) sqk.
Proof.
  intros Iz Is. cbn [In] in Iz, Is. unfold sqk.
  repeat match goal with H : _ \/ _ |- _ => destruct H as [H|H] | H : False |- _ => destruct H end; subst;
  match goal with |- In (IZR ?u / IZR ?v) _ => let a := eval compute in u in let b := eval compute in v in change v with b; change u with a end;
  repeat (first [left; lra|right]).
Qed.
Lemma key_offset x y z : (-3 <= x <= 3)%Z -> (-3 <= y <= 3)%Z -> (-3 <= z <= 3)%Z -> (x <> 0 \/ y <> 0)%Z ->
  In (IZR z / sqrt (IZR (x * x + y * y + z * z))) keys.
Proof.
  intros Hx Hy Hz N. set (s := (x * x + y * y)%Z).
  assert (Is : In s [1; 2; 4; 5; 8; 9; 10; 13; 18]%Z).
  { unfold s. clear Hz. assert (Ax : In (x * x)%Z [0; 1; 4; 9]%Z) by (assert (D : (x = -3 \/ x = -2 \/ x = -1 \/ x = 0 \/ x = 1 \/ x = 2 \/ x = 3)%Z) by lia; repeat destruct D as [->|D]; subst; cbn; tauto).
    assert (Ay : In (y * y)%Z [0; 1; 4; 9]%Z) by (assert (D : (y = -3 \/ y = -2 \/ y = -1 \/ y = 0 \/ y = 1 \/ y = 2 \/ y = 3)%Z) by lia; repeat destruct D as [->|D]; subst; cbn; tauto).
    assert (P : (0 < x * x + y * y)%Z) by nia. set (u := (x * x)%Z) in *. set (v := (y * y)%Z) in *. clearbody u v. cbn [In] in Ax, Ay.
    repeat match goal with H : _ \/ _ |- _ => destruct H as [H|H] | H : False |- _ => destruct H end; subst; cbn; try tauto; lia. }
  assert (Ps : (0 < s)%Z) by (cbn [In] in Is; lia). clearbody s.
  assert (R : forall w, In w [1; 2; 3]%Z -> In (IZR w / sqrt (IZR (s + w * w))) keys /\ In (- (IZR w / sqrt (IZR (s + w * w)))) keys).
  { intros w Iw. assert (Pw : (0 < w)%Z) by (cbn [In] in Iw; lia). pose proof (sq_ratio w s Iw Is) as Iq. apply key_sqrt in Iq. assert (0 < IZR w) by (apply (IZR_lt 0); lia).
    rewrite <- sqrt_frac in Iq; [|apply (IZR_le 0); nia|apply (IZR_lt 0); nia]. rewrite mult_IZR, sqrt_square in Iq by lra. exact Iq. }
  assert (D : (z = 0 \/ In z [1; 2; 3] \/ In (- z) [1; 2; 3])%Z) by (cbn [In]; lia). destruct D as [->|[D|D]].
  - replace (0 / _) with 0 by (unfold Rdiv; ring). apply key_zero.
  - apply R, D.
  - apply R in D. destruct D as [_ D]. rewrite opp_IZR in D. replace (- z * - z)%Z with (z * z)%Z in D by ring. replace (- (- IZR z / sqrt (IZR (s + z * z)))) with (IZR z / sqrt (IZR (s + z * z))) in D by (unfold Rdiv; ring). exact D.
Qed.
(** (4, 0, 1) is not among them. *)
Lemma key_missing : forall a, In a keys -> fl (1 / sqrt 17) <> fl a.
Proof.
  assert (E : fl (1 / sqrt 17) = 242535%Z).
  { replace (1 / sqrt 17) with (sqrt (1 / 17)) by (rewrite <- sqrt_frac, sqrt_1 by lra; reflexivity). apply (inside_fl (sqrt (1 / 17))); [apply inside_sqrt; [lia|lra|split; lra]|]. rewrite Rminus_eq_0, Rabs_R0. lra. }
  rewrite E. assert (G : forall l m, Forall2 (fun k z => fl k = z) l m -> ~ In 242535%Z m -> forall a, In a l -> 242535%Z <> fl a).
  { induction 1 as [|a b l m E' F IH]; intros N c J; [destruct J|]. cbn [In] in N. destruct J as [<-|J]; [rewrite E'; intros X; apply N; left; congruence|apply IH; [tauto|exact J]]. }
  apply (G _ _ keys_fl). unfold flks, flk. cbn [app map In]. lia.
Qed.
