(** C40: merge-and-shift of the FMM97 method. *)
From Coq Require Import ZArith List Bool Arith Lia Permutation.
From Verif Require Import Base ListFacts IndexModel IndexProofs TreeModel TreeFacts RefineModel LookupModel GeomModel GeomProofs DagModel MethodModel DagSpec DagProofs DagPaths DagExec DagSound MethodProofs MethodTasks MethodSound FmmProofs Fmm97Proofs MethodProps MergeShiftModel MergeShiftSpec MergeShiftProofs.
Import ListNotations.
Open Scope Z_scope.

(** For every kind of expansion, every target box [u] with parent [t] and every source box [s]
    whose parent is [t] or a neighbour of [t]: the source's waves reach [u] exactly once if
    the boxes are apart and not at all otherwise, in one direction, by the true displacement,
    and no table is read outside its bounds. *)
Theorem C40_shares : forall k s t u, near_child t s -> child_of t u ->
  exists l, shares_of k s t u = Ok l /\
    ((apart s u /\ exists x, l = [x] /\ right_share k s u x) \/ (~ apart s u /\ l = [])).
Proof. intros k s t u H1 H2. exact (shares_right k s t u H1 H2). Qed.
Print Assumptions C40_shares.

(** The views a source box fills: at most three, no view twice, all among the 28 of the
    target; none exactly if the source lies inside the target parent.  The Laplace
    [weight_estimate] is their number. *)
Theorem C40_views : forall k s t, near_child t s ->
  exists ps, i_to_i k s t = Ok ps /\ NoDup (map p_tag ps) /\ (forall p, In p ps -> 0 <= p_tag p < 28) /\ (length ps <= 3)%nat /\
    (ps = [] <-> forall a, icoord a s / 2 = icoord a t) /\ lap_weight ItoI s t = Ok (Z.of_nat (length ps)).
Proof. intros k s t H. exact (i_to_i_views k s t H). Qed.
Print Assumptions C40_views.

(** ... but the Yukawa and Helmholtz estimate is 0 whatever the boxes. *)
Theorem C40_yukawa_weight_refuted : forall s t w, yuk_weight ItoI s t = Ok w -> w = 0.
Proof. intros s t w H. unfold yuk_weight in H. destruct (table_row _ _ _); [|discriminate]. injection H as <-. reflexivity. Qed.
Print Assumptions C40_yukawa_weight_refuted.

Lemma coord_nonneg : forall X p (t : tree X) a, eight t -> sub t p <> None -> 0 <= icoord a (idx_of p).
Proof. intros X p t a H8 H. destruct (idx_grid _ _ _ H8 H) as (L & A & B & C). destruct a; cbn [icoord]; lia. Qed.
Lemma snoc_lt8 : forall X p w (t : tree X), eight t -> sub t (p ++ [w]) <> None -> (w < 8)%nat.
Proof. intros X p w t H8 H. rewrite sub_app in H. destruct (sub t p) as [n|] eqn:E; [|contradiction]. cbn in H. destruct (kid n w) eqn:K; [|contradiction]. unfold kid in K. destruct (nth_error (kids n) w) eqn:N; [|discriminate]. rewrite <- (H8 p n E). apply nth_error_Some. congruence. Qed.
Lemma half_child : forall X p w (t : tree X) a, eight t -> sub t (p ++ [w]) <> None -> icoord a (idx_of (p ++ [w])) / 2 = icoord a (idx_of p).
Proof.
  intros X p w t a H8 H. pose proof (snoc_lt8 _ _ _ _ H8 H). rewrite idx_snoc, icoord_child by lia.
  match goal with |- context [2 * ?x + ?y] => assert (0 <= y < 2) by (destruct a; apply Z.mod_pos_bound; lia); rewrite (Z.mul_comm 2 x), Z.add_comm, Z.div_add, Z.div_small by lia; lia end.
Qed.

(** In the DAG FMM97 builds, an ItoI edge followed by an ItoL edge delivers the source box's
    waves to the target child, once and rightly shifted, exactly if the pair counts as
    effective in C39. *)
Theorem C40_fmm97 : forall A B unif same fuel (S : tree A) (T : tree B), usable unif fuel S T ->
  exists ss tt, create_dag (fmm97 fuel) unif same fuel S T = Ok (ss, tt) /\
    forall e f, In e (all_edges (ss ++ tt)) -> In f (all_edges (ss ++ tt)) -> eop e = ItoI -> eop f = ItoL -> eto e = efrom f ->
      exists c p u, efrom e = ((SrcTree, c), Interm) /\ eto e = ((TgtTree, p), Interm) /\ eto f = ((TgtTree, u), Normal) /\
        forall k, exists l, shares_of k (idx_of c) (idx_of p) (idx_of u) = Ok l /\
          ((acts_on e f /\ exists x, l = [x] /\ right_share k (idx_of c) (idx_of u) x) \/ (~ acts_on e f /\ l = [])).
Proof.
  intros A B unif same fuel S T (H1 & H2 & H3 & H4 & H5 & H6). destruct (fmm97_dag S T H1 H2 fuel unif same H3 H4 H5 H6) as (ss & tt & Hc & _ & _ & _ & Ed). exists ss, tt. split; [assumption|]. intros e f Ie If Oe Of Ef.
  assert (Xe : exists p c, sub S c <> None /\ length c = Datatypes.S (length p) /\ ~ apart (idx_of (parent_of c)) (idx_of p) /\ sub T p <> None /\ Link e = do_ItoI (tgt p) (src c)).
  { destruct (Ed e Ie) as [(p & n & _ & [(-> & _)|[(w & _ & -> & _)|(-> & _)]])|(p & pi & rf & _ & _ & _ & [J|[J|[(_ & _ & ->)|(_ & c & Sc & Lc & (Nr & _ & Tp) & J)]]])]; try discriminate Oe.
    - exfalso. unfold inh in J. apply in_app_or in J. destruct J as [J|J]; [destruct (negb rf); [destruct J as [J|[]]; discriminate J|destruct J]|]. destruct (lev2 p) eqn:L2; [|destruct J]. destruct J as [J|J]; [discriminate J|]. apply in_app_or in J. destruct J as [J|J].
      + destruct pi; [|destruct J]. destruct J as [J|[]]. injection J as <-. discriminate Oe.
      + destruct (match p with [] => false | _ => lev2 (parent_of p) end); [|destruct J]. destruct J as [J|[]]. injection J as <-. discriminate Oe.
    - exfalso. apply flink_sep in J. tauto.
    - exists p, c. auto. }
  assert (Xf : exists q, q <> [] /\ sub T q <> None /\ Link f = do_ItoL (tgt q) (tgt (parent_of q))).
  { destruct (Ed f If) as [(p & n & _ & [(-> & _)|[(w & _ & -> & _)|(-> & _)]])|(p & pi & rf & Tp & _ & _ & [J|[J|[(_ & _ & ->)|(_ & c & _ & _ & _ & J)]]])]; try discriminate Of.
    - unfold inh in J. apply in_app_or in J. destruct J as [J|J]; [destruct (negb rf); [destruct J as [J|[]]; discriminate J|destruct J]|]. destruct (lev2 p) eqn:L2; [|destruct J]. destruct J as [J|J]; [discriminate J|]. apply in_app_or in J. destruct J as [J|J].
      + destruct pi; [|destruct J]. destruct J as [J|[]]. exists p. split; [intros ->; discriminate L2|]. split; [exact Tp|]. symmetry. exact J.
      + destruct (match p with [] => false | _ => lev2 (parent_of p) end); [|destruct J]. destruct J as [J|[]]. injection J as <-. discriminate Of.
    - exfalso. inversion J; subst f; discriminate Of.
    - injection J as ->. discriminate Of. }
  destruct Xe as (p & c & Sc & Lc & Nr & Tp & Ee). destruct Xf as (q & Nq & Tq & Eq). injection Ee as ->. injection Eq as ->. cbn [eto efrom] in Ef. injection Ef as ->.
  destruct (snoc_parent q Nq) as [w W]. assert (Nc : c <> []) by (intros ->; discriminate Lc). destruct (snoc_parent c Nc) as [v V].
  exists c, (parent_of q), q. split; [reflexivity|]. split; [reflexivity|]. split; [reflexivity|]. intros k. apply C40_shares.
  - intros a. rewrite V. rewrite (half_child _ _ _ S) by (try assumption; rewrite <- V; assumption). assert (Q : ~ 2 <= Z.abs (icoord a (idx_of (parent_of c)) - icoord a (idx_of (parent_of q)))) by (intros X; apply Nr; exists a; exact X). lia.
  - intros a. split; [apply (coord_nonneg _ _ T); assumption|]. rewrite W at 1. apply (half_child _ _ _ T); [assumption|rewrite <- W; assumption].
Qed.
Print Assumptions C40_fmm97.

(** A source box three to the right of its target: its waves travel in direction [MX];
    and a neighbour, which gets nothing. *)
Example C40_nonvacuous :
  near_child (mkIndex 1 1 1 2) (mkIndex 5 2 3 3) /\ child_of (mkIndex 1 1 1 2) (mkIndex 2 3 2 3) /\
  apart (mkIndex 5 2 3 3) (mkIndex 2 3 2 3) /\
  shares_of Lap (mkIndex 5 2 3 3) (mkIndex 1 1 1 2) (mkIndex 2 3 2 3) = Ok [mkShare 1 false MX (-1) (-1) 3] /\
  shares_of HelProp (mkIndex 5 2 3 3) (mkIndex 1 1 1 2) (mkIndex 2 3 2 3) = Ok [mkShare 0 true MX (-1) (-1) 3] /\
  shares_of Yuk (mkIndex 4 2 3 3) (mkIndex 1 1 1 2) (mkIndex 3 3 2 3) = Ok [] /\
  yuk_weight ItoI (mkIndex 5 2 3 3) (mkIndex 1 1 1 2) = Ok 0 /\ lap_weight ItoI (mkIndex 5 2 3 3) (mkIndex 1 1 1 2) = Ok 1.
Proof.
  split; [|split; [|split]].
  - intros []; cbn; lia.
  - intros []; cbn; lia.
  - exists AX. cbn. lia.
  - repeat split; vm_compute; reflexivity.
Qed.
(** The trees of C39 do have such pairs of edges. *)
Example C40_fmm97_nonvacuous : usable 1 4 exS exT /\
  match create_dag (fmm97 4) 1 false 4 exS exT with
  | Ok (sl, tl) => existsb (fun e => existsb (fun f =>
      match eop e, eop f with ItoI, ItoL => if dnode_dec (eto e) (efrom f) then true else false | _, _ => false end) (all_edges (sl ++ tl))) (all_edges (sl ++ tl)) = true
  | _ => False
  end.
Proof. split; [apply usable_ok; vm_compute; reflexivity|vm_compute; reflexivity]. Qed.
