(** Proofs about reading traces. *)
From Coq Require Import String Ascii ZArith List Bool Arith Lia Permutation Sorted.
From Verif Require Import Base ListFacts TraceModel ReadModel ReadSpec.
Import ListNotations.
Open Scope Z_scope.

(** ** Splitting *)
Fixpoint index (c : ascii) (s : text) : option nat :=
  match s with [] => None | x :: s' => if Ascii.eqb x c then Some O else option_map S (index c s') end.
Lemma find_index c s : forall at_ from, (from <= at_)%nat -> find_from c s at_ from = option_map (fun i => (at_ + i)%nat) (index c s).
Proof.
  induction s as [|x s IH]; intros at_ from H; [reflexivity|]. cbn [find_from index]. rewrite (proj2 (Nat.leb_le _ _) H). cbn [andb]. destruct (Ascii.eqb x c); [cbn; f_equal; lia|]. rewrite IH by lia. destruct (index c s); cbn; [f_equal; lia|reflexivity].
Qed.
Lemma find_skip c s : forall at_ from, (at_ <= from)%nat -> find_from c s at_ from = option_map (fun i => (from + i)%nat) (index c (skipn (from - at_) s)).
Proof.
  induction s as [|x s IH]; intros at_ from H; [rewrite skipn_nil; reflexivity|]. destruct (Nat.eq_dec at_ from) as [->|N]; [rewrite Nat.sub_diag; apply find_index; lia|].
  cbn [find_from]. rewrite (proj2 (Nat.leb_gt _ _)) by lia. cbn [andb]. rewrite IH by lia. replace (from - at_)%nat with (S (from - S at_)) by lia. reflexivity.
Qed.
Fixpoint pieces (fuel : nat) (s : text) (c : ascii) : list text :=
  match fuel with
  | O => []
  | S fuel => match index c s with Some f => if (f =? 0)%nat then pieces fuel (skipn 1 s) c else firstn f s :: pieces fuel (skipn (f + 1) s) c | None => [s] end
  end.
Lemma skip_twice {A} (l : list A) : forall a b, skipn a (skipn b l) = skipn (a + b) l.
Proof. induction l as [|x l IH]; intros a b; [rewrite !skipn_nil; reflexivity|]. destruct b as [|b]; [rewrite Nat.add_0_r; reflexivity|]. rewrite Nat.add_succ_r. cbn [skipn]. apply IH. Qed.
Lemma split_pieces c : forall fuel s iter, split_loop fuel s c iter = pieces fuel (skipn iter s) c.
Proof.
  induction fuel as [|fuel IH]; intros s iter; [reflexivity|]. cbn [split_loop pieces]. rewrite find_skip by lia. rewrite Nat.sub_0_r. destruct (index c (skipn iter s)) as [f|]; cbn [option_map]; [|reflexivity].
  replace (iter + f =? iter)%nat with (f =? 0)%nat by (destruct (f =? 0)%nat eqn:E; symmetry; [apply Nat.eqb_eq in E; apply Nat.eqb_eq; lia|apply Nat.eqb_neq in E; apply Nat.eqb_neq; lia]).
  rewrite !IH. replace (iter + f - iter)%nat with f by lia. rewrite !skip_twice. replace (f + 1 + iter)%nat with (iter + f + 1)%nat by lia. destruct (f =? 0)%nat eqn:E; [|reflexivity]. apply Nat.eqb_eq in E. subst f. do 2 f_equal. lia.
Qed.
Lemma index_none c s : ~ In c s -> index c s = None.
Proof. induction s as [|x s IH]; intros H; [reflexivity|]. cbn [index]. destruct (Ascii.eqb x c) eqn:E; [apply Ascii.eqb_eq in E; subst; exfalso; apply H; left; reflexivity|]. rewrite IH; [reflexivity|]. intros I. apply H. right. exact I. Qed.
Lemma index_first c p rest : ~ In c p -> index c (p ++ c :: rest) = Some (length p).
Proof. induction p as [|x p IH]; intros H; cbn [app index length]; [rewrite Ascii.eqb_refl; reflexivity|]. destruct (Ascii.eqb x c) eqn:E; [apply Ascii.eqb_eq in E; subst; exfalso; apply H; left; reflexivity|]. rewrite IH; [reflexivity|]. intros I. apply H. right. exact I. Qed.
Lemma pieces_end fuel s c : ~ In c s -> pieces (S fuel) s c = [s].
Proof. intros H. cbn [pieces]. rewrite index_none by exact H. reflexivity. Qed.
Lemma pieces_cons fuel p rest c : p <> [] -> ~ In c p -> pieces (S fuel) (p ++ c :: rest) c = p :: pieces fuel rest c.
Proof.
  intros N H. cbn [pieces]. rewrite index_first by exact H. destruct (length p =? 0)%nat eqn:E; [apply Nat.eqb_eq in E; destruct p; [contradiction|discriminate]|].
  f_equal; [rewrite firstn_app, Nat.sub_diag, firstn_all; cbn; apply app_nil_r|]. replace (length p + 1)%nat with (length p + 1)%nat by lia. rewrite skipn_app, skipn_all2 by lia. replace (length p + 1 - length p)%nat with 1%nat by lia. reflexivity.
Qed.
Lemma last_piece c final : ~ In c final -> forall fuel s, (length s < fuel)%nat -> s = final \/ (exists d, s = d ++ c :: final) -> nth_res (pieces fuel s c) (length (pieces fuel s c) - 1) = Ok final /\ pieces fuel s c <> [].
Proof.
  intros H. induction fuel as [|fuel IH]; intros s Hl Hs; [lia|]. destruct Hs as [->|[d ->]]; [rewrite pieces_end by exact H; split; [reflexivity|discriminate]|].
  assert (X : exists p rest, ~ In c p /\ d ++ c :: final = p ++ c :: rest /\ (rest = final \/ exists d', rest = d' ++ c :: final)).
  { clear IH Hl. induction d as [|x d IHd]; [exists [], final; split; [auto|]; split; [reflexivity|]; left; reflexivity|]. destruct (ascii_dec x c) as [->|N]; [exists [], (d ++ c :: final); split; [auto|]; split; [reflexivity|]; right; exists d; reflexivity|].
    destruct IHd as (p & rest & H1 & H2 & H3). exists (x :: p), rest. split; [intros [E|I]; [congruence|contradiction]|]. split; [cbn; rewrite H2; reflexivity|exact H3]. }
  destruct X as (p & rest & H1 & H2 & H3). rewrite H2 in *. rewrite app_length in Hl. cbn [length] in Hl. destruct p as [|x p].
  - cbn [app pieces index]. rewrite Ascii.eqb_refl. cbn [Nat.eqb skipn]. apply IH; [cbn in Hl; lia|exact H3].
  - rewrite pieces_cons by (try discriminate; exact H1). destruct (IH rest ltac:(lia) H3) as [L N]. destruct (pieces fuel rest c) as [|q l] eqn:E; [contradiction|]. split; [|discriminate]. cbn [length]. cbn [length] in L. replace (S (S (length l)) - 1)%nat with (S (S (length l) - 1)) by lia. exact L.
Qed.
Lemma split_last c dir final : ~ In c final -> (dir = [] \/ exists d, dir = d ++ [c]) -> nth_res (split (dir ++ final) c) (length (split (dir ++ final) c) - 1) = Ok final.
Proof.
  intros H D. unfold split. rewrite split_pieces. cbn [skipn]. apply last_piece; [exact H|lia|]. destruct D as [->|[d ->]]; [left; reflexivity|right; exists d; rewrite <- app_assoc; reflexivity].
Qed.
Lemma split_once_ok c a b : ~ In c a -> a <> [] -> split_once (a ++ c :: b) c = [a; b].
Proof.
  intros H N. unfold split_once. rewrite find_index by lia. rewrite index_first by exact H. cbn [option_map Nat.add]. destruct (length a) as [|n] eqn:E; [destruct a; [contradiction|discriminate]|]. rewrite <- E. f_equal; [rewrite firstn_app, Nat.sub_diag, firstn_all; cbn; apply app_nil_r|]. f_equal. rewrite skipn_app, skipn_all2 by lia. replace (length a + 1 - length a)%nat with 1%nat by lia. reflexivity.
Qed.

(** ** Numbers *)
Lemma digit_ok c : (48 <= nat_of_ascii c <= 57)%nat -> digit c = Some (Z.of_nat (nat_of_ascii c) - 48) /\ is_space c = false /\ Ascii.eqb c "-"%char = false /\ Ascii.eqb c "+"%char = false.
Proof.
  intros H. unfold digit, is_space. rewrite (proj2 (Nat.leb_le 48 (nat_of_ascii c))), (proj2 (Nat.leb_le (nat_of_ascii c) 57)) by lia. split; [reflexivity|]. split; [apply orb_false_iff; split; [apply Nat.eqb_neq; lia|apply andb_false_iff; right; apply Nat.leb_gt; lia]|].
  split; apply Ascii.eqb_neq; intros ->; cbn in H; lia.
Qed.
Lemma digits_ok s : Forall (fun c => (48 <= nat_of_ascii c <= 57)%nat) s -> forall v, digits s v = fold_left (fun v c => 10 * v + (Z.of_nat (nat_of_ascii c) - 48)) s v.
Proof. intros F. induction F as [|c s H F IH]; intros v; [reflexivity|]. cbn [digits fold_left]. rewrite (proj1 (digit_ok c H)). apply IH. Qed.
Lemma digits_nonneg s : Forall (fun c => (48 <= nat_of_ascii c <= 57)%nat) s -> forall v, 0 <= v -> 0 <= fold_left (fun v c => 10 * v + (Z.of_nat (nat_of_ascii c) - 48)) s v.
Proof. intros F. induction F as [|c s H F IH]; intros v Hv; [exact Hv|]. cbn [fold_left]. apply IH. lia. Qed.
Lemma stoi_ok s n : decimal s n -> n < 2 ^ 31 -> stoi s = Ok n.
Proof.
  intros (N & F & ->) H. pose proof (digits_nonneg s F 0 ltac:(lia)) as P. destruct s as [|c s]; [contradiction|]. pose proof F as F'. apply Forall_inv in F'. destruct (digit_ok c F') as (D & S & M & Q). unfold stoi. cbn [skip_space]. rewrite S, M, Q, D, (digits_ok _ F).
  set (v := fold_left _ _ _) in *. change (2 ^ 31) with 2147483648 in H. rewrite (proj2 (Z.leb_le (-2147483648) v)), (proj2 (Z.leb_le v 2147483647)) by lia. reflexivity.
Qed.

(** ** Contents *)
Lemma number_le k : forall n, 0 <= n < 256 ^ Z.of_nat k -> number (little_endian k n) = n.
Proof.
  induction k as [|k IH]; intros n H; [cbn in *; lia|]. cbn [little_endian number]. rewrite Nat2Z.inj_succ, Z.pow_succ_r in H by lia. rewrite IH; [pose proof (Z.div_mod n 256 ltac:(lia)); lia|]. split; [apply Z.div_pos; lia|apply Z.div_lt_upper_bound; lia].
Qed.
Lemma read_app stamps rest : Forall stamp64 stamps -> read_stamps (concat (map (little_endian 8) stamps) ++ rest) = do l <- read_stamps rest; Ok (stamps ++ l).
Proof.
  intros F. induction F as [|s l H F IH]; [cbn; destruct (read_stamps rest); reflexivity|]. cbn [map concat]. rewrite <- app_assoc. remember (concat (map (little_endian 8) l) ++ rest) as tl. change (little_endian 8 s ++ tl) with (s mod 256 :: s / 256 mod 256 :: s / 256 / 256 mod 256 :: s / 256 / 256 / 256 mod 256 :: s / 256 / 256 / 256 / 256 mod 256 :: s / 256 / 256 / 256 / 256 / 256 mod 256 :: s / 256 / 256 / 256 / 256 / 256 / 256 mod 256 :: s / 256 / 256 / 256 / 256 / 256 / 256 / 256 mod 256 :: tl).
  cbn [read_stamps]. rewrite IH. change [s mod 256; s / 256 mod 256; s / 256 / 256 mod 256; s / 256 / 256 / 256 mod 256; s / 256 / 256 / 256 / 256 mod 256; s / 256 / 256 / 256 / 256 / 256 mod 256; s / 256 / 256 / 256 / 256 / 256 / 256 mod 256; s / 256 / 256 / 256 / 256 / 256 / 256 / 256 mod 256] with (little_endian 8 s). rewrite number_le by (unfold stamp64 in H; exact H). destruct (read_stamps rest); reflexivity.
Qed.
Lemma read_part rest : (0 < length rest < 8)%nat -> read_stamps rest = Fail BadOp.
Proof. intros H. do 8 (destruct rest as [|? rest]; [try reflexivity; cbn in H; lia|]). cbn in H. lia. Qed.
Lemma header_ok version header body : length version = 2%nat -> Z.of_nat (length header) < 65536 -> check_and_skip_header (codes "HPXnpy" ++ version ++ little_endian 2 (Z.of_nat (length header)) ++ header ++ body) = Ok body.
Proof.
  intros V H. destruct version as [|v1 [|v2 [|? ?]]]; try discriminate. unfold check_and_skip_header. set (n := Z.of_nat (length header)) in *. cbn [codes map list_ascii_of_string app little_endian length firstn skipn]. change (S (S (S (S (S (S ?k))))) <? 6)%nat with false.
  match goal with |- context[list_eq_dec Z.eq_dec ?a magic] => destruct (list_eq_dec Z.eq_dec a magic) as [_|E]; [|exfalso; apply E; reflexivity] end. cbn [negb].
  replace (n mod 256 + 256 * (n / 256 mod 256)) with n by (rewrite (Z.mod_small (n / 256)) by (split; [apply Z.div_pos; lia|apply Z.div_lt_upper_bound; lia]); pose proof (Z.div_mod n 256 ltac:(lia)); lia).
  unfold n. rewrite Nat2Z.id, skipn_app, skipn_all, Nat.sub_diag. reflexivity.
Qed.
Lemma header_only file rest : check_and_skip_header file = Ok rest -> exists more, file = codes "HPXnpy" ++ more.
Proof.
  unfold check_and_skip_header. destruct (length file <? 6)%nat; [discriminate|]. destruct (list_eq_dec Z.eq_dec (firstn 6 file) magic) as [E|]; [|discriminate]. intros _. exists (skipn 6 file). change (codes "HPXnpy") with magic. rewrite <- E. symmetry. apply firstn_skipn.
Qed.
Lemma read_range : forall n file l, (length file <= n)%nat -> Forall byte file -> read_stamps file = Ok l -> Forall stamp64 l /\ length file = (8 * length l)%nat.
Proof.
  induction n as [|n IH]; intros file l Hn F E; [destruct file; [injection E as <-; split; [constructor|reflexivity]|cbn in Hn; lia]|].
  destruct file as [|a [|b [|c [|d [|e [|f [|g [|h rest]]]]]]]]; try discriminate; [injection E as <-; split; [constructor|reflexivity]|]. cbn [read_stamps] in E. destruct (read_stamps rest) as [l'|] eqn:Er; [|discriminate]. cbn [bind] in E. assert (El : l = number [a; b; c; d; e; f; g; h] :: l') by congruence. subst l. clear E.
  repeat match goal with H : Forall byte (_ :: _) |- _ => apply Forall_cons_iff in H; destruct H end. destruct (IH rest l') as [G L]; [cbn in Hn; lia|assumption|exact Er|]. split; [constructor; [|exact G]|cbn [length]; lia]. unfold byte in *. unfold stamp64. change (number [a; b; c; d; e; f; g; h]) with (a + 256 * (b + 256 * (c + 256 * (d + 256 * (e + 256 * (f + 256 * (g + 256 * (h + 256 * 0)))))))). lia.
Qed.
