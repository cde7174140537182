(** The tasks of the tree build on all ranks, and the memory and gates they share:
    which task may still run when something is freed. *)
From Coq Require Import List Bool Arith.
From Verif Require Import Base.
Import ListNotations.
Open Scope nat_scope.

(** What is known once the counts are reduced (dualtree.h:1193-1199): the number of
    ranks, of uniform cells, the rank map, whether S == T, and the local counts.  Index
    [k < dim3] is a source cell, [dim3 + i] the target cell [i] (dualtree.h:112-121). *)
Record config := { ranks : nat; dim3 : nat; rank_map : nat -> nat; same : bool; cnt : nat -> nat -> nat }.

(** Where [create_dual_tree_handler] is on one rank. *)
Inductive pc := Begin     (* dualtree.h:1166 *)
              | Counted   (* 1191: sort_local_points done, the local arrays allocated *)
              | Inited    (* 1221: both initPointExchange done, both unif_done_ set *)
              | Waiting   (* 1277: the tasks spawned, waiting on dual_tree_complete *)
              | Done.     (* 1297: the local arrays and the old segments deleted *)
(** The points going from one rank to another: not spawned, [send_points_] spawned,
    the parcel sent, [recv_points_] finished. *)
Inductive mail := MNone | MPending | MFlying | MDone.
(** A cell at its owner: collecting points, its gate has fired, [send_node_] finished. *)
Inductive cell := CWait | CComplete | CSent.
(** A cell on another rank: nothing, the parcel to [recv_node_] sent, the gate set, the
    set of [dual_tree_complete] done, the continuation that deletes the gate done. *)
Inductive news := NNone | NFlying | NGot | NNoted | NDeleted.

(** [arrived k] is [first_] of cell [k] at its owner, [left r] the inputs
    [dual_tree_complete] of rank [r] misses, [gone r k] whether rank [r]'s completion gate
    of cell [k] is deleted, [destroyed] whether [DualTree::destroy] ran. *)
Record state := {
  at_ : nat -> pc; mails : nat -> nat -> mail; arrived : nat -> nat; cells : nat -> cell;
  newsof : nat -> nat -> news; left : nat -> nat; gone : nat -> nat -> bool; destroyed : bool }.

Definition begun (p : pc) : bool := match p with Begin => false | _ => true end.
Definition inited (p : pc) : bool := match p with Begin | Counted => false | _ => true end.
Definition attached (p : pc) : bool := match p with Waiting | Done => true | _ => false end.
Definition finished (p : pc) : bool := match p with Done => true | _ => false end.

Definition set1 {A} (f : nat -> A) (i : nat) (v : A) : nat -> A := fun j => if j =? i then v else f j.
Definition set2 {A} (f : nat -> nat -> A) (i j : nat) (v : A) : nat -> nat -> A :=
  fun a b => if (a =? i) && (b =? j) then v else f a b.

Section Life.
Variable c : config.

Definition slot (k : nat) : nat := if k <? dim3 c then k else k - dim3 c.
(** dualtree.h:130 [rank_of_unif_grid] for cell [k] of either tree. *)
Definition home (k : nat) : nat := rank_map c (slot k).
Definition ncells : nat := 2 * dim3 c.
(** dualtree.h:1194: the reduced counts. *)
Definition total (k : nat) : nat := list_sum (map (fun r => cnt c r k) (seq 0 (ranks c))).
Definition all_ranks (f : nat -> bool) : bool := forallb f (seq 0 (ranks c)).

(** What [recv_points] merges into cell [k] (dualtree.h:902-968): with S == T no targets
    are sent and the source counts are used for both trees. *)
Definition batch (r k : nat) : nat := if same c && (dim3 c <=? k) then cnt c r (slot k) else cnt c r k.

Definition start : state := {|
  at_ := fun _ => Begin; mails := fun _ _ => MNone; arrived := fun _ => 0; cells := fun _ => CWait;
  newsof := fun _ _ => NNone; left := fun _ => ncells; gone := fun _ _ => false; destroyed := false |}.

Inductive event :=
| Count (r : nat) | Init (r : nat) | Spawn (r : nat) | SendPoints (r r' : nat) | RecvPoints (r r' : nat)
| Complete (k : nat) | SendNode (k : nat) | RecvNode (k r : nat) | Note (k r : nat) | DeleteGate (k r : nat)
| Free (r : nat) | Destroy.

(** [hpx_lco_and_set] of [dual_tree_complete] on rank [r], made at 1240 and deleted at 1278. *)
Definition signal (r : nat) (s : state) : res (nat -> nat) :=
  match at_ s r with
  | Waiting => match left s r with O => Fail Overflow | S n => Ok (set1 (left s) r n) end
  | _ => Fail NullDeref
  end.

(** [None]: the task does not exist or is blocked; [Some (Fail e)]: it runs and uses
    something that was freed. *)
Definition step (e : event) (s : state) : option (res state) :=
  match e with
  | Count r =>
      (* dualtree.h:1189-1191, 815-817 *)
      match at_ s r with
      | Begin => if negb (r <? ranks c) then None else
          Some (Ok {| at_ := set1 (at_ s) r Counted; mails := mails s; arrived := arrived s; cells := cells s;
                      newsof := newsof s; left := left s; gone := gone s; destroyed := destroyed s |})
      | _ => None
      end
  | Init r =>
      (* dualtree.h:1194-1222: waits for all counts, merges the local points (tree.h:214-270, 290-343) *)
      match at_ s r with
      | Counted => if negb (r <? ranks c) || negb (all_ranks (fun q => begun (at_ s q))) then None else
          Some (Ok {| at_ := set1 (at_ s) r Inited; mails := mails s;
                      arrived := fun k => if (home k =? r) && (k <? ncells) then arrived s k + cnt c r k else arrived s k;
                      cells := cells s; newsof := newsof s; left := left s; gone := gone s; destroyed := destroyed s |})
      | _ => None
      end
  | Spawn r =>
      (* dualtree.h:1232-1275; the empty cells of both trees set the new gate at once *)
      match at_ s r with
      | Inited => if negb (r <? ranks c) then None else
          Some (Ok {| at_ := set1 (at_ s) r Waiting;
                      mails := fun a b => if (a =? r) && negb (b =? r) && (b <? ranks c) then MPending else mails s a b;
                      arrived := arrived s; cells := cells s; newsof := newsof s;
                      left := set1 (left s) r (length (filter (fun k => negb (total k =? 0)) (seq 0 ncells)));
                      gone := gone s; destroyed := destroyed s |})
      | _ => None
      end
  | SendPoints r r' =>
      (* dualtree.h:1009-1136: reads local_count, local_offset and the old segments of rank r *)
      match mails s r r' with
      | MPending => if finished (at_ s r) || destroyed s then Some (Fail NullDeref) else
          Some (Ok {| at_ := at_ s; mails := set2 (mails s) r r' MFlying; arrived := arrived s; cells := cells s;
                      newsof := newsof s; left := left s; gone := gone s; destroyed := destroyed s |})
      | _ => None
      end
  | RecvPoints r r' =>
      (* dualtree.h:853-990: reads the tree of rank r', waits for both unif_done_ *)
      match mails s r r' with
      | MFlying => if destroyed s then Some (Fail NullDeref) else if negb (inited (at_ s r')) then None else
          Some (Ok {| at_ := at_ s; mails := set2 (mails s) r r' MDone;
                      arrived := fun k => if (home k =? r') && (k <? ncells) then arrived s k + batch r k else arrived s k;
                      cells := cells s; newsof := newsof s; left := left s; gone := gone s; destroyed := destroyed s |})
      | _ => None
      end
  | Complete k =>
      (* tree.h:255, 738: increment_first returned true; node.h:443-536 partitions the cell
         and fires its gate.  With S == T the target cell waits for the source cell
         (tree.h:330, 779). *)
      match cells s k with
      | CWait =>
          if negb (k <? ncells) || (arrived s k =? 0) || (arrived s k <? total k) then None
          else if same c && (dim3 c <=? k) && (match cells s (slot k) with CWait => true | _ => false end) then None
          else if destroyed s then Some (Fail NullDeref) else
          Some (Ok {| at_ := at_ s; mails := mails s; arrived := arrived s; cells := set1 (cells s) k CComplete;
                      newsof := newsof s; left := left s; gone := gone s; destroyed := destroyed s |})
      | _ => None
      end
  | SendNode k =>
      (* tree.h:191-195, 804-839, attached at dualtree.h:1248, 1254 *)
      match cells s k with
      | CComplete =>
          if negb (attached (at_ s (home k))) || (total k =? 0) then None
          else if destroyed s then Some (Fail NullDeref) else
          Some (do l <- signal (home k) s;
                Ok {| at_ := at_ s; mails := mails s; arrived := arrived s; cells := set1 (cells s) k CSent;
                      newsof := fun a r => if (a =? k) && negb (r =? home k) && (r <? ranks c) then NFlying else newsof s a r;
                      left := l; gone := gone s; destroyed := destroyed s |})
      | _ => None
      end
  | RecvNode k r =>
      (* tree.h:841-864: uses the cell's node and its gate *)
      match newsof s k r with
      | NFlying => if destroyed s || gone s r k then Some (Fail NullDeref) else
          Some (Ok {| at_ := at_ s; mails := mails s; arrived := arrived s; cells := cells s;
                      newsof := set2 (newsof s) k r NGot; left := left s; gone := gone s; destroyed := destroyed s |})
      | _ => None
      end
  | Note k r =>
      (* dualtree.h:1258-1274: attached only if the cell is not empty *)
      match newsof s k r with
      | NGot =>
          if negb (attached (at_ s r)) || (total k =? 0) then None else
          Some (do l <- signal r s;
                Ok {| at_ := at_ s; mails := mails s; arrived := arrived s; cells := cells s;
                      newsof := set2 (newsof s) k r NNoted; left := l; gone := gone s; destroyed := destroyed s |})
      | _ => None
      end
  | DeleteGate k r =>
      (* dualtree.h:1262, 1272: the continuation *)
      match newsof s k r with
      | NNoted => if gone s r k then Some (Fail BadOp) else
          Some (Ok {| at_ := at_ s; mails := mails s; arrived := arrived s; cells := cells s;
                      newsof := set2 (newsof s) k r NDeleted; left := left s; gone := set2 (gone s) r k true; destroyed := destroyed s |})
      | _ => None
      end
  | Free r =>
      (* dualtree.h:1277-1297: once dual_tree_complete fired *)
      match at_ s r, left s r with
      | Waiting, O =>
          Some (Ok {| at_ := set1 (at_ s) r Done; mails := mails s; arrived := arrived s; cells := cells s;
                      newsof := newsof s; left := left s; gone := gone s; destroyed := destroyed s |})
      | _, _ => None
      end
  | Destroy =>
      (* dualtree.h:482-492, 1309-1314, tree.h:877-916; evaluator.h:257, after the broadcast
         of create_dual_tree_ has returned on all ranks (dualtree.h:465-473) *)
      if destroyed s || negb (all_ranks (fun r => finished (at_ s r))) then None
      else if existsb (fun k => gone s (home k) k) (seq 0 ncells) then Some (Fail BadOp) else
      Some (Ok {| at_ := at_ s; mails := mails s; arrived := arrived s; cells := cells s; newsof := newsof s; left := left s;
                  gone := fun r k => if (home k =? r) && (k <? ncells) then true else gone s r k; destroyed := true |})
  end.

(** Any task that can run may run next. *)
Inductive runs : nat -> state -> state -> Prop :=
| runs_0 : forall s, runs 0 s s
| runs_S : forall n s s' s'' e, runs n s s' -> step e s' = Some (Ok s'') -> runs (S n) s s''.
End Life.
