(** What reading traces has to yield. *)
From Coq Require Import String Ascii ZArith List Bool Permutation Sorted.
From Verif Require Import Base TraceModel ReadModel.
Import ListNotations.
Open Scope Z_scope.

(** ** Names of files: directory, locality, worker, two more parts, class and event, extension *)
Definition part_of_name (s : text) : Prop := s <> [] /\ ~ In "."%char s /\ ~ In "/"%char s.
Definition directory (s : text) : Prop := s = [] \/ exists d, s = d ++ ["/"%char].
Definition decimal (s : text) (n : Z) : Prop :=
  s <> [] /\ Forall (fun c => (48 <= nat_of_ascii c <= 57)%nat) s /\ n = fold_left (fun v c => 10 * v + (Z.of_nat (nat_of_ascii c) - 48)) s 0.
Definition file_name (dir loc worker a b cls ename ext : text) : text :=
  dir ++ loc ++ ["."%char] ++ worker ++ ["."%char] ++ a ++ ["."%char] ++ b ++ ["."%char] ++ cls ++ ["_"%char] ++ ename ++ ["."%char] ++ ext.

(** The names of the events *)
Definition short (w : work) : option string :=
  match w with
  | StoT => Some "STOT" | MtoT => Some "MTOT" | LtoT => Some "LTOT" | StoM => Some "STOM" | StoL => Some "STOL" | ELCO => Some "ELCO"
  | MtoM => Some "MTOM" | MtoL => Some "MTOL" | LtoL => Some "LTOL" | MtoI => Some "MTOI" | ItoI => Some "ITOI" | ItoL => Some "ITOL"
  | Progress => None
  end%string.
Definition event_name (k : kind) : string :=
  match k with
  | Begin w => match short w with Some s => "DASHMM_" ++ s ++ "_BEGIN" | None => "PROGRESS_BEGIN" end
  | End w => match short w with Some s => "DASHMM_" ++ s ++ "_END" | None => "PROGRESS_END" end
  | ZeroRef => "DASHMM_ZEROREF"
  end%string.
Definition class_name (k : kind) : string := match k with Begin Progress | End Progress => "NETWORK" | _ => "TRACE" end%string.

(** ** Contents of files *)
Definition byte (b : Z) : Prop := 0 <= b < 256.
Fixpoint little_endian (k : nat) (n : Z) : list Z := match k with O => [] | S k => n mod 256 :: little_endian k (n / 256) end.
Definition codes (s : string) : list Z := map (fun c => Z.of_nat (nat_of_ascii c)) (list_ascii_of_string s).
Definition contents (version header : list Z) (stamps : list Z) : list Z :=
  codes "HPXnpy" ++ version ++ little_endian 2 (Z.of_nat (length header)) ++ header ++ concat (map (little_endian 8) stamps).
Definition stamp64 (s : Z) : Prop := 0 <= s < 2 ^ 64.

(** ** What is put together *)
Definition sort_contract (sort : list entry -> list entry) : Prop :=
  forall l, Permutation (sort l) l /\ StronglySorted (fun a b => e_stamp a <= e_stamp b) (sort l).
(** The events that the files hold for a worker, file by file *)
Definition belonging (fs : list file) (l w : Z) : list entry :=
  concat (map (fun f => map (mkEntry (f_kind f)) (f_stamps f)) (filter (fun f => (f_loc f =? l) && (f_worker f =? w)) fs)).
Definition present (fs : list file) (l w : Z) : Prop := exists f, In f fs /\ f_loc f = l /\ f_worker f = w.
(** The events of a worker in the trace *)
Definition events_of (t : trace) (l w : Z) : option (list entry) :=
  match lookup l (t_locs t) with Some L => match lookup w (l_workers L) with Some W => Some (w_events W) | None => None end | None => None end.
(** The zero of time of a locality, as the code finds it: that of the first worker whose first
    file begins with a reference event *)
Definition marks (fs : list file) (l w z : Z) : Prop := z <> 2 ^ 64 - 1 /\ exists rest, belonging fs l w = mkEntry ZeroRef z :: rest.
Definition zero_of (fs : list file) (l z : Z) : Prop :=
  (exists w, marks fs l w z /\ forall w' z', w' < w -> ~ marks fs l w' z') \/ ((forall w z', ~ marks fs l w z') /\ z = 0).
Definition since (z : Z) (e : entry) : entry := if z =? 0 then e else mkEntry (e_kind e) ((e_stamp e - z) mod 2 ^ 64).
