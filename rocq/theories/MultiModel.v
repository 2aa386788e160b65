(* Model of src/core/raw_code.c for several cores per node (node_size > 1), and
   of the execution of such code by all cores of all nodes.  RawModel.v is the
   case of one core per node; the simplifications are those given there, except
   that node_size is arbitrary. *)
From Verif Require Import Base SchedModel RawModel CoresModel.

(* A line of code that is translated into byte code, or one (eirec_, eisen_,
   ememcp_, ereduc_) that is not, because another core has it to do; it is still
   there for buffer_offset.c, which lays out the buffers of the node. *)
Inductive cline := Real (i : instr) | Fake (i : instr).

Section CoreCode.
  (* mmsizes with num_nodes / node_size (raw_code.c:81 and others); num_nodes and
     node after 66-67, that is, the number of ranks and the own rank; core0 is
     node_rank == 0 *)
  Context (size_of : nat -> nat) (ranks rank : nat) (core0 : bool).
  Definition own_line (i : instr) : cline := if core0 then Real i else Fake i.

  Definition core_size (b : block) (n : nat) : nat := size_of (frac (lines b n)).
  Definition core_start (b : block) (n : nat) : nat :=
    fold_left (fun a k => a + core_size b k) (seq 0 n) 0.

  (* 80, 126, 226: an entry of this core; 84, 150, 227: one of another core *)
  Definition mine (q : nat) (e : Z * nat) : bool := (fst e =? Z.of_nat q)%Z && negb (q =? rank).
  Definition theirs (q : nat) (e : Z * nat) : bool := (- fst e - 10 =? Z.of_nat q)%Z && negb (q =? rank).

  (* 79-88: the first entry that counts; true if it is of this core *)
  Fixpoint recv_entry_of (q : nat) (es : list (Z * nat)) : option bool :=
    match es with
    | [] => None
    | e :: r => if mine q e then Some true else if theirs q e then Some false else recv_entry_of q r
    end.
  (* size and size_s of 76-89 *)
  Definition recv_sizes (b : block) (q : nat) : nat * nat :=
    fold_left (fun a n => match recv_entry_of q (recvfrom (lines b n)) with
                          | Some true => (fst a + core_size b n, snd a)
                          | Some false => (fst a, snd a + core_size b n)
                          | None => a
                          end) (seq 0 (num_lines b)) (0, 0).

  Definition from_rank (o : nat) : nat := (ranks + rank - o) mod ranks.
  Definition to_rank (o : nat) : nat := (rank + o) mod ranks.

  (* 74-121; returns the lines and buffer_counter *)
  Fixpoint core_receives (b : block) (os : list nat) (c : nat) : list cline * nat :=
    match os with
    | [] => ([], c)
    | o :: r =>
      let q := from_rank o in
      let '(size, size_s) := recv_sizes b q in
      let '(l1, c1) := if size =? 0 then ([], c) else ([Real (Irecv (Shm c, 0) size q)], S c) in
      let '(l2, c2) := if size_s =? 0 then ([], c1) else ([Fake (Irecv (Shm c1, 0) size_s q)], S c1) in
      let '(l3, c3) := core_receives b r c2 in
      (l1 ++ l2 ++ l3, c3)
    end.

  (* 126-173; (add, adds) are the positions in the two messages *)
  Fixpoint core_pack_entries (b : block) (q n c : nat) (es : list (Z * nat)) (add : nat * nat) : list cline * (nat * nat) :=
    match es with
    | [] => ([], add)
    | e :: r =>
      let size := core_size b n in
      if mine q e then
        let '(l, a) := core_pack_entries b q n c r (fst add + size, snd add) in
        ((if size =? 0 then [] else [own_line (Memcpy (Shm c, fst add) (Shm 0, core_start b n) size)]) ++ l, a)
      else if theirs q e then
        let '(l, a) := core_pack_entries b q n c r (fst add, snd add + size) in
        ((if size =? 0 then [] else [own_line (Memcpy (Shm c, snd add) (Shm 0, core_start b n) size)]) ++ l, a)
      else core_pack_entries b q n c r add
    end.
  Fixpoint core_pack_lines (b : block) (q c : nat) (ns : list nat) (add : nat * nat) : list cline * (nat * nat) :=
    match ns with
    | [] => ([], add)
    | n :: r =>
      let '(l1, a1) := core_pack_entries b q n c (sendto (lines b n)) add in
      let '(l2, a2) := core_pack_lines b q c r a1 in
      (l1 ++ l2, a2)
    end.
  (* 122-208 *)
  Fixpoint core_sends (b : block) (os : list nat) (c : nat) : list cline :=
    match os with
    | [] => []
    | o :: r =>
      let q := to_rank o in
      let '(l, (add, adds)) := core_pack_lines b q c (seq 0 (num_lines b)) (0, 0) in
      let '(l1, c1) := if add =? 0 then ([], c) else ([Real Barrier; Real (Isend (Shm c, 0) add q)], S c) in
      let '(l2, c2) := if adds =? 0 then ([], c1) else ([Real Barrier; Fake (Isend (Shm c1, 0) adds q)], S c1) in
      l ++ l1 ++ l2 ++ core_sends b r c2
    end.

  (* 225-233 *)
  Definition core_receives_from (b : block) (q n : nat) : bool :=
    existsb (fun e => mine q e || theirs q e) (recvfrom (lines b n)).
  Definition core_recv_size (b : block) (q : nat) : nat :=
    fold_left (fun a n => if core_receives_from b q n then a + core_size b n else a) (seq 0 (num_lines b)) 0.
  Fixpoint core_first_start (b : block) (q : nat) (ns : list nat) (j : nat) : nat :=
    match ns with
    | [] => j
    | n :: r => if core_receives_from b q n then j else core_first_start b q r (j + core_size b n)
    end.
  Definition core_last_receiving (b : block) (q : nat) : nat :=
    fold_left (fun k n => if core_receives_from b q n then n else k) (seq 0 (num_lines b)) 0.
  (* 219-267; the line has at least the entry that was found, so there is a first one *)
  Fixpoint core_unpacks (b : block) (os : list nat) (c : nat) : list cline :=
    match os with
    | [] => []
    | o :: r =>
      let q := from_rank o in
      let size := core_recv_size b q in
      if (size =? 0) || (q =? rank) then core_unpacks b r c
      else
        let d := (Shm 0, core_first_start b q (seq 0 (num_lines b)) 0) in
        own_line (match recvfrom (lines b (core_last_receiving b q)) with
         | e :: _ => if (fst e =? Z.of_nat rank)%Z || (- fst e - 10 =? Z.of_nat rank)%Z
                     then Reduce_ d (Shm c, 0) size else Memcpy d (Shm c, 0) size
         | [] => Memcpy d (Shm c, 0) size
         end) :: core_unpacks b r (S c)
    end.

  (* 288-292, 318-328 *)
  Definition sized_line (size : nat) (i : instr) : cline := if core0 && negb (size =? 0) then Real i else Fake i.
  (* 269-295 *)
  Definition core_reduces (b : block) : list cline :=
    flat_map (fun n => map (fun r =>
        sized_line (core_size b n) (Reduce_ (Shm 0, core_start b n) (Shm 0, core_start b r) (core_size b n)))
      (reducefrom (lines b n))) (seq 0 (num_lines b)).
  (* 296-330 *)
  Definition core_copyreduces (b : block) : list cline :=
    flat_map (fun n => match copyreducefrom (lines b n) with
      | [] => []
      | r0 :: rs =>
        sized_line (core_size b n) (Memcpy (Shm 0, core_start b n) (Shm 0, core_start b r0) (core_size b n)) ::
        map (fun r => sized_line (core_size b n) (Reduce_ (Shm 0, core_start b n) (Shm 0, core_start b r) (core_size b n))) rs
      end) (seq 0 (num_lines b)).

  (* One block m >= 1, 69-330 *)
  Definition core_block_code (b : block) (first : bool) : list cline :=
    let os := seq 0 ranks in
    let '(l, c) := core_receives b os 1 in
    (if first then [] else [Real Barrier]) ++ l ++ core_sends b os c ++
    Real Waitall :: Real Barrier :: core_unpacks b os 1 ++ Real Barrier :: core_reduces b ++ core_copyreduces b.
  (* The loop 68-331 and the line 332 *)
  Fixpoint core_blocks_code (bs : list block) (first : bool) : list cline :=
    match bs with
    | [] => [Real Barrier]
    | b :: r => core_block_code b first ++ core_blocks_code r false
    end.
End CoreCode.

(* What is translated into byte code: src/core/byte_code.c:461-540 has no case for
   the lines of other cores. *)
Definition translated (l : list cline) : list instr :=
  flat_map (fun x => match x with Real i => [i] | Fake _ => [] end) l.

(* ---------- execution by all cores of all nodes ---------- *)
(* src/mpi/ext_mpi_native_exec.c:254-300 again, see RawModel.v.  The buffers
   Shm k are shared by the cores of a node; each core has its own code and
   requests, and its own channels to all other ranks.  Cores of one node execute
   their lines in any order, but all of them pass a socket barrier at once:
   nobody leaves before all have come (C05), and entering and leaving it changes
   nothing that others see.  The code of the exchange does not use the user's
   buffers, so the memory of the node stands for those of its core 0. *)
Section Cluster.
  Context {V : Type} (op : V -> V -> V) (N c : nat).
  Record core := Core { ccode : list instr; csending : list request; creceiving : list request }.
  Record cluster := Cluster {
    nmem : nat -> @memory V;                       (* of each node *)
    cores : nat -> core;                           (* core r of node p has rank p * c + r *)
    cchan : nat -> nat -> list (list V) }.         (* between ranks *)

  Definition set_core (s : cluster) (k : nat) (x : core) : cluster :=
    Cluster (nmem s) (upd Nat.eq_dec (cores s) k x) (cchan s).
  Definition set_nmem (s : cluster) (p : nat) (m : memory) : cluster :=
    Cluster (upd Nat.eq_dec (nmem s) p m) (cores s) (cchan s).
  Definition set_cchan (s : cluster) (j k : nat) (l : list (list V)) : cluster :=
    Cluster (nmem s) (cores s) (upd Nat.eq_dec (cchan s) j (upd Nat.eq_dec (cchan s j) k l)).

  Inductive cstep (s : cluster) : cluster -> Prop :=
  | CExec p r i rest x : p < N -> r < c ->
      ccode (cores s (p * c + r)) = i :: rest -> i <> Barrier ->
      exec_instr op i rest (Process (i :: rest) (nmem s p) (csending (cores s (p * c + r))) (creceiving (cores s (p * c + r)))) = Some x ->
      cstep s (set_nmem (set_core s (p * c + r) (Core (code x) (sending x) (receiving x))) p (mem x))
  | CBarrier p : p < N -> 0 < c ->
      (forall r, r < c -> hd_error (ccode (cores s (p * c + r))) = Some Barrier) ->
      cstep s (Cluster (nmem s)
                 (fun k => if k / c =? p then Core (tl (ccode (cores s k))) (csending (cores s k)) (creceiving (cores s k))
                           else cores s k) (cchan s))
  | CDepart p r k l1 x l2 : p < N -> r < c -> k < N * c ->
      csending (cores s (p * c + r)) = l1 ++ x :: l2 -> peer x = k -> ~ In k (map peer l1) ->
      cstep s (set_cchan
        (set_core s (p * c + r) (Core (ccode (cores s (p * c + r))) (l1 ++ l2) (creceiving (cores s (p * c + r)))))
        (p * c + r) k (cchan s (p * c + r) k ++ [read_mem (nmem s p) (place x) (len x)]))
  | CArrive k q r l1 x l2 v vs : k < N * c -> q < N -> r < c ->
      creceiving (cores s (q * c + r)) = l1 ++ x :: l2 -> peer x = k -> ~ In k (map peer l1) ->
      cchan s k (q * c + r) = v :: vs -> length v <= len x ->
      cstep s (set_cchan
        (set_nmem (set_core s (q * c + r) (Core (ccode (cores s (q * c + r))) (csending (cores s (q * c + r))) (l1 ++ l2)))
                  q (write_mem (nmem s q) (place x) v))
        k (q * c + r) vs).

  Inductive creach (s : cluster) : cluster -> Prop :=
  | CReach0 : creach s s
  | CReachS t u : creach s t -> cstep t u -> creach s u.

  (* all cores before their first line; [prog] gives the code of a rank *)
  Definition cstart (prog : nat -> list instr) (m : nat -> memory) : cluster :=
    Cluster m (fun k => Core (prog k) [] []) (fun _ _ => []).
  Definition cfinished (s : cluster) (k : nat) : Prop := ccode (cores s k) = [].
End Cluster.

(* The exchange of core k mod c of node k / c: the schedule of the node goes
   through raw_code_tasks_node.c (CoresModel.v) and raw_code.c. *)
Definition core_exchange (size_of : nat -> nat) (N c : nat) (perm : list nat) (alg : nat -> list block) (k : nat) : list instr :=
  translated (core_blocks_code size_of (N * c) k (k mod c =? 0) (tl (map (tasks_node N perm (k / c) c (k mod c)) (alg (k / c)))) true).
