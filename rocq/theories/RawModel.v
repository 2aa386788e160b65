(* Model of the code generated from a schedule, for one process per node:
   src/core/raw_code.c (the exchange between the nodes), and the parts of
   src/core/reduce_copyin.c and src/core/reduce_copyout.c that move the user's
   data in and out.

   Simplifications: node_size = 1 (so node_rank = 0, and num_nodes and node are
   not changed by raw_code.c:66-67), counts_max = 1 (no column communicator), no
   GPU, no NCCL, no root, num_sockets > 1 (so fast = 0); all ints are exact.  The
   unit of all sizes and offsets is one element of the data type instead of one
   byte: message sizes are multiples of the element size
   (src/mpi/ext_mpi_native.c:628-645, 936-941). *)
From Verif Require Import Base SchedModel.

(* A place in the memory of one process: the user's buffers (esendbufp,
   erecvbufp), and the numbered parts of the shared memory (eshmemo with
   is_offset = 1 and offset_number k).  Number 0 begins at the beginning of the
   shared memory, where the operands without offset number (is_offset = 0) of
   reduce_copyin.c and reduce_copyout.c lie; the placement of the other numbers
   behind each other is src/core/buffer_offset.c (OffsetModel.v). *)
Inductive buffer := Sendbuf | Recvbuf | Shm (k : nat).
Definition loc := (buffer * nat)%type.

(* The assembler lines; the destination is the first operand. *)
Inductive instr :=
| Irecv (d : loc) (size partner : nat)      (* eirecv; the tag is the index of the request *)
| Isend (s : loc) (size partner : nat)      (* eisend *)
| Waitall                                   (* ewaitall of all requests *)
| Barrier                                   (* esocket_barrier *)
| Memcpy (d s : loc) (size : nat)           (* ememcpy *)
| Reduce_ (d s : loc) (size : nat).         (* ereduce *)

(* ---------- message sizes ---------- *)

(* mmsizes, raw_code.c:8-17, with msizes_max = num_nodes *)
Definition mmsizes (msizes : nat -> nat) (num_nodes data0 : nat) : nat := msizes (data0 mod num_nodes).

(* src/mpi/ext_mpi_native.c:628-645: the elements of an allreduce vector, split among the nodes *)
Definition split_count (count num_nodes : nat) (i : nat) : nat :=
  count / num_nodes + (if i <? count mod num_nodes then 1 else 0).

(* moffsets, reduce_copyin.c:473-476, reduce_copyout.c:127-130 *)
Definition moffset (mcounts : nat -> nat) (i : nat) : nat :=
  fold_left (fun a k => a + mcounts k) (seq 0 i) 0.

Section Raw.
  (* the size of a fragment (mmsizes), the number of nodes and the own number *)
  Context (size_of : nat -> nat) (num_nodes node : nat).

  Definition line_size (b : block) (n : nat) : nat := size_of (frac (lines b n)).

  (* add2 (174), add (294, 329), and the loops 273-275, 300-302: where a line begins *)
  Definition line_start (b : block) (n : nat) : nat :=
    fold_left (fun a k => a + line_size b k) (seq 0 n) 0.

  (* 80, 226: the line has an entry recvfrom_node = q *)
  Definition receives_from (b : block) (q n : nat) : bool :=
    existsb (is_node q) (recvfrom (lines b n)) && negb (q =? node).

  (* 76-89 (size) and 221-233 *)
  Definition recv_size (b : block) (q : nat) : nat :=
    fold_left (fun a n => if receives_from b q n then a + line_size b n else a)
              (seq 0 (num_lines b)) 0.

  (* 75, 220 and 123 *)
  Definition from_node (o : nat) : nat := (num_nodes + node - o) mod num_nodes.
  Definition to_node (o : nat) : nat := (node + o) mod num_nodes.

  (* 74-121; [c] is buffer_counter *)
  Fixpoint receives (b : block) (os : list nat) (c : nat) : list instr :=
    match os with
    | [] => []
    | o :: r =>
      let size := recv_size b (from_node o) in
      if size =? 0 then receives b r c
      else Irecv (Shm c, 0) size (from_node o) :: receives b r (S c)
    end.

  (* 126-149: the entries sendto_node = q of line n; [add] is the position in
     the message; returns the lines and add *)
  Fixpoint pack_entries (b : block) (q n c : nat) (es : list (Z * nat)) (add : nat) : list instr * nat :=
    match es with
    | [] => ([], add)
    | e :: r =>
      if is_node q e && negb (q =? node) then
        let size := line_size b n in
        let '(code, add') := pack_entries b q n c r (add + size) in
        ((if size =? 0 then [] else [Memcpy (Shm c, add) (Shm 0, line_start b n) size]) ++ code, add')
      else pack_entries b q n c r add
    end.
  (* 124-175 *)
  Fixpoint pack_lines (b : block) (q c : nat) (ns : list nat) (add : nat) : list instr * nat :=
    match ns with
    | [] => ([], add)
    | n :: r =>
      let '(code1, add1) := pack_entries b q n c (sendto (lines b n)) add in
      let '(code2, add2) := pack_lines b q c r add1 in
      (code1 ++ code2, add2)
    end.
  (* 122-208 *)
  Fixpoint sends (b : block) (os : list nat) (c : nat) : list instr :=
    match os with
    | [] => []
    | o :: r =>
      let '(code, add) := pack_lines b (to_node o) c (seq 0 (num_lines b)) 0 in
      code ++
      (if add =? 0 then sends b r c
       else Barrier :: Isend (Shm c, 0) add (to_node o) :: sends b r (S c))
    end.

  (* 222-237: j stops growing at the first receiving line *)
  Fixpoint first_start (b : block) (q : nat) (ns : list nat) (j : nat) : nat :=
    match ns with
    | [] => j
    | n :: r => if receives_from b q n then j else first_start b q r (j + line_size b n)
    end.
  (* 231: k is the last receiving line *)
  Definition last_receiving (b : block) (q : nat) : nat :=
    fold_left (fun k n => if receives_from b q n then n else k) (seq 0 (num_lines b)) 0.
  (* 219-267 *)
  Fixpoint unpacks (b : block) (os : list nat) (c : nat) : list instr :=
    match os with
    | [] => []
    | o :: r =>
      let q := from_node o in
      let size := recv_size b q in
      if size =? 0 then unpacks b r c
      else
        let d := (Shm 0, first_start b q (seq 0 (num_lines b)) 0) in
        (match recvfrom (lines b (last_receiving b q)) with
         | e :: _ => if is_node node e then Reduce_ d (Shm c, 0) size else Memcpy d (Shm c, 0) size
         | [] => Memcpy d (Shm c, 0) size
         end) :: unpacks b r (S c)
    end.

  (* 269-295; a line ereduc_ (size = 0) is not translated into byte code *)
  Definition reduces (b : block) : list instr :=
    flat_map (fun n => flat_map (fun r =>
        if line_size b n =? 0 then []
        else [Reduce_ (Shm 0, line_start b n) (Shm 0, line_start b r) (line_size b n)])
      (reducefrom (lines b n))) (seq 0 (num_lines b)).
  (* 296-330 *)
  Definition copyreduces (b : block) : list instr :=
    flat_map (fun n =>
      if line_size b n =? 0 then []
      else match copyreducefrom (lines b n) with
           | [] => []
           | r0 :: rs =>
             Memcpy (Shm 0, line_start b n) (Shm 0, line_start b r0) (line_size b n) ::
             map (fun r => Reduce_ (Shm 0, line_start b n) (Shm 0, line_start b r) (line_size b n)) rs
           end) (seq 0 (num_lines b)).

  (* One block m >= 1, 69-330, in two parts: up to the line waitall, and behind it. *)
  Definition post_code (b : block) (first : bool) : list instr :=
    let os := seq 0 num_nodes in
    let recv := receives b os 1 in
    (if first then [] else [Barrier]) ++ recv ++ sends b os (1 + length recv).
  Definition after_code (b : block) : list instr :=
    Barrier :: unpacks b (seq 0 num_nodes) 1 ++ Barrier :: reduces b ++ copyreduces b.
  Definition block_code (b : block) (first : bool) : list instr :=
    post_code b first ++ Waitall :: after_code b.

  (* The loop 68-331 and the line 332; [bs] are the blocks 1, 2, ... *)
  Fixpoint blocks_code (bs : list block) (first : bool) : list instr :=
    match bs with
    | [] => [Barrier]
    | b :: r => block_code b first ++ blocks_code r false
    end.

  (* ---------- moving the user's data ---------- *)
  (* mcounts and moffsets of reduce_copyin.c and reduce_copyout.c *)
  Context (mcounts : nat -> nat).

  (* reduce_copyin.c:63-135 for one core (num_ranks = 1, i = 0, lrank_row_ = 0,
     so add_local = 0 and size_local is the length of the whole vector; instance =
     0); then line 133 and reduce_copies with a single factor 1, which copy
     nothing. *)
  Fixpoint copyin_lines (b : block) (ns : list nat) (add : nat) : list instr :=
    match ns with
    | [] => []
    | j :: r =>
      let tot := moffset mcounts num_nodes in
      let size := mcounts (frac (lines b j)) in
      let add2 := moffset mcounts (frac (lines b j)) in
      (if (tot <=? add) || (add + size <=? 0) then []
       else
         (* add_local = 0: if (add > add_appl) *)
         let size_appl := if 0 <? add then tot - add else tot in
         let add_appl := if 0 <? add then add else 0 in
         let size_appl := if add + size <? add_appl + size_appl then add + size - add_appl else size_appl in
         let add2_appl := (tot + add_appl - add + add2) mod tot in
         let add_appl := (tot + add_appl) mod tot in
         if size_appl =? 0 then [] else [Memcpy (Shm 0, add_appl) (Sendbuf, add2_appl) size_appl])
      ++ copyin_lines b r (add + size)
    end.
  Definition copyin_reduce (b : block) : list instr :=
    Barrier :: Barrier :: copyin_lines b (seq 0 (num_lines b)) 0.

  (* reduce_copyin.c:561-590 (allgatherv); [iocount] is iocounts[0] *)
  Fixpoint before_user (b : block) (ns : list nat) (add : nat) : nat :=
    match ns with
    | [] => add
    | n :: r => if existsb is_user (recvfrom (lines b n)) then add
                else before_user b r (add + mcounts (frac (lines b n)))
    end.
  Definition copyin_gather (b : block) (iocount : nat) : list instr :=
    Barrier ::
    (if iocount =? 0 then []
     else [Memcpy (Shm 0, before_user b (seq 0 (num_lines b)) 0) (Sendbuf, 0) iocount]) ++ [Barrier].

  (* overlapp, reduce_copyout.c:8-23: (size, start) *)
  Definition overlapp (dest_start dest_end source_start source_end : nat) : nat * nat :=
    let start := if dest_start <? source_start then source_start else dest_start in
    let end_ := if source_end <? dest_end then source_end else dest_end in
    (end_ - start, start).

  (* reduce_copyout.c:140-172 (allreduce, allgatherv); [count] is counts[0], so
     that ldispls = 0, count (110-126 with node_size = counts_max = 1) *)
  Fixpoint copyout_lines (b : block) (count : nat) (ns : list nat) (add2 : nat) : list instr :=
    match ns with
    | [] => []
    | n :: r =>
      let f := frac (lines b n) in
      (if existsb is_user (sendto (lines b n)) then
         let '(size, add) := overlapp 0 count (moffset mcounts f) (moffset mcounts (S f)) in
         if size =? 0 then [] else [Memcpy (Recvbuf, add) (Shm 0, add2) size]
       else [])
      ++ copyout_lines b count r (add2 + mcounts f)
    end.
  Definition copyout_all (b : block) (count : nat) : list instr :=
    copyout_lines b count (seq 0 (num_lines b)) 0.

  (* reduce_copyout.c:174-196 (reduce_scatter) *)
  Fixpoint before_output (b : block) (ns : list nat) (add2 : nat) : nat :=
    match ns with
    | [] => add2
    | n :: r => match sendto (lines b n) with
                | _ :: _ => add2
                | [] => before_output b r (add2 + mcounts (frac (lines b n)))
                end
    end.
  Definition copyout_own (b : block) (iocount : nat) : list instr :=
    if iocount =? 0 then []
    else [Memcpy (Recvbuf, 0) (Shm 0, before_output b (seq 0 (num_lines b)) 0) iocount].
End Raw.

(* ---------- execution by all nodes ---------- *)
(* src/mpi/ext_mpi_native_exec.c:254-300.  MPI_Irecv and MPI_Isend only note a
   request; all messages of the library between two processes carry the same
   tag and arrive in order.  An unfinished send reads its buffer at some later
   time; the message is then under way, and is stored at some later time in the
   buffer of the first unfinished receive from that sender.  MPI_Waitall is
   passed when all requests are finished.  Memory is changed by whole lines of
   code and by whole messages.  With one process per node a socket barrier does
   not wait. *)
Section System.
  Context {V : Type} (op : V -> V -> V).
  Definition memory := loc -> V.
  Definition at_off (l : loc) (i : nat) : loc := (fst l, snd l + i).
  Definition buffer_eqb (a b : buffer) : bool :=
    match a, b with
    | Sendbuf, Sendbuf | Recvbuf, Recvbuf => true
    | Shm i, Shm j => i =? j
    | _, _ => false
    end.
  (* the places l, l + 1, ..., l + size - 1 *)
  Definition inside (l : loc) (size : nat) (a : loc) : bool :=
    buffer_eqb (fst l) (fst a) && (snd l <=? snd a) && (snd a <? snd l + size).

  Definition read_mem (m : memory) (l : loc) (size : nat) : list V :=
    map (fun i => m (at_off l i)) (seq 0 size).
  Definition write_mem (m : memory) (l : loc) (v : list V) : memory :=
    fun a => if inside l (length v) a then nth (snd a - snd l) v (m a) else m a.

  (* a line that concerns only the own memory *)
  Definition exec_local (i : instr) (m : memory) : memory :=
    match i with
    | Memcpy d s size => fun a =>
        if inside d size a then m (at_off s (snd a - snd d)) else m a
    | Reduce_ d s size => fun a =>
        if inside d size a then op (m a) (m (at_off s (snd a - snd d))) else m a
    | _ => m
    end.

  Record request := Request { peer : nat; place : loc; len : nat }.
  Record process := Process {
    code : list instr; mem : memory; sending : list request; receiving : list request }.
  (* chan p q: messages from p to q that are under way, the oldest first *)
  Record system := System { procs : nat -> process; chan : nat -> nat -> list (list V) }.

  Definition set_proc (s : system) (p : nat) (x : process) : system :=
    System (upd Nat.eq_dec (procs s) p x) (chan s).
  Definition set_chan (s : system) (p q : nat) (c : list (list V)) : system :=
    System (procs s) (upd Nat.eq_dec (chan s) p (upd Nat.eq_dec (chan s p) q c)).

  (* the effect of the next line of a process, if it does not have to wait *)
  Definition exec_instr (i : instr) (rest : list instr) (x : process) : option process :=
    match i with
    | Irecv d n q => Some (Process rest (mem x) (sending x) (receiving x ++ [Request q d n]))
    | Isend s n q => Some (Process rest (mem x) (sending x ++ [Request q s n]) (receiving x))
    | Waitall => match sending x, receiving x with
                 | [], [] => Some (Process rest (mem x) [] [])
                 | _, _ => None
                 end
    | _ => Some (Process rest (exec_local i (mem x)) (sending x) (receiving x))
    end.

  Context (N : nat).
  Inductive step (s : system) : system -> Prop :=
  | Exec p i rest x : p < N -> code (procs s p) = i :: rest ->
      exec_instr i rest (procs s p) = Some x ->
      step s (set_proc s p x)
  | Depart p q l1 r l2 : p < N -> q < N ->
      sending (procs s p) = l1 ++ r :: l2 -> peer r = q -> ~ In q (map peer l1) ->
      step s (set_chan
        (set_proc s p (Process (code (procs s p)) (mem (procs s p)) (l1 ++ l2) (receiving (procs s p))))
        p q (chan s p q ++ [read_mem (mem (procs s p)) (place r) (len r)]))
  | Arrive p q l1 r l2 v vs : p < N -> q < N ->
      receiving (procs s q) = l1 ++ r :: l2 -> peer r = p -> ~ In p (map peer l1) ->
      chan s p q = v :: vs -> length v <= len r ->
      step s (set_chan
        (set_proc s q (Process (code (procs s q)) (write_mem (mem (procs s q)) (place r) v)
                               (sending (procs s q)) (l1 ++ l2)))
        p q vs).

  Inductive reach (s : system) : system -> Prop :=
  | Reach0 : reach s s
  | ReachS t u : reach s t -> step t u -> reach s u.

  (* all nodes before their first line *)
  Definition start (prog : nat -> list instr) (m : nat -> memory) : system :=
    System (fun p => Process (prog p) (m p) [] []) (fun _ _ => []).
  Definition finished (s : system) (p : nat) : Prop := code (procs s p) = [].
End System.

(* ---------- the programs of the three collectives, one process per node ---------- *)
(* src/mpi/ext_mpi_native.c:736-790 with node_size = 1: the schedule, copy in,
   exchange, copy out.  The passes behind line 790 are not part of this model. *)
Section Programs.
  Context (alg : list block).
  Definition between (size_of : nat -> nat) (num_nodes node : nat) : list instr :=
    blocks_code size_of num_nodes node (tl alg) true.
  Definition allreduce_program (count num_nodes node : nat) : list instr :=
    let mcounts := split_count count num_nodes in
    copyin_reduce num_nodes mcounts (hd empty_block alg) ++
    between (mmsizes mcounts num_nodes) num_nodes node ++
    copyout_all mcounts (last alg empty_block) count.
  Definition allgather_program (mcounts : nat -> nat) (num_nodes node : nat) : list instr :=
    copyin_gather mcounts (hd empty_block alg) (mcounts node) ++
    between (mmsizes mcounts num_nodes) num_nodes node ++
    copyout_all mcounts (last alg empty_block) (moffset mcounts num_nodes).
  Definition reduce_scatter_program (mcounts : nat -> nat) (num_nodes node : nat) : list instr :=
    copyin_reduce num_nodes mcounts (hd empty_block alg) ++
    between (mmsizes mcounts num_nodes) num_nodes node ++
    copyout_own mcounts (last alg empty_block) (mcounts node).
End Programs.
