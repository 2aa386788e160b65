(* messages_shared_memory.c and optimise_multi_socket.c: messages between the sockets of
   one node become copies from the shared memory of the other socket. *)
From Verif Require Import Base RawModel FinalModel.
Local Open Scope nat_scope.

(* A line of the code: ext_mpi_native.c:811-816.  NodeBarrier is the line node_barrier
   that only messages_shared_memory.c writes; Barrier among the lines of RawModel is
   socket_barrier.  Simplified: one core per socket, so that there are no fake lines
   (ememcp_, eisen_, eirec_, ereduc_). *)
Inductive sline := Own (i : instr) | NodeBarrier.

(* ---------- messages_shared_memory.c ---------- *)

(* Is the partner of a message at a socket of the same node? messages_shared_memory.c:78, 156, 183
   with socket_tasks = 1. *)
Definition on_node (S p q : nat) : bool := q / S =? p / S.

(* The message number k of those a process sends to p: place and size.
   messages_shared_memory.c:204 and 212: the description of the send line goes through
   MPI with tag 0 to the process that has the receive line; MPI keeps the order. *)
Fixpoint nth_send (p k : nat) (ls : list instr) : loc * nat :=
  match ls with
  | [] => ((Shm 0, 0), 0)
  | Isend s n q :: r =>
      if q =? p then match k with O => (s, n) | Datatypes.S k' => nth_send p k' r end else nth_send p k r
  | _ :: r => nth_send p k r
  end.

(* A receive line: to where, from whom, and how many came from there before. *)
Record posted := Posted { place : loc; partner : nat; earlier : nat }.

(* The copy for a receive line: messages_shared_memory.c:143-163; the size and the
   place at the source are those of the send line. The number of the shared
   memory is counted from the own socket (157). *)
Definition copy_for (S p : nat) (prog : nat -> list instr) (r : posted) : sline :=
  let (s, n) := nth_send p (earlier r) (prog (partner r)) in
  let s' := match fst s with Shm _ => (Shm ((S - partner r mod S + p) mod S), snd s) | _ => s end in
  Own (Memcpy (place r) s' n).

(* The lines before a waitall without the messages to sockets of the node:
   delete_from_list, messages_shared_memory.c:58-92.  Simplified: it is called
   if there is such a message (164, 184); the number of the waitall, reduced by
   the messages deleted, is not part of the line in RawModel. *)
Definition stays (S p : nat) (i : instr) : bool :=
  match i with
  | Irecv _ _ q | Isend _ _ q => negb (on_node S p q)
  | _ => true
  end.
Definition keep (S p : nat) (ls : list instr) : list sline := map Own (filter (stays S p) ls).

(* Does this process have a copy at its waitall number j? flag in messages_shared_memory.c:141-162 *)
Fixpoint has_copy (S p : nat) (j : nat) (ls : list instr) : bool :=
  match ls with
  | [] => false
  | Waitall :: r => match j with O => false | Datatypes.S j' => has_copy S p j' r end
  | Irecv _ _ q :: r => (match j with O => on_node S p q | _ => false end) || has_copy S p j r
  | _ :: r => has_copy S p j r
  end.

(* What follows waitall number j: messages_shared_memory.c:142-179; the list of receives
   has the last one first (208-209); flag2 (171) is the maximum of all N processes. *)
Definition after_wait (S N p : nat) (prog : nat -> list instr) (j : nat) (recvs : list posted) : list sline :=
  let mine := filter (fun r => on_node S p (partner r)) recvs in
  if existsb (fun q => has_copy S q j (prog q)) (seq 0 N) then
    match mine with
    | [] => [NodeBarrier; Own Barrier]
    | _ => [Own Barrier; NodeBarrier] ++ map (copy_for S p prog) mine
    end ++ [NodeBarrier; Own Barrier]
  else [].

(* The loop over the lines, messages_shared_memory.c:131-222: j waitalls so far, the receives
   since the last one, the partners of all receives so far, the lines since the last waitall. *)
Fixpoint shared_lines (S N p : nat) (prog : nat -> list instr) (j : nat) (recvs : list posted) (seen : list nat)
  (pending : list instr) (ls : list instr) : list sline :=
  match ls with
  | [] => map Own pending
  | Waitall :: r =>
      keep S p (pending ++ [Waitall]) ++ after_wait S N p prog j recvs ++ shared_lines S N p prog (j + 1) [] seen [] r
  | Irecv d n q :: r =>
      shared_lines S N p prog j (Posted d q (count_occ Nat.eq_dec seen q) :: recvs) (q :: seen) (pending ++ [Irecv d n q]) r
  | i :: r => shared_lines S N p prog j recvs seen (pending ++ [i]) r
  end.
Definition messages_shared_memory (S N : nat) (prog : nat -> list instr) (p : nat) : list sline :=
  shared_lines S N p prog 0 [] [] [] (prog p).

(* ---------- optimise_multi_socket.c ---------- *)

(* The first reduction of the lines and how many lines are before it: the loop
   optimise_multi_socket.c:25-47 stops there in any case (38, 43-45). *)
Fixpoint first_reduce (ls : list sline) : option (nat * (loc * loc * nat)) :=
  match ls with
  | [] => None
  | Own (Reduce_ d s n) :: _ => Some (0, (d, s, n))
  | _ :: r => match first_reduce r with Some (k, x) => Some (k + 1, x) | None => None end
  end.

(* optimise_multi_socket.c:24-40: a copy from another socket to where the first reduction
   afterwards reads; instead of both, this one reads from the other socket. *)
Definition fused (d s : loc) (n : nat) (ls : list sline) : option (nat * instr) :=
  match fst s, fst d, first_reduce ls with
  | Shm (Datatypes.S _), Shm _, Some (k, (d', s', n')) =>
      if is_shm d' && is_shm s' && (snd d =? snd s') && (n =? n') then Some (k, Reduce_ (fst d, snd d') s n) else None
  | _, _, _ => None
  end.

(* The loop over the lines, optimise_multi_socket.c:17-59.  [held] is data_memcpy_reduce, which every
   line memcpy overwrites (23); [goal] says how many lines there are before
   line2_new. *)
Definition one_less (goal : option nat) : option nat := match goal with Some (Datatypes.S k) => Some k | _ => None end.
Fixpoint multi_socket (held : instr) (goal : option nat) (ls : list sline) : list sline :=
  match ls with
  | [] => []
  | Own (Memcpy d s n) :: r =>
      match fused d s n r with
      | Some (k, i) => multi_socket i (Some k) r
      | None => Own (Memcpy d s n) :: multi_socket (Memcpy d s n) (one_less goal) r
      end
  | l :: r =>
      match goal with
      | Some O => Own held :: multi_socket held None r
      | _ => l :: multi_socket held (one_less goal) r
      end
  end.
Definition optimise_multi_socket (ls : list sline) : list sline := multi_socket Waitall None ls.

(* ---------- execution at one node ---------- *)

Section Run.
  Context {V : Type} (op : V -> V -> V) (S : nat).

  (* One process per socket: its memory, what it still has to do and how many node
     barriers it has passed. *)
  Record snode := Snode { smem : nat -> @memory V; scode : nat -> list sline; passed : nat -> nat }.

  (* The process whose memory is segment k at process p: shmem.c:129-160; segment ii
     is that of the socket i of the node with ii = (S - i + p) mod S. *)
  Definition owner (p k : nat) : nat := (p / S) * S + (p mod S + S - k) mod S.

  (* The memory process p sees. *)
  Definition view (m : nat -> @memory V) (p : nat) : @memory V :=
    fun l => match fst l with
             | Shm (Datatypes.S k) => m (owner p (Datatypes.S k)) (Shm 0, snd l)
             | _ => m p l
             end.

  (* A line of process p changes its own memory.  The segments of the others are mapped
     read-only: shmem.c:157. *)
  Definition exec_line (i : instr) (p : nat) (m : nat -> @memory V) : nat -> @memory V :=
    upd Nat.eq_dec m p (fun l => match fst l with Shm (Datatypes.S _) => m p l | _ => exec_local op i (view m p) l end).

  (* node_barrier, ext_mpi_native_exec.c:26-34: q has come to this barrier of p or
     passed it.  Simplified: without the counters in memory, which BarrierModel has. *)
  Definition arrived (s : snode) (p q : nat) : bool :=
    (passed s p <? passed s q) ||
    ((passed s q =? passed s p) && match scode s q with NodeBarrier :: _ => true | _ => false end).

  (* Process p goes on by one line.  All partners are at the node: a waitall has nothing
     to wait for and there is no line irecv or isend; one core per socket: a socket
     barrier has nobody to wait for. *)
  Definition sstep (s : snode) (p : nat) : option snode :=
    match scode s p with
    | [] => None
    | Own (Irecv _ _ _) :: _ | Own (Isend _ _ _) :: _ => None
    | Own i :: r => Some (Snode (exec_line i p (smem s)) (upd Nat.eq_dec (scode s) p r) (passed s))
    | NodeBarrier :: r =>
        if forallb (arrived s p) (seq 0 S)
        then Some (Snode (smem s) (upd Nat.eq_dec (scode s) p r) (upd Nat.eq_dec (passed s) p (passed s p + 1)))
        else None
    end.
  Inductive sreach (s : snode) : snode -> Prop :=
  | SRefl : sreach s s
  | SStep t u p : sreach s t -> p < S -> sstep t p = Some u -> sreach s u.
  Definition sstart (prog : nat -> list sline) (m : nat -> @memory V) : snode := Snode m prog (fun _ => 0).

  (* The processes go on in the order given. *)
  Fixpoint srun (order : list nat) (s : snode) : option snode :=
    match order with
    | [] => Some s
    | p :: r => match sstep s p with Some t => srun r t | None => None end
    end.
End Run.
