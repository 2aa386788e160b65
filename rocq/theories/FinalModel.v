(* Model of the passes that turn the generated code (RawModel.v) into the code
   that is executed, for one process per node: src/core/no_offset.c,
   src/core/optimise_buffers.c, src/core/optimise_buffers2.c,
   src/core/parallel_memcpy.c, src/core/raw_code_merge.c,
   src/mpi/clean_barriers.c, src/core/no_first_barrier.c,
   src/core/no_socket_barriers.c and src/core/use_sendbuf_recvbuf.c, in the order
   of src/mpi/ext_mpi_native.c:799-858.

   Simplifications, besides those of RawModel.v: num_sockets_per_node = 1, no
   waitany (both are options of the library), no lines with the types ememcp_,
   ereduc_, eirec_, eisen_ (raw_code.c writes them only for size 0, or for the
   GPU).  The end of the list stands for the line "return" (ereturn) and the end
   of the program. *)
From Verif Require Import Base SchedModel RawModel.

(* src/core/no_offset.c:25-64: the numbered buffer k lies at [base k] of the
   shared memory (shmem_buffer_offset, src/core/buffer_offset.c, OffsetModel.v).
   From here on all operands in shared memory are (Shm 0, offset). *)
Definition flat (base : nat -> nat) (l : loc) : loc :=
  match fst l with Shm k => (Shm 0, base k + snd l) | _ => l end.
Definition flat_instr (base : nat -> nat) (i : instr) : instr :=
  match i with
  | Irecv d n q => Irecv (flat base d) n q
  | Isend s n q => Isend (flat base s) n q
  | Memcpy d s n => Memcpy (flat base d) (flat base s) n
  | Reduce_ d s n => Reduce_ (flat base d) (flat base s) n
  | _ => i
  end.

(* buffer_type == eshmemo, == erecvbufp *)
Definition is_shm (l : loc) : bool := match fst l with Shm _ => true | _ => false end.
Definition is_recvbuf (l : loc) : bool := match fst l with Recvbuf => true | _ => false end.

(* ---------- src/core/optimise_buffers.c ---------- *)

(* 29-66: behind a copy of [size] from s to d: copies that continue it, a
   barrier, and a send of exactly what was copied; the send from the source of
   the copies, and what remains.  A send keeps its buffer_type (53-54). *)
Fixpoint packed (d s : loc) (size : nat) (ls : list instr) : option (instr * list instr) :=
  match ls with
  | Memcpy d' s' n :: r =>
    if is_shm d' && is_shm s' && (snd d + size =? snd d') && (snd s + size =? snd s')
    then packed d s (size + n) r else None
  | Barrier :: Isend a n q :: r =>
    if is_shm a && (snd d =? snd a) && (size =? n) then Some (Isend (fst a, snd s) n q, r) else None
  | _ => None
  end.
(* 18-75 *)
Fixpoint optimise1 (fuel : nat) (ls : list instr) : list instr :=
  match fuel, ls with
  | S f, Memcpy d s n :: r =>
    match packed d s n r with
    | Some (i, r') => i :: optimise1 f r'
    | None => Memcpy d s n :: optimise1 f r
    end
  | S f, i :: r => i :: optimise1 f r
  | _, _ => []
  end.
Definition optimise_buffers (ls : list instr) : list instr := optimise1 (length ls) ls.

(* ---------- src/core/optimise_buffers2.c ---------- *)

(* 54-82: behind a receive of [n] into d: the destination of the copy out of d.
   [waited]: flag2 = 2; [user]: data_memcpy_reduce.buffer_type1 is erecvbufp. *)
Fixpoint find_copy (d : loc) (n : nat) (waited user : bool) (ls : list instr) : option loc :=
  match ls with
  | [] => None
  | Waitall :: r => find_copy d n true user r
  | Reduce_ _ _ _ :: _ => None
  | i :: r =>
    if user then None else
    match i with
    | Memcpy d' s' n' =>
      if waited then
        if (snd d =? snd s') && (n =? n') && is_shm d' && is_shm s' then Some d'
        else find_copy d n true (is_recvbuf d') r
      else find_copy d n waited user r
    | _ => find_copy d n waited user r
    end
  end.
(* One round, 43-109.  [ref]: flag4 = 0, with the receive written last (its
   place and size, data_irecv_isend_ref) and the place it replaces (offset2 of
   data_memcpy_reduce_ref).  The second result is flag_loop. *)
Fixpoint round (ref : option (loc * nat * nat)) (ls : list instr) : list instr * bool :=
  match ls with
  | [] => ([], false)
  | i :: r =>
    match ref with
    | None =>
      match i with
      | Irecv d n q =>
        match find_copy d n false false r with
        | Some d' =>
          let new := (fst d, snd d') in
          (Irecv new n q :: (if is_shm d then [] else [i]) ++ fst (round (Some (new, n, snd d)) r), true)
        | None => let '(o, c) := round None r in (i :: o, c)
        end
      | _ => let '(o, c) := round None r in (i :: o, c)
      end
    | Some (new, n, old) =>
      match i with
      | Memcpy d _ n' =>
        if buffer_eqb (fst d) (fst new) && (snd d =? snd new) && (n' =? n)
        then let '(o, c) := round None r in (o, c)
        else let '(o, c) := round ref r in (i :: o, c)
      | Irecv d n' _ =>
        let '(o, c) := round ref r in
        ((if is_shm d && (snd d =? old) && (n' =? n) then [] else [i]) ++ o, c)
      | _ => let '(o, c) := round ref r in (i :: o, c)
      end
    end
  end.
(* 25-113; every round but the last removes a copy *)
Fixpoint rounds (fuel : nat) (ls : list instr) : list instr :=
  match fuel with
  | O => ls
  | S f => let '(o, again) := round None ls in if again then rounds f o else o
  end.
Definition optimise_buffers2 (ls : list instr) : list instr := rounds (S (length ls)) ls.

(* ---------- src/core/parallel_memcpy.c ---------- *)
(* As in ParCopyModel.v, for one core (node_size = 1, node_rank = 0), where the
   part of the core begins at 0.  None: the offset -1 of lines 15-17. *)
Definition split_copy (i : instr) : option (nat * nat) :=
  match i with
  | Memcpy d s n | Reduce_ d s n => if is_shm d && is_shm s then Some (snd d, n) else None
  | _ => None
  end.
Definition dest_of (i : instr) : option nat :=
  match i with Memcpy d _ _ | Reduce_ d _ _ => Some (snd d) | _ => None end.
Definition same_dest (a b : option nat) : bool :=
  match a, b with Some x, Some y => x =? y | None, None => true | _, _ => false end.
(* 64-91 *)
Fixpoint look (old d : option nat) (mx : nat) (ls : list instr) : nat :=
  match ls with
  | [] => mx
  | Barrier :: _ => mx
  | i :: r =>
    match dest_of i with
    | None => if same_dest old d then look old d mx r else mx
    | Some x =>
      if same_dest old (Some x)
      then look old (Some x) (match split_copy i with Some (_, n) => if mx <? n then n else mx | None => mx end) r
      else mx
    end
  end.
(* 42-139: [cur], [old], [group] are offset1 of data_memcpy_reduce, and offset1
   and size of data_memcpy_reduce_old *)
Fixpoint parallel (cur old : option nat) (group : nat) (ls : list instr) : list instr :=
  match ls with
  | [] => []
  | i :: r =>
    let d := match dest_of i with Some x => Some x | None => cur end in
    let '(old, group) :=
      match i with
      | Barrier => (d, look d d 0 r)
      | _ => if same_dest old d then (old, group) else (d, look d d 0 (i :: r))
      end in
    match i with
    | Memcpy x y n =>
      if is_shm x && is_shm y then
        let size := if n <? group then n else group in
        (if size =? 0 then [] else [Memcpy x y size]) ++ parallel d old group r
      else i :: parallel d old group r
    | Reduce_ x y n =>
      if is_shm x && is_shm y then
        let size := if n <? group then n else group in
        (if size =? 0 then [] else [Reduce_ x y size]) ++ parallel d old group r
      else i :: parallel d old group r
    | _ => i :: parallel d old group r
    end
  end.
Definition parallel_memcpy (ls : list instr) : list instr := parallel None None 0 ls.

(* ---------- src/core/raw_code_merge.c ---------- *)
(* As in MergeModel.v; buffer_number is 0 in shared memory and -1 for the user's
   buffers, offset_number is -1 everywhere (no_offset.c). *)
Record copy := Copy { red : bool; dst : loc; src : loc; size : nat }.
Definition copy_of (i : instr) : option copy :=
  match i with
  | Memcpy d s n => Some (Copy false d s n)
  | Reduce_ d s n => Some (Copy true d s n)
  | _ => None
  end.
Definition line_of (c : copy) : instr :=
  if red c then Reduce_ (dst c) (src c) (size c) else Memcpy (dst c) (src c) (size c).
Definition alike (c n : copy) : bool :=
  Bool.eqb (red c) (red n) && Bool.eqb (is_shm (dst c)) (is_shm (dst n)) && Bool.eqb (is_shm (src c)) (is_shm (src n)).
(* 31-47 *)
Fixpoint forward (c : copy) (ls : list instr) : copy * list instr :=
  match ls with
  | [] => (c, [])
  | i :: r =>
    match copy_of i with
    | Some n =>
      if alike c n && (snd (dst c) + size c =? snd (dst n)) && (snd (src c) + size c =? snd (src n)) &&
         negb (snd (dst c) =? snd (src n))
      then forward (Copy (red c) (dst c) (src c) (size c + size n)) r
      else (c, ls)
    | None => (c, ls)
    end
  end.
(* 51-68; o1, o2: data_memcpy_reduce__ *)
Fixpoint backward (c : copy) (o1 o2 : nat) (ls : list instr) : copy * (nat * nat) * list instr :=
  match ls with
  | [] => (c, (o1, o2), [])
  | i :: r =>
    match copy_of i with
    | Some n =>
      if alike c n && (snd (dst c) =? snd (dst n) + size c) && (snd (src c) =? snd (src n) + size c)
      then backward (Copy (red c) (dst c) (src c) (size c + size n)) (snd (dst n)) (snd (src n)) r
      else (c, (o1, o2), ls)
    | None => (c, (o1, o2), ls)
    end
  end.
(* 26-77 *)
Definition merge_step (c : copy) (ls : list instr) : copy * list instr :=
  let '(f, rest) := forward c ls in
  if length rest =? length ls
  then let '(b, (o1, o2), rest) := backward c (snd (dst c)) (snd (src c)) ls in
       (Copy (red b) (fst (dst b), o1) (fst (src b), o2) (size b), rest)
  else (f, rest).
Fixpoint merge_lines (fuel : nat) (ls : list instr) : list instr :=
  match fuel, ls with
  | S f, i :: r =>
    match copy_of i with
    | Some c => let '(c', rest) := merge_step c r in line_of c' :: merge_lines f rest
    | None => i :: merge_lines f r
    end
  | _, _ => []
  end.
Definition merge (ls : list instr) : list instr := merge_lines (length ls) ls.

(* ---------- the barriers ---------- *)
(* As in BarPassModel.v.  src/mpi/clean_barriers.c:18-91 for one core; [f] is flag2. *)
Fixpoint clean (f : bool) (ls : list instr) : list instr :=
  match ls with
  | [] => []
  | Barrier :: r => (if f then [] else [Barrier]) ++ clean true r
  | i :: r => i :: clean false r
  end.
Definition clean_barriers (ls : list instr) : list instr := clean false ls.
(* src/core/no_first_barrier.c:15-28 *)
Fixpoint no_first_barrier (ls : list instr) : list instr :=
  match ls with
  | [] => []
  | Barrier :: r => r
  | i :: r => i :: no_first_barrier r
  end.
(* src/core/no_socket_barriers.c:22-33 *)
Definition no_socket_barriers (ls : list instr) : list instr :=
  filter (fun i => match i with Barrier => false | _ => true end) ls.

(* ---------- src/core/use_sendbuf_recvbuf.c ---------- *)
(* 33-44, 45-56, 65-78; [total] is buffer_in_size, [big] big_recvbuf.  offset -
   buffer_in_size is taken without sign; it is not negative unless the operand
   begins in the first [total] elements and ends behind them. *)
Definition user_place (total : nat) (big : bool) (l : loc) (n : nat) : loc :=
  if is_shm l then
    if snd l + n <=? total then (Sendbuf, snd l)
    else if snd l + n <=? 2 * total then (Recvbuf, if big then snd l - total else 0)
    else l
  else l.
(* 22-87 *)
Definition use_line (total : nat) (big : bool) (i : instr) : list instr :=
  match i with
  | Irecv d n q => [Irecv (user_place total big d n) n q]
  | Isend s n q => [Isend (user_place total big s n) n q]
  | Memcpy d s n =>
    if is_shm d && is_shm s then [Memcpy (user_place total big d n) (user_place total big s n) n] else []
  | Reduce_ d s n =>
    if is_shm d && is_shm s then [Reduce_ (user_place total big d n) (user_place total big s n) n] else []
  | _ => [i]
  end.
Definition use_sendbuf_recvbuf (total : nat) (big : bool) (ls : list instr) : list instr :=
  flat_map (use_line total big) ls.

(* ---------- all passes ---------- *)
(* src/mpi/ext_mpi_native.c:799-843, with [alt] the parameter of that name *)
Definition optimised (base : nat -> nat) (alt : bool) (ls : list instr) : list instr :=
  let ls := optimise_buffers2 (optimise_buffers (map (flat_instr base) ls)) in
  let ls := clean_barriers (merge (parallel_memcpy ls)) in
  no_socket_barriers (if alt then no_first_barrier ls else ls).
(* 844-850, the recursive schedules *)
Definition final_code (base : nat -> nat) (alt : bool) (total : nat) (big : bool) (ls : list instr) : list instr :=
  use_sendbuf_recvbuf total big (optimised base alt ls).

(* The code that is executed for allreduce with the recursive schedule:
   buffer_in_size (use_sendbuf_recvbuf.c:16-18) is the sum of the message sizes,
   which is the length of the vector (ext_mpi_native.c:628-645); the last port is
   positive (big_recvbuf, 19-21). *)
Definition allreduce_final (alg : list block) (base : nat -> nat) (alt : bool) (count num_nodes node : nat) : list instr :=
  final_code base alt count true (allreduce_program alg count num_nodes node).

(* The same for reduce_scatter, ext_mpi_native.c:1578-1617, where
   no_first_barrier comes before clean_barriers; the last port is negative. *)
Definition optimised_scatter (base : nat -> nat) (alt : bool) (ls : list instr) : list instr :=
  let ls := optimise_buffers2 (optimise_buffers (map (flat_instr base) ls)) in
  let ls := merge (parallel_memcpy ls) in
  no_socket_barriers (clean_barriers (if alt then no_first_barrier ls else ls)).
Definition reduce_scatter_final (alg : list block) (base : nat -> nat) (alt : bool) (mcounts : nat -> nat) (num_nodes node : nat) : list instr :=
  use_sendbuf_recvbuf (moffset mcounts num_nodes) false
    (optimised_scatter base alt (reduce_scatter_program alg mcounts num_nodes node)).

(* MPI_IN_PLACE: ext_mpi.c:639-641 sets sendbuf = recvbuf; the code of
   ext_mpi_native.c is the same except for the parameter IN_PLACE (717-719), which
   use_sendbuf_recvbuf.c does not look at.  An operand in the send buffer then is
   one in the receive buffer. *)
Definition in_place (l : loc) : loc := match fst l with Sendbuf => (Recvbuf, snd l) | _ => l end.
Definition in_place_instr (i : instr) : instr :=
  match i with
  | Irecv d n q => Irecv (in_place d) n q
  | Isend s n q => Isend (in_place s) n q
  | Memcpy d s n => Memcpy (in_place d) (in_place s) n
  | Reduce_ d s n => Reduce_ (in_place d) (in_place s) n
  | _ => i
  end.
Definition in_place_code (ls : list instr) : list instr := map in_place_instr ls.
