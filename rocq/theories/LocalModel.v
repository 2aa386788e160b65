(* Model of Allreduce, Reduce and Bcast all ranks of which lie on one node: the code
   of src/core/reduce_copyin.c followed by that of src/core/reduce_copyout.c, and
   its repeated execution.

   With one node the interpreters of the schedule and raw_code are not used
   (ext_mpi_native.c:754-790); the schedule is one line with frac = 0 that is
   delivered to the receive buffer.  The two barriers at the beginning of the code
   of reduce_copyin.c (lines 485 and 532) become one in clean_barriers.c, and with
   two alternating byte codes no_first_barrier.c removes that as well.

   Simplifications: those of NodeModel.v.  The cells of the two shared segments and
   of the private receive buffers are numbered so that they are different cells
   whatever the offsets are; the receive buffers of the executions and the contents
   of the send buffers of the executions lie one behind the other (an execution reads
   and writes only its own). *)
From Verif Require Import Base BarrierModel NodeModel SingleModel.
Local Open Scope Z_scope.

(* Byte [a] of shared segment [b] (0 or 1); with [line] the offset counts from the
   cache lines behind the buffers (is_offset = 1, offset_number = -1: no_offset.c:46-48,
   55-57, which adds parameters->shmem_max), otherwise from the buffers. *)
Definition shm_cell (b : nat) (line : bool) (a : Z) : Z :=
  5 * a + 2 * Z.of_nat b + (if line then 1 else 0).
(* Byte [y] of the receive buffer of core [rank] in execution [k]; buffers of [z] bytes. *)
Definition recv_cell (n : nat) (z : Z) (k rank : nat) (y : Z) : Z :=
  5 * ((Z.of_nat k * Z.of_nat n + Z.of_nat rank) * z + y) + 4.

(* byte_code.c: the addresses of the shared segment and of the send buffer are put in. *)
Definition place (b : nat) (line : bool) (snd : Z) (x : micro) : micro :=
  match x with
  | MAct k d s => MAct k (shm_cell b line d)
                       (match s with Shm a => Shm (shm_cell b line a) | Snd a => Snd (snd + a) end)
  | _ => x
  end.

(* reduce_copyin.c:540-554 without the barriers before it: copyin_method 0 and 1
   (see program and program_half in NodeModel.v). *)
Definition tree (p : node_par) (half : bool) (rank : nat) : list instr :=
  let n := Z.of_nat (n_cores p) in
  let r := Z.of_nat rank in
  let g := Z.of_nat (hd 1%nat (n_factors p)) in
  let ranks := group_ranks n g r in
  if half then
    let h := half_size (n_cores p) in
    reduce_copyin (n_counts p) (n_fracs p) (Z.rem r g) (type_size p) (Z.quot r g) g ranks (is_fast p) ++
    almost_half n h (total (n_counts p)) (type_size p) r ++
    reduce_copies h (removelast (n_factors p)) (total (n_counts p)) (type_size p) r (is_fast p) true
  else
    reduce_copyin (n_counts p) (n_fracs p) (Z.rem r g) (type_size p) (Z.quot r g)
                  (Z.of_nat (length ranks)) ranks (is_fast p) ++
    reduce_copies n (n_factors p) (total (n_counts p)) (type_size p) r (is_fast p) false.

(* reduce_copyin.c:487-512 (root <= -10): the root copies its buffer into the shared
   memory, to an offset in the buffers; then a barrier. *)
Definition share (p : node_par) (root : Z) (rank : nat) : list instr :=
  (if (Z.of_nat rank =? root) || (Z.of_nat rank =? -10 - root)
   then [Move Copy 0 (Snd 0) (total (n_counts p))] else []) ++
  socket_barrier (Z.of_nat (n_cores p)) (Z.of_nat rank).

(* reduce_copyin.c:484-558: the code between the first barrier and that of
   reduce_copyout.c.  Root -1: Allreduce; root >= 0: Reduce; root <= -10: Bcast from
   -10 - root (ext_mpi_native.c:892-895). *)
Definition work_part (p : node_par) (half : bool) (root : Z) (b : nat) (snd : Z) (rank : nat) : list micro :=
  if root <=? -10 then map (place b false snd) (micro_code (share p root rank))
  else map (place b (is_fast p) snd) (micro_code (tree p half rank)).

(* reduce_copyout.c:131-139: who copies the result to its receive buffer *)
Definition gets (root : Z) (rank : nat) : bool :=
  (root =? -1) || ((root <? 0) && negb (-10 - root =? Z.of_nat rank)) || (root =? Z.of_nat rank).

(* reduce_copyout.c:140-172 *)
Definition copy_out (p : node_par) (root : Z) (b k rank : nat) : list micro :=
  let z := total (n_counts p) in
  if gets root rank then
    map (fun i => MAct Copy (recv_cell (n_cores p) z k rank (Z.of_nat i))
                       (Shm (shm_cell b (is_fast p) (Z.of_nat i + (if is_fast p then OFFSET_FAST else 0)))))
        (seq 0 (Z.to_nat z))
  else [].

(* The code of execution [k] of core [rank]. *)
Definition local_code (p : node_par) (half : bool) (root : Z) (first : bool) (b k rank : nat) : list micro :=
  (if first then micro_code (socket_barrier (Z.of_nat (n_cores p)) (Z.of_nat rank)) else []) ++
  work_part p half root b (Z.of_nat k * total (n_counts p)) rank ++
  copy_out p root b k rank.

(* ext_mpi_native.c:497-536, 233-247: see SingleModel.v *)
Definition turns (alt : bool) (code : nat -> list micro) (times : nat) : list (nat * micro) :=
  flat_map (fun k => map (pair (bank alt k)) (code k)) (seq 0 times).

Definition local_run (p : node_par) (half : bool) (root : Z) (first alt : bool) (times rank : nat) : list (nat * micro) :=
  turns alt (fun k => local_code p half root first (bank alt k) k rank) times.
