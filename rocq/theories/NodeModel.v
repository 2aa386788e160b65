(* Model of the reduction inside a node that precedes the exchange between the
   nodes: the instructions generated by src/core/reduce_copyin.c and their
   execution by src/mpi/ext_mpi_native_exec.c.

   Simplifications: counts_max = 1 (no column communicator, so lrank_row =
   node_rank and ldispls[0] = 0), no GPU, an allreduce without a negative root
   (the branch of line 514), all arithmetic on ints exact.  The lines ememcp_
   and ereduc_ of the pass n = 1 of reduce_copyin are left out: they are not
   translated into byte code.  All operands of one program lie either in the
   buffers (fast = 0) or in the cache lines behind them (fast = 1); a shared
   address is an offset in that area. *)
From Verif Require Import Base BarrierModel.
Local Open Scope Z_scope.

(* read_write.h:6 and :8 (OFFSET_FAST is sizeof(long int)) *)
Definition CACHE_LINE_SIZE : Z := 64.
Definition OFFSET_FAST : Z := 8.

Inductive kind := Copy | Reduce.

(* An operand that is read: an offset in the shared memory (eshmemo), or in
   the send buffer of the executing core (esendbufp). *)
Inductive operand := Shm (a : Z) | Snd (a : Z).

(* eset_socket_barrier e, ewait_socket_barrier e, and the memcpy / reduce lines
   with a destination in shared memory (write_memcpy_reduce, 15-30). *)
Inductive instr :=
| Set_ (e : Z)
| Wait (e : Z)
| Move (k : kind) (d : Z) (s : operand) (n : Z).

(* The values of fac in "for (fac = 1; fac < n; fac *= 2)" (37, 41, 49, 54).
   [n] rounds are always enough. *)
Fixpoint doubling (fuel : nat) (fac n : Z) : list Z :=
  match fuel with
  | O => []
  | S fuel' => if fac <? n then fac :: doubling fuel' (fac * 2) n else []
  end.
Definition facs (n : Z) : list Z := doubling (Z.to_nat n) 1 n.

(* Array access; the arrays of the source are never read outside of the part
   that has been written. *)
Definition at_ (l : list Z) (i : Z) : Z := nth (Z.to_nat i) l 0.

(* local_barrier, 32-61 *)
Definition local_barrier (num_all num_busy : Z) (ranks : list Z) : list instr :=
  let own := at_ ranks 0 in
  let round fac := [Set_ own; Wait (at_ ranks (Z.rem fac num_busy))] in
  let self := [Set_ own; Wait own] in
  if 0 <=? num_all then
    flat_map round (facs num_busy) ++
    flat_map (fun _ => self) (skipn (length (facs num_busy)) (facs num_all))
  else if 0 <? num_busy then flat_map round (facs num_busy)
  else flat_map (fun _ => self) (facs (- num_busy)).

(* esocket_barrier.  It is executed (ext_mpi_native_exec.c:328-331, 48-56) on
   the flags and the counter that set_socket_barrier and wait_socket_barrier
   use, so it is the sequence of its accesses: store to the own flag, wait for
   the flag of (rank + step) % num_cores, count up. *)
Definition socket_barrier (num_cores rank : Z) : list instr :=
  flat_map (fun st => [Set_ rank; Wait (Z.rem (rank + st) num_cores)]) (facs num_cores).

(* moffsets, 473-476: prefix sums of mcounts *)
Definition moffset (mcounts : list Z) (i : nat) : Z :=
  fold_right Z.add 0 (firstn i mcounts).
Definition total (mcounts : list Z) : Z := moffset mcounts (length mcounts).

(* One round of the loop over the lines of block 0 (91-127): the part of the
   piece [add_local, add_local + size_local) that lies in the line beginning at
   [add].  [fracs] are the fields frac of the remaining lines. *)
Fixpoint line_moves (k : kind) (mcounts : list Z) (add_offset add_local size_local : Z)
    (fracs : list nat) (add : Z) : list instr :=
  match fracs with
  | [] => []
  | f :: rest =>
    let size := nth f mcounts 0 in
    let add2 := moffset mcounts f in
    let tot := total mcounts in
    (if (add_local + size_local <=? add) || (add + size <=? add_local) then []
     else
       let add_appl := if add_local <? add then add else add_local in
       let size_appl := if add_local <? add then size_local - (add - add_local) else size_local in
       let size_appl := if add + size <? add_appl + size_appl then add + size - add_appl
                        else size_appl in
       let add2_appl := Z.rem (tot + add_appl - add + add2) tot in
       let add_appl := Z.rem (tot + add_appl) tot + add_offset in
       if size_appl =? 0 then [] else [Move k add_appl (Snd add2_appl) size_appl])
    ++ line_moves k mcounts add_offset add_local size_local rest (add + size)
  end.

(* lines 82-90 (and 302-315): the [p]-th of [n] pieces of a vector of [size]
   bytes, in whole elements; (add_local, size_local) *)
Definition piece (size type_size n p : Z) : Z * Z :=
  let sl := Z.quot (Z.quot size type_size) n in
  let rest := Z.rem (Z.quot size type_size) n in
  if rest <=? p then ((sl * p + rest) * type_size, sl * type_size)
  else ((sl * p + p) * type_size, (sl + 1) * type_size).

(* reduce_copyin, 63-136, pass n = 0 *)
Definition reduce_copyin (mcounts : list Z) (fracs : list nat) (lrank_row type_size instance : Z)
    (num_ranks : Z) (ranks : list Z) (fast : bool) : list instr :=
  let tot := total mcounts in
  let add_offset := if fast then instance * CACHE_LINE_SIZE + OFFSET_FAST else instance * tot in
  flat_map (fun i =>
      let i := Z.of_nat i in
      let lr := Z.rem (2 * num_ranks - 1 + lrank_row - i) num_ranks in
      let '(add_local, size_local) := piece tot type_size num_ranks lr in
      line_moves (if i =? 0 then Copy else Reduce) mcounts add_offset add_local size_local fracs 0
      ++ (if i <? num_ranks - 1 then [Set_ (at_ ranks 0); Wait (at_ ranks (num_ranks - 1))] else []))
    (seq 0 (Z.to_nat num_ranks))
  ++ local_barrier (- num_ranks) num_ranks ranks.

(* struct memory_layout, 9-13 *)
Record layout := Lay { l_size : Z; l_offset : Z; l_rank : Z }.

(* 145-156 *)
Definition memory_start (socket_size size : Z) (i : nat) : layout :=
  Lay size (Z.of_nat i * size)
      (if ((i =? 0)%nat || (Z.of_nat i <? socket_size))%bool then Z.of_nat i else -1).

(* 157-187: memory_new as a function of memory_old; the index is
   i * gbstep * f + j * f + k *)
Definition memory_step (socket_size size type_size : Z) (f gbstep : nat)
    (old : nat -> layout) (idx : nat) : layout :=
  let i := (idx / (gbstep * f))%nat in
  let j := ((idx mod (gbstep * f)) / f)%nat in
  let k := (idx mod f)%nat in
  let first := old (i * gbstep * f + j)%nat in
  let src := old (i * gbstep * f + j + k * gbstep)%nat in
  let zf := Z.of_nat f in
  let zk := Z.of_nat k in
  let '(size_local, add_local) :=
    if CACHE_LINE_SIZE <=? Z.quot (l_size first) zf then
      let sl := Z.quot (Z.quot (l_size src) type_size) zf * type_size in
      let rest := Z.rem (Z.quot (l_size src) type_size) zf in
      if zk <? rest then (sl + type_size, zk * sl + zk * type_size)
      else (sl, zk * sl + rest * type_size)
    else ((if (k =? 0)%nat then l_size first else 0), 0) in
  if size * socket_size <=? l_offset first then Lay 0 (-1) (l_rank src)
  else Lay size_local (l_offset first + add_local) (l_rank src).

(* 191-197: the last index with the own rank, 0 if there is none *)
Definition own_index (vsocket_size : nat) (memory : nat -> layout) (rank : Z) : nat :=
  fold_left (fun j i => if rank =? l_rank (memory i) then i else j) (seq 0 vsocket_size) O.

(* 198-221: the array ranks and num_busy_ranks of one step *)
Definition step_ranks (socket_size : Z) (vsocket_size f : nat) (memory : nat -> layout)
    (rank : Z) : list Z * Z :=
  let j := own_index vsocket_size memory rank in
  let i := ((j / f) * f)%nat in
  let ranks := map (fun t => l_rank (memory (i + (t + (j - i)) mod f)%nat)) (seq 0 f) in
  let busy := existsb (fun r => existsb (fun k =>
                (r =? l_rank (memory k)) && negb (l_size (memory k) =? 0)) (seq 0 vsocket_size)) ranks in
  let ranks' := if busy then filter (Z.leb 0) ranks else ranks in
  let num_busy := if busy then Z.of_nat (length ranks') else 0 in
  if socket_size <=? rank then ([rank], 0) else (ranks', num_busy).

(* 226-234 *)
Definition copy_offset (fast : bool) (size f0 o : Z) : Z :=
  if fast then Z.rem o size + Z.quot (Z.quot o size) f0 * CACHE_LINE_SIZE + OFFSET_FAST
  else Z.rem o size + Z.quot (Z.quot o size * size) f0.

(* 222-240: the instructions of one step >= 1 *)
Definition step_code (socket_size size : Z) (fast : bool) (f0 : Z) (vsocket_size : nat) (f gbstep : nat)
    (memory : nat -> layout) (rank : Z) : list instr :=
  let '(ranks, num_busy) := step_ranks socket_size vsocket_size f memory rank in
  let own := memory (own_index vsocket_size memory rank) in
  local_barrier (Z.of_nat f) num_busy ranks ++
  (if l_size own =? 0 then [] else
   flat_map (fun i =>
     let o1 := l_offset own in
     let o2 := l_offset own + Z.of_nat i * size * Z.of_nat gbstep in
     if rank <? Z.of_nat vsocket_size
     then [Move Reduce (copy_offset fast size f0 o1) (Shm (copy_offset fast size f0 o2)) (l_size own)]
     else []) (seq 1 (f - 1))).

(* The loop 157-241 from step [step] on: the instructions, and memory_new. *)
Fixpoint copy_steps (socket_size size type_size : Z) (fast : bool) (f0 : Z) (vsocket_size : nat)
    (rank : Z) (step : nat) (factors : list nat) (gbstep : nat) (old : nat -> layout)
    : list instr * (nat -> layout) :=
  match factors with
  | [] => ([], old)
  | f :: rest =>
    let new := memory_step socket_size size type_size f gbstep old in
    let code := if (1 <=? step)%nat
                then step_code socket_size size fast f0 vsocket_size f gbstep new rank else [] in
    let '(code', last) := copy_steps socket_size size type_size fast f0 vsocket_size rank
                            (S step) rest (gbstep * f) new in
    (code ++ code', last)
  end.

(* 255-265: rotate until the own rank comes first *)
Fixpoint rotate (fuel : nat) (rank : Z) (ranks : list Z) : list Z :=
  match fuel, ranks with
  | S fuel', r :: rest => if r =? rank then ranks else rotate fuel' rank (rest ++ [r])
  | _, _ => ranks
  end.

(* 242-272 *)
Definition final_code (socket_size : Z) (subset : bool) (vsocket_size : nat) (memory : nat -> layout)
    (rank : Z) : list instr :=
  let busy := map (fun i => l_rank (memory i))
                (filter (fun i => negb (l_size (memory i) =? 0)) (seq 0 vsocket_size)) in
  let n := Z.of_nat (length busy) in
  let num_busy := if existsb (Z.eqb rank) busy then n else - n in
  let ranks := if existsb (Z.eqb rank) busy then rotate (length busy) rank busy else [rank] in
  if (socket_size =? num_busy) && negb subset then socket_barrier socket_size rank
  else local_barrier (- socket_size) num_busy ranks ++ [Set_ rank; Wait 0].

(* reduce_copies, 138-276 *)
Definition reduce_copies (socket_size : Z) (factors : list nat) (size type_size rank : Z)
    (fast subset : bool) : list instr :=
  let v := fold_right Nat.mul 1%nat factors in
  let f0 := Z.of_nat (hd 1%nat factors) in
  let '(code, last) := copy_steps socket_size size type_size fast f0 v rank 0 factors 1
                         (memory_start socket_size size) in
  code ++ final_code socket_size subset v last rank.

(* reduce_copies_almost_half, 278-331 (nparallel = 2, line 281) *)
Definition almost_half (num_instances hsocket_size size type_size rank : Z) : list instr :=
  let d := num_instances - hsocket_size in
  if (rank <? d) || (hsocket_size <=? rank) then
    let lower := rank <? d in
    let partner := if lower then Z.rem rank d + hsocket_size else Z.rem (rank - hsocket_size) d in
    let ranks := [rank; partner] in
    let '(add_local, size_local) := piece size type_size 2 (if lower then Z.quot rank d else 1) in
    let lrank := if lower then Z.rem rank d else rank - hsocket_size in
    local_barrier (-2) 2 ranks ++
    [Move Reduce (lrank * size + add_local) (Shm ((lrank + hsocket_size) * size + add_local)) size_local] ++
    local_barrier (-2) 2 ranks
  else local_barrier (-2) (-2) [rank] ++ local_barrier (-2) (-2) [rank].

(* What the generator is given. *)
Record node_par := NP {
  n_cores : nat;            (* node_size = socket_row_size * socket_column_size *)
  n_type : Z;               (* sizeof the data type *)
  n_factors : list nat;     (* copyin_factors *)
  n_counts : list Z;        (* message_sizes, one per node *)
  n_fracs : list nat;       (* the fields frac of the lines of block 0 *)
  n_gpu : bool }.           (* on_gpu *)

(* 528 *)
Definition is_fast (p : node_par) : bool :=
  negb (n_gpu p) && (length (n_counts p) =? 1)%nat &&
  (nth 0 (n_counts p) 0 <=? CACHE_LINE_SIZE - OFFSET_FAST).
(* 529-531 *)
Definition type_size (p : node_par) : Z :=
  if is_fast p then total (n_counts p) else n_type p.

(* 515-523 *)
Definition group_ranks (node_size gbstep rank : Z) : list Z :=
  let num_ranks :=
    if (Z.rem node_size gbstep =? 0) || (Z.quot rank gbstep <? Z.quot (node_size - 1) gbstep)
    then gbstep else Z.rem node_size gbstep in
  map (fun t => Z.quot rank gbstep * gbstep + (Z.of_nat t + Z.rem rank gbstep) mod num_ranks)
      (seq 0 (Z.to_nat num_ranks)).

(* The power of two of line 543, and h = i / 2. *)
Fixpoint power_from (fuel : nat) (i n : Z) : Z :=
  match fuel with
  | O => i
  | S fuel' => if i <? n then power_from fuel' (i * 2) n else i
  end.
Definition half_size (node_size : nat) : Z := Z.quot (power_from node_size 1 (Z.of_nat node_size)) 2.

(* 485, 532, 552-553: the program of core [rank], copyin_method 0 *)
Definition program (p : node_par) (rank : nat) : list instr :=
  let n := Z.of_nat (n_cores p) in
  let r := Z.of_nat rank in
  let g := Z.of_nat (hd 1%nat (n_factors p)) in
  let ranks := group_ranks n g r in
  socket_barrier n r ++ socket_barrier n r ++
  reduce_copyin (n_counts p) (n_fracs p) (Z.rem r g) (type_size p) (Z.quot r g)
                (Z.of_nat (length ranks)) ranks (is_fast p) ++
  reduce_copies n (n_factors p) (total (n_counts p)) (type_size p) r (is_fast p) false.

(* 485, 532, 543-550: copyin_method 1 *)
Definition program_half (p : node_par) (rank : nat) : list instr :=
  let n := Z.of_nat (n_cores p) in
  let r := Z.of_nat rank in
  let g := Z.of_nat (hd 1%nat (n_factors p)) in
  let ranks := group_ranks n g r in
  let h := half_size (n_cores p) in
  socket_barrier n r ++ socket_barrier n r ++
  reduce_copyin (n_counts p) (n_fracs p) (Z.rem r g) (type_size p) (Z.quot r g) g ranks (is_fast p) ++
  almost_half n h (total (n_counts p)) (type_size p) r ++
  reduce_copies h (removelast (n_factors p)) (total (n_counts p)) (type_size p) r (is_fast p) true.

(* ---------------------------------------------------------------------- *)
(* Execution (ext_mpi_native_exec.c, exec_native: OPCODE_SOCKETBARRIER_ATOMIC_SET
   358-360, OPCODE_SOCKETBARRIER_ATOMIC_WAIT 361-373, OPCODE_MEMCPY 252,
   OPCODE_REDUCE 374).  The cores run
   concurrently; memory is sequentially consistent.  A transfer of n bytes is
   n separate actions, in any interleaving with the actions of other cores; an
   action reads its operands and writes its destination in one step.  A cell
   of the model is one byte; for the reductions think of a cell as the part of
   an element, the operation being applied cell by cell. *)

Inductive micro :=
| MSet (e : Z)
| MWait (e : Z)
| MAct (k : kind) (d : Z) (s : operand).

Definition shift (s : operand) (i : Z) : operand :=
  match s with Shm a => Shm (a + i) | Snd a => Snd (a + i) end.

Definition micro_of (x : instr) : list micro :=
  match x with
  | Set_ e => [MSet e]
  | Wait e => [MWait e]
  | Move k d s n =>
    map (fun i => MAct k (d + Z.of_nat i) (shift s (Z.of_nat i))) (seq 0 (Z.to_nat n))
  end.

Definition micro_code (l : list instr) : list micro := flat_map micro_of l.

Section Execution.
  Context {V : Type} (op : V -> V -> V).
  Context (send : nat -> Z -> V).          (* contents of the send buffers *)

  Record nstate := NS {
    rest : nat -> list micro;              (* what each core has still to execute *)
    counter : nat -> Z;                    (* header->barrier_counter_socket, 32 bits *)
    flags : Z -> Z;                        (* the flags, one per core *)
    mem : Z -> V }.                        (* the shared memory *)

  Definition effect (c : nat) (k : kind) (d : Z) (s : operand) (m : Z -> V) : Z -> V :=
    let v := match s with Shm a => m a | Snd a => send c a end in
    upd Z.eq_dec m d (match k with Copy => v | Reduce => op (m d) v end).

  (* socket_barrier_atomic_set (70-72): the own counter into the flag;
     socket_barrier_atomic_wait (74-78): wait until the flag has reached the counter,
     then count up.  None: the core cannot go on. *)
  Definition nstep (s : nstate) (c : nat) : option nstate :=
    match rest s c with
    | [] => None
    | MSet e :: p => Some (NS (upd Nat.eq_dec (rest s) c p) (counter s)
                              (upd Z.eq_dec (flags s) e (counter s c)) (mem s))
    | MWait e :: p =>
      if not_reached (flags s e) (counter s c) then None
      else Some (NS (upd Nat.eq_dec (rest s) c p)
                    (upd Nat.eq_dec (counter s) c (wrap (counter s c + 1))) (flags s) (mem s))
    | MAct k d src :: p => Some (NS (upd Nat.eq_dec (rest s) c p) (counter s) (flags s)
                                    (effect c k d src (mem s)))
    end.

  (* All cores start with the same counter, and flags that hold the value
     before it (byte_code.c:332-333, shmem.c; after complete earlier barriers
     that is so again). *)
  Definition nstart (prog : nat -> list instr) (c0 : Z) (m0 : Z -> V) : nstate :=
    NS (fun c => micro_code (prog c)) (fun _ => wrap c0) (fun _ => wrap (c0 - 1)) m0.

  Inductive nreach (n : nat) (s0 : nstate) : nstate -> Prop :=
  | NR_start : nreach n s0 s0
  | NR_step s c s' : nreach n s0 s -> (c < n)%nat -> nstep s c = Some s' -> nreach n s0 s'.
End Execution.
