(* Model of collectives all ranks of which lie on one node: the code that
   src/core/reduce_scatter_single_node.c generates, and the repeated execution of
   a code of one node, with one or with two sets of shared memory and flags.

   Simplifications: no GPU, no column communicator, all arithmetic on ints exact
   except for the barrier counters; a cell is one byte (see NodeModel.v).  The line
   ememcp_ (53-63 of reduce_scatter_single_node.c), which only makes the shared
   memory large enough, is left out: it is not translated into byte code.  The
   private receive buffers are kept in the same address space as the shared memory,
   behind it. *)
From Verif Require Import Base BarrierModel NodeModel.
Local Open Scope Z_scope.

(* reduce_scatter_single_node.c:36-82.  socket_row_size = length counts, counts =
   iocounts.  [shm], [snd], [rcv]: the addresses of the shared segment, the send
   buffer and the receive buffer, put in by byte_code.c.  [first] = false: the first
   barrier has been taken out by no_first_barrier.c:14-26. *)
Definition single_code (counts : list Z) (rank : nat) (first : bool) (shm snd rcv : Z) : list instr :=
  let n := length counts in
  let tot := total counts in
  let own := nth rank counts 0 in
  let barrier := socket_barrier (Z.of_nat n) (Z.of_nat rank) in
  (if first then barrier else []) ++
  [Move Copy (shm + tot * Z.of_nat rank) (Snd snd) tot] ++
  barrier ++
  [Move Copy rcv (Shm (shm + moffset counts rank)) own] ++
  map (fun i => Move Reduce rcv (Shm (shm + (tot * Z.of_nat i + moffset counts rank))) own) (seq 1 (n - 1)).

(* ext_mpi_native.c:497-536 and EXT_MPI_Start_native, 233-247: with [alt] there are
   two byte codes, each with its own shared segment, its own flags and its own
   counter, which take turns. *)
Definition bank (alt : bool) (k : nat) : nat := if alt then (k mod 2)%nat else O.

(* [times] executions of a code; [code k] is the code with the addresses of
   execution k.  Each instruction carries the number of the set of flags it uses. *)
Definition executions (alt : bool) (code : nat -> list instr) (times : nat) : list (nat * micro) :=
  flat_map (fun k => map (pair (bank alt k)) (micro_code (code k))) (seq 0 times).

(* Execution as in NodeModel.v, with the flags and the counter of the byte code the
   instruction belongs to (header->barrier_counter_socket, header->barrier_shmem_socket
   in ext_mpi_native_exec.c). *)
Section Banks.
  Context {V : Type} (op : V -> V -> V) (send : nat -> Z -> V).

  Record bstate := BS {
    brest : nat -> list (nat * micro);       (* what each core has still to execute *)
    bcounter : nat -> nat -> Z;              (* set of flags, core *)
    bflags : nat -> Z -> Z;
    bmem : Z -> V }.

  Definition set_at {A B} (dec : forall x y : A, {x = y} + {x <> y}) (f : nat -> A -> B) (h : nat) (a : A) (b : B)
    : nat -> A -> B := upd Nat.eq_dec f h (upd dec (f h) a b).

  Definition bstep (s : bstate) (c : nat) : option bstate :=
    match brest s c with
    | [] => None
    | (h, MSet e) :: p =>
      Some (BS (upd Nat.eq_dec (brest s) c p) (bcounter s)
               (set_at Z.eq_dec (bflags s) h e (bcounter s h c)) (bmem s))
    | (h, MWait e) :: p =>
      if not_reached (bflags s h e) (bcounter s h c) then None
      else Some (BS (upd Nat.eq_dec (brest s) c p)
                    (set_at Nat.eq_dec (bcounter s) h c (wrap (bcounter s h c + 1))) (bflags s) (bmem s))
    | (h, MAct k d src) :: p =>
      Some (BS (upd Nat.eq_dec (brest s) c p) (bcounter s) (bflags s) (effect op send c k d src (bmem s)))
    end.

  (* Each set of flags starts with counters that agree (byte_code.c:332-333, shmem.c). *)
  Definition bstart (prog : nat -> list (nat * micro)) (c0 : nat -> Z) (m0 : Z -> V) : bstate :=
    BS prog (fun h _ => wrap (c0 h)) (fun h _ => wrap (c0 h - 1)) m0.

  Inductive breach (n : nat) (s0 : bstate) : bstate -> Prop :=
  | BR_start : breach n s0 s0
  | BR_step s c s' : breach n s0 s -> (c < n)%nat -> bstep s c = Some s' -> breach n s0 s'.
End Banks.

(* Repeated execution of the reduce_scatter.  Shared segment of execution k; the
   contents of the send buffers of the executions and the receive buffers lie one
   behind the other (an execution reads and writes only its own). *)
Definition segment_of (counts : list Z) (alt : bool) (k : nat) : Z :=
  Z.of_nat (bank alt k) * (Z.of_nat (length counts) * total counts).
Definition sendbuf_of (counts : list Z) (k : nat) : Z := Z.of_nat k * total counts.
Definition recvbuf_of (counts : list Z) (k rank : nat) : Z :=
  2 * (Z.of_nat (length counts) * total counts) +
  (Z.of_nat k * Z.of_nat (length counts) + Z.of_nat rank) * total counts.

Definition scatter_run (counts : list Z) (first alt : bool) (times rank : nat) : list (nat * micro) :=
  executions alt (fun k => single_code counts rank first (segment_of counts alt k)
                             (sendbuf_of counts k) (recvbuf_of counts k rank)) times.
