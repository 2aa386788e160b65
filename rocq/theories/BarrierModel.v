(* Model of the on-node barriers of src/mpi/ext_mpi_native_exec.c:
   socket_barrier (48-56) and node_barrier (26-34), with one transition per
   access to shared memory. *)
From Verif Require Import Base.
Local Open Scope Z_scope.

(* int arithmetic as compiled: 32 bits, two's complement.  The code relies on
   wrap-around of the signed counter, which C leaves undefined; the model
   gives it the usual meaning.  Values are represented in 0 .. 2^32-1. *)
Definition wrap (x : Z) : Z := x mod 2^32.

(* (unsigned int)(slot - count) > INT_MAX *)
Definition not_reached (slot count : Z) : bool := 2^31 - 1 <? wrap (slot - count).

Inductive direction := Up | Down.

(* The core whose slot is polled.  socket_barrier line 52:
   (socket_rank + step) % num_cores (Up).  node_barrier line 30 reads
   shmem[step]; on socket s, ext_mpi_setup_shared_memory (shmem.c:136,
   ii = (num_segments - i + s) % num_segments) maps the segment of socket i to
   index ii, so shmem[step] is the segment of socket (s - step) mod
   num_sockets (Down). *)
Definition partner (dir : direction) (n i step : nat) : nat :=
  match dir with
  | Up => ((i + step) mod n)%nat
  | Down => ((i + (n - step mod n)) mod n)%nat
  end.

(* Where a core is: outside; about to write its slot; polling. *)
Inductive where_ := Outside | AtWrite | AtPoll.

Record core := Core {
  pc : where_;
  step : nat;          (* local variable step, 1, 2, 4, ... *)
  count : Z;           (* header->barrier_counter_socket / _node, 32 bits *)
  entered : nat;       (* number of barrier calls begun (bookkeeping) *)
  left_ : nat }.       (* number of barrier calls returned from (bookkeeping) *)

Record bstate := BState { cores : nat -> core; slots : nat -> Z }.

Section Barrier.
  Context (dir : direction) (n : nat).   (* num_cores / num_sockets_per_node *)

  (* Head of the for loop: go on if step < num_cores, else return. *)
  Definition loop_head (c : core) : core :=
    if (step c <? n)%nat then Core AtWrite (step c) (count c) (entered c) (left_ c)
    else Core Outside (step c) (count c) (entered c) (S (left_ c)).

  (* One atomic action of core [i]: the call of the barrier, the store to its
     own slot, or one load of the partner's slot.  Memory is sequentially
     consistent at the granularity of an int. *)
  Definition act (s : bstate) (i : nat) : bstate :=
    let c := cores s i in
    match pc c with
    | Outside =>
      BState (upd Nat.eq_dec (cores s) i
                (loop_head (Core Outside 1 (count c) (S (entered c)) (left_ c))))
             (slots s)
    | AtWrite =>
      BState (upd Nat.eq_dec (cores s) i (Core AtPoll (step c) (count c) (entered c) (left_ c)))
             (upd Nat.eq_dec (slots s) i (count c))
    | AtPoll =>
      if not_reached (slots s (partner dir n i (step c))) (count c) then s
      else BState (upd Nat.eq_dec (cores s) i
                     (loop_head (Core AtPoll (step c * 2) (wrap (count c + 1))
                                      (entered c) (left_ c))))
                  (slots s)
    end.

  (* Any initial counter value; the slots hold the value before it
     (byte_code.c:332-333 sets the counters to 1, shmem.c fills the slots
     with 0). *)
  Definition binit (c0 : Z) : bstate :=
    BState (fun _ => Core Outside 1 (wrap c0) 0 0) (fun _ => wrap (c0 - 1)).

  (* All states reachable by any interleaving of any number of barriers. *)
  Inductive reachable (c0 : Z) : bstate -> Prop :=
  | R_init : reachable c0 (binit c0)
  | R_act s i : reachable c0 s -> (i < n)%nat -> reachable c0 (act s i).

  (* Cores that each call the barrier [b] times and then stop: a core that has
     returned [b] times does nothing any more. *)
  Definition finished (b : nat) (s : bstate) (i : nat) : Prop :=
    pc (cores s i) = Outside /\ left_ (cores s i) = b.
  Definition finishedb (b : nat) (s : bstate) (i : nat) : bool :=
    match pc (cores s i) with Outside => (left_ (cores s i) =? b)%nat | _ => false end.
  Definition act_upto (b : nat) (s : bstate) (i : nat) : bstate :=
    if finishedb b s i then s else act s i.

  (* Execution under a schedule: at time t core [sched t] makes one action. *)
  Fixpoint exec_sched (b : nat) (sched : nat -> nat) (c0 : Z) (t : nat) : bstate :=
    match t with
    | O => binit c0
    | S t' => act_upto b (exec_sched b sched c0 t') (sched t')
    end.
End Barrier.
