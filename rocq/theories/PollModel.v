(* Model of polling a barrier: socket_barrier_test (58-68) /
   node_barrier_test (36-46), the atomic test (80-82) and the way
   ext_mpi_exec_native uses them (327-377) in src/mpi/ext_mpi_native_exec.c.
   Only the polling core moves; [mem] are the slots. *)
From Verif Require Import Base BarrierModel.
Local Open Scope Z_scope.

Section Poll.
  Context (dir : direction) (n i : nat).

  (* 58-68; [true] is the return value 1.  [fuel] bounds the number of rounds
     (step doubles, so [n] is enough). *)
  Fixpoint barrier_test (fuel : nat) (mem : nat -> Z) (count : Z) (step : nat)
    : (nat -> Z) * bool :=
    match fuel with
    | O => (mem, false)
    | S f =>
      if (step <? n)%nat then
        let mem := upd Nat.eq_dec mem i count in
        if not_reached (mem (partner dir n i step)) count then (mem, true)
        else barrier_test f mem (wrap (count + 1)) (step * 2)
      else (mem, false)
    end.

  (* socket_barrier (48-56) executed while no other core moves; [fuel] bounds
     the number of loop iterations, [None] = still running. *)
  Fixpoint barrier_alone (fuel : nat) (mem : nat -> Z) (count : Z) (step : nat) (polling : bool)
    : option ((nat -> Z) * Z) :=
    match fuel with
    | O => None
    | S f =>
      if polling then
        if not_reached (mem (partner dir n i step)) count
        then barrier_alone f mem count step true
        else barrier_alone f mem (wrap (count + 1)) (step * 2) false
      else if (step <? n)%nat
           then barrier_alone f (upd Nat.eq_dec mem i count) count step true
           else Some (mem, count)
    end.

  Inductive poll_result :=
  | Stay (mem : nat -> Z) (count : Z)     (* return 0, *ip_exec is the barrier *)
  | Pass (mem : nat -> Z) (count : Z)     (* goes on behind the barrier *)
  | Stuck.                                (* has not returned yet *)

  (* 331-341 (same for 346-357): the barrier instruction with active_wait = 1. *)
  Definition poll_barrier (fuel : nat) (mem : nat -> Z) (count : Z) : poll_result :=
    let (mem, r) := barrier_test n mem count 1 in
    if negb r then Stay mem count
    else match barrier_alone fuel mem count 1 false with
         | Some (mem, count) => Pass mem count
         | None => Stuck
         end.

  (* [k] consecutive calls of MPI_Test while the others do not move: does the
     collective get past the barrier? *)
  Fixpoint polls (k fuel : nat) (mem : nat -> Z) (count : Z) : bool :=
    match k with
    | O => false
    | S k' => match poll_barrier fuel mem count with
              | Stay mem count => polls k' fuel mem count
              | Pass _ _ => true
              | Stuck => false
              end
    end.

  (* 361-377: wait for one slot, with active_wait = 1.  One round only. *)
  Fixpoint atomic_alone (fuel : nat) (mem : nat -> Z) (count : Z) (entry : nat) : option Z :=
    match fuel with
    | O => None
    | S f => if not_reached (mem entry) count then atomic_alone f mem count entry
             else Some (wrap (count + 1))
    end.
  Definition poll_atomic (fuel : nat) (mem : nat -> Z) (count : Z) (entry : nat) : poll_result :=
    if negb (not_reached (mem entry) count) then Stay mem count
    else match atomic_alone fuel mem count entry with
         | Some count => Pass mem count
         | None => Stuck
         end.
End Poll.

(* The part of ext_mpi_exec_native that MPI_Test reaches when the next
   instruction is a wait for any message (308-326): with active_wait = 1 it
   prints "not implemented" and calls exit(2). *)
Inductive process_fate := Continues | Exits (code : Z).
Definition waitany_fate (active_wait : Z) : process_fate :=
  if Z.testbit active_wait 1 then Continues else Exits 2.
