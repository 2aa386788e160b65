(* Model of the code that is executed for the ports and the schedule chosen by
   the library (ChoiceModel.v): the collectives with a root,
   src/mpi/ext_mpi.c:719-803 (reduce), 805-869 (bcast) and 193-300 (gatherv), and
   the passes behind the code generation, src/mpi/ext_mpi_native.c:736-858.
   The simplifications are those of ChoiceModel.v, RootModel.v, BcastModel.v and
   FinalModel.v. *)
From Verif Require Import Base SchedModel RecursiveModel CyclicModel CycRedModel RawModel RootModel BcastModel FinalModel ChoiceModel.

(* Whether the recursive schedule is taken (not_recursive = 0), for ports chosen
   with collective_type [ag]. *)
Definition takes_recursive (param : option bool) (T : list Z -> Z) (limit : Z) (ag : bool) (N : nat) : bool :=
  match choose T limit ag (Z.of_nat N) with
  | Some (ports, _) => negb (not_recursive param (Z.of_nat N) ports)
  | None => false
  end.

(* The number of blocks of a schedule is read from it
   (backward_interpreter.c:40-42, forward_interpreter.c:40-42). *)
Definition adapted_to_root (N root : nat) (sched : nat -> list block) : nat -> list block :=
  RootModel.backward N root sched (length (sched 0)).
Definition adapted_from_root (N root : nat) (sched : nat -> list block) : nat -> list block :=
  BcastModel.forward N root sched (length (sched 0)).

(* reduce: the ports as for allreduce, ext_mpi.c:753-757 *)
Definition chosen_reduce (param : option bool) (T : list Z -> Z) (limit : Z) (N root count : nat) : option (nat -> list instr) :=
  option_map (fun sched q => reduce_program (adapted_to_root N root sched q) count N root q)
             (choose_allreduce param T limit N).
(* bcast: the schedule is that of an allreduce (ext_mpi_native.c:887-898), the
   ports are chosen with collective_type 1, ext_mpi.c:838-842 *)
Definition choose_bcast (param : option bool) (T : list Z -> Z) (limit : Z) (N : nat) : option (nat -> list block) :=
  match choose T limit true (Z.of_nat N) with
  | Some (ports, groups) =>
    if not_recursive param (Z.of_nat N) ports then
      if ngroups groups =? 1
      then Some (cyclic_reduce N (sizes (negatives ports)) (sizes (after_negatives ports))) else None
    else Some (generate_recursive false ports)
  | None => None
  end.
Definition chosen_bcast (param : option bool) (T : list Z -> Z) (limit : Z) (N root count : nat) : option (nat -> list instr) :=
  option_map (fun sched q => bcast_program (adapted_from_root N root sched q) count N root q)
             (choose_bcast param T limit N).
(* gather: as for allgather, ext_mpi.c:225-300 *)
Definition chosen_gather (param : option bool) (T : list Z -> Z) (limit : Z) (N root : nat) (counts : nat -> nat) : option (nat -> list instr) :=
  option_map (fun sched q => gather_program (adapted_to_root N root sched q) counts N root q)
             (choose_allgather param T limit N).

(* allreduce behind all passes: use_sendbuf_recvbuf only for the recursive
   schedule (ext_mpi_native.c:844-850); [base] may depend on the node *)
Definition chosen_allreduce_final (param : option bool) (T : list Z -> Z) (limit : Z) (base : nat -> nat -> nat) (alt : bool) (N count : nat) :
  option (nat -> list instr) :=
  option_map (fun sched q =>
      if takes_recursive param T limit false N
      then allreduce_final (sched q) (base q) alt count N q
      else optimised (base q) alt (allreduce_program (sched q) count N q))
    (choose_allreduce param T limit N).
