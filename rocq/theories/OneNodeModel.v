(* Model of the choice of the number of sockets and of the ports if all processes are on one
   node: src/mpi/num_ports_factors.c:38-65, 116-119, src/mpi/cost_copyin_measurement.c:154-213,
   src/mpi/ext_mpi.c:630-684 (allreduce) and 719-803 (reduce).
   No parameter is set by the environment or the info object; more than one process. *)
From Verif Require Import Base SchedModel RecursiveModel CyclicModel CycRedModel RawModel RootModel FinalModel ChoiceModel ChosenModel WaitPassModel SocketModel.
Local Open Scope nat_scope.

(* num_ports_factors.c:38-65; the terminating zeros are left out *)
Definition set_ports_single_node (sockets : nat) (pg : list Z * list Z) : list Z * list Z :=
  match snd pg with
  | [(-1)%Z] =>
    match sockets with
    | 1 => ([-1], [-1])%Z
    | 2 => ([-1; 1], [-2; -2])%Z
    | 4 => ([-1; -1; 1; 1], [-2; -2; -2; -2])%Z
    | _ => pg
    end
  | _ => pg
  end.

(* num_ports_factors.c:116-119 with num_sockets_per_node = 1 (read as meant: 117-118 write through
   the pointer behind groups instead of to the second entry) *)
Definition one_node_ports : list Z * list Z := set_ports_single_node 1 ([-1], [-1])%Z.

(* cost_copyin_measurement.c:175-192: the number of sockets for which the allreduce was fastest;
   [time] is the time measured, which is the same everywhere after the MPI_Bcast (182). *)
Definition try_sockets (time : nat -> Z) (cores : nat) (best : nat) (j : nat) : nat :=
  if (cores mod j =? 0) && (time j <? time best)%Z then j else best.
Definition measured (time : nat -> Z) (cores : nat) : nat := fold_left (try_sockets time cores) [2; 4] 1.

(* What allreduce and reduce pass on to the generation of the code: the number of sockets
   of the node, the processes per socket (cost_copyin_measurement.c:211-214), ports and groups.
   Allreduce sets the ports again (ext_mpi.c:682-684), reduce does not (769-775). *)
Record setting := Setting { sockets : nat; per_socket : nat; ports_groups : list Z * list Z }.
Definition allreduce_setting (time : nat -> Z) (cores : nat) : setting :=
  let s := measured time cores in Setting s (cores / s) (set_ports_single_node s one_node_ports).
Definition reduce_setting (time : nat -> Z) (cores : nat) : setting :=
  let s := measured time cores in Setting s (cores / s) one_node_ports.

(* ext_mpi.c:658, 757: decided before the measurement, with one socket *)
Definition one_node_not_recursive : bool := not_recursive None 1 (fst one_node_ports).

(* The code of reduce for one process per socket: as chosen_reduce (ChosenModel.v) with the
   passes of SocketModel.v.  One group: allreduce.c:349-355. *)
Definition one_node_reduce (ports : list Z) (base : nat -> nat) (N root count : nat) (p : nat) : list sline :=
  let sched := cyclic_reduce N (sizes (negatives ports)) (sizes (after_negatives ports)) in
  let code q := reduce_program (adapted_to_root N root sched q) count N root q in
  optimise_multi_socket (messages_shared_memory N N (fun q => optimise_buffers2 (optimise_buffers (map (flat_instr base) (code q)))) p).
