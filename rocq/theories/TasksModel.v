(* Model of ext_mpi_get_num_tasks_per_socket, src/mpi/ext_mpi.c:187-217. *)
From Verif Require Import Base.
Local Open Scope Z_scope.

(* 206: does j divide the number of cores seen by every rank?  The array has one
   more element than ranks, set to 0 (202), so that the test before the bounds
   check reads no foreign memory. *)
Definition divides_all (cores : list Z) (j : Z) : bool := forallb (fun c => Z.rem c j =? 0) cores.

(* 205-211: the first j counting down from the cores of rank 0; -1 if there is
   none (213) *)
Fixpoint search (cores : list Z) (j : nat) : Z :=
  match j with
  | O => -1
  | S j' => if divides_all cores (Z.of_nat j) then Z.of_nat j else search cores j'
  end.

(* [fixed] is EXT_MPI_NUM_TASKS_PER_SOCKET, 0 if not set (190-192); [cores] the
   number of ranks on the node of each rank, as given by MPI_Comm_split_type;
   the division is the one in 209.  The -1 of 213 is returned undivided. *)
Definition tasks_per_socket (fixed : Z) (cores : list Z) (sockets : Z) : Z :=
  if 0 <? fixed then fixed
  else let j := search cores (Z.to_nat (hd 0 cores)) in
       if j =? -1 then -1 else Z.quot j sockets.
