(* Splitting the vector of a reduction among the sockets of the row
   communicator: src/mpi/ext_mpi_native.c:627-648
   (allreduce_init_draft / EXT_MPI_Allreduce_init_native). *)
From Verif Require Import Base.

(* Array of n int entries. *)
Definition fill {A} (n : nat) (x : A) : list A := repeat x n.
(* for (i = 0; i < r; i++) msizes[i]++; *)
Fixpoint bump_first (r : nat) (l : list nat) : list nat :=
  match r, l with
  | S r', x :: l' => S x :: bump_first r' l'
  | _, _ => l
  end.
(* Lines 627-643; msize in bytes, n = my_mpi_size_row / my_cores_per_node_row. *)
Definition split_sizes (msize type_size n : nat) : list nat :=
  map (fun x => x * type_size)
      (bump_first ((msize / type_size) mod n) (fill n ((msize / type_size) / n))).
(* With allreduce_short (644-648) there is one message. *)
Definition message_sizes (short : bool) (msize type_size n : nat) : list nat :=
  if short then [msize] else split_sizes msize type_size n.
