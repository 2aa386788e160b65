(* Model of src/mpi/cost_copyin_measurement.c: the copy-in method and its factors
   are chosen by measuring candidates.

   Simplifications: no column communicator; a time is an integer, and a function of
   what has been measured (every candidate is measured once); None stands for the
   initial 1e20, which is above every time measured; the broadcasts give all ranks
   the choice of rank 0, whose times are meant.  The terminating 0 of the lists of
   factors is left out. *)
From Verif Require Import Base NodeModel PrimeModel.
Local Open Scope nat_scope.

(* method and factors *)
Definition choice : Type := nat * list nat.

(* 98-101 and 110-113: 1, and a 2 for each j of "for (j = 1; j < cores; j *= 2)" *)
Definition twos (cores : nat) : list nat := 1 :: map (fun _ => 2) (facs (Z.of_nat cores)).

(* 105-107: the loop over i, and the comparison *)
Definition power_of_two (cores : nat) : bool :=
  (power_from cores 1 (Z.of_nat cores) =? Z.of_nat cores)%Z.

(* 118-126: the candidate of round i of the loop *)
Definition candidate (factors : list nat) (i : nat) : list nat :=
  fold_left Nat.mul (firstn i factors) 1 :: skipn i factors.

Definition below (t : Z) (m : option Z) : bool :=
  match m with None => true | Some t' => (t <? t')%Z end.

(* allreduce_measurement, 70-151.  [size] is the number of bytes, [row] the number
   of processes of the communicator. *)
Definition measure_sockets (time : choice -> Z) (cores row : nat) (size : Z) (gpu : bool)
    : option Z * choice :=
  if (size <=? CACHE_LINE_SIZE - OFFSET_FAST)%Z && negb gpu && (row =? cores) then
    let c := (0, twos cores) in (Some (time c), c)
  else
    let start := if power_of_two cores then (None, (0, []))
                 else let c := (1, twos cores) in (Some (time c), c) in
    let factors := plain_prime_factors cores in
    fold_left (fun best i =>
        let c := (0, candidate factors i) in
        if below (time c) (fst best) then (Some (time c), c) else best)
      (seq 0 (S (length factors))) start.

(* A plan: the number of sockets the node is divided into, the cores of a socket,
   method and factors. *)
Record plan := Plan { pl_sockets : nat; pl_cores : nat; pl_choice : choice }.

Definition less (a b : option Z) : bool :=
  match a with None => false | Some t => below t b end.

(* EXT_MPI_Allreduce_measurement, 153-220.  [sockets] is *num_sockets_per_node on
   entry, [one] one_socket_only; [time j] are the times with j sockets. *)
Definition measurement (time : nat -> choice -> Z) (cores row : nat) (size : Z) (gpu : bool)
    (sockets : nat) (one : bool) : plan :=
  if cores =? 1 then Plan sockets cores (0, [1])
  else
    let first := measure_sockets (time 1) cores row size gpu in
    let js := if (cores =? row) && negb one then [2; 4] else [] in
    let best := fold_left (fun best j =>
        if (sockets =? 1) && (cores mod j =? 0) then
          let m := measure_sockets (time j) (cores / j) row size gpu in
          if less (fst m) (fst (fst best)) then (m, j) else best
        else best) js (first, 1) in
    if sockets =? 1 then Plan (snd best) (cores / snd best) (snd (fst best))
    else Plan sockets cores (snd (fst best)).
