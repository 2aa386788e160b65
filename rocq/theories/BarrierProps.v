From Verif Require Import Base BarrierModel BarrierProofs PollModel PollProofs.

(* C05: for any number of cores, any initial value of the 32-bit counter, any
   number of consecutive barriers and any interleaving of the individual
   shared memory accesses: a core that has returned from k barrier calls knows
   that every core has begun at least k barrier calls. *)
Theorem C05_barrier_is_a_barrier :
  forall (dir : direction) (n : nat) (c0 : Z) (s : bstate) (i j : nat),
  (Z.of_nat n < 2^31)%Z -> reachable dir n c0 s -> i < n -> j < n ->
  left_ (cores s i) <= entered (cores s j).
Proof. exact barrier_safety. Qed.
Print Assumptions C05_barrier_is_a_barrier.

(* Three cores, counter about to wrap around, cores 0, 1, 2 scheduled round
   robin: core 0 gets through its barriers. *)
Definition rr (n k : nat) : list nat := flat_map (fun _ => seq 0 n) (seq 0 k).
Example C05_example :
  let s := fold_left (fun s i => act Up 3 s i) (rr 3 20) (binit (2^32 - 2)) in
  (left_ (cores s 0), entered (cores s 1), left_ (cores s 2), count (cores s 0)) = (4, 4, 4, 6%Z).
Proof. vm_compute. reflexivity. Qed.

(* Without core 2 moving, core 0 does not get through. *)
Example C05_example_blocked :
  let s := fold_left (fun s i => act Up 3 s i) (rr 2 50) (binit 1) in
  (left_ (cores s 0), entered (cores s 2)) = (0, 0).
Proof. vm_compute. reflexivity. Qed.

(* C06: if every core calls the barrier b times, every fair execution gets all
   of them through: for every schedule that gives each core infinitely many
   turns there is a time at which all cores have returned b times. *)
Theorem C06_barrier_terminates :
  forall (dir : direction) (n : nat) (c0 : Z) (b : nat) (sched : nat -> nat),
  (Z.of_nat n < 2^31)%Z ->
  (forall t, sched t < n) ->
  (forall i, i < n -> forall t, exists t', t <= t' /\ sched t' = i) ->
  exists t, forall i, i < n -> finished b (exec_sched dir n b sched c0 t) i.
Proof. exact barrier_liveness. Qed.
Print Assumptions C06_barrier_terminates.

(* The round robin schedule is fair. *)
Example C06_example : let sched := fun t => t mod 5 in
  (forall t, sched t < 5) /\
  (forall i, i < 5 -> forall t, exists t', t <= t' /\ sched t' = i).
Proof.
  split; intros; [apply Nat.mod_upper_bound; lia|].
  exists (t * 5 + i). split; [lia|]. rewrite Nat.add_comm, Nat.mod_add by lia.
  now apply Nat.mod_small.
Qed.

(* C07 fails in both directions.  First: if all other cores have already
   reached the barrier (and more), no number of MPI_Test calls gets the
   collective past it. *)
Theorem C07_poll_never_passes_refuted :
  forall (dir : direction) (n i : nat), i < n -> 1 < n ->
  forall (k fuel : nat) (mem : nat -> Z) (count : Z),
  all_arrived n i mem (wrap count) ->
  polls dir n i k fuel mem (wrap count) = false.
Proof. exact polls_never_pass. Qed.
Print Assumptions C07_poll_never_passes_refuted.

Example C07_example_arrived : all_arrived 4 1 (fun _ => 10%Z) (wrap 1).
Proof.
  intros j k Hj Hne Hk. destruct k as [|[|[|[|k]]]]; try lia; reflexivity.
Qed.

(* Second: if the partner has not yet reached the barrier, MPI_Test does not
   come back until it does. *)
Theorem C07_poll_blocks_refuted :
  forall (dir : direction) (n i : nat), i < n -> 1 < n ->
  forall (mem : nat -> Z) (count : Z),
  not_reached (mem (partner dir n i 1)) count = true ->
  forall fuel, poll_barrier dir n i fuel mem count = Stuck.
Proof. exact poll_blocks. Qed.
Print Assumptions C07_poll_blocks_refuted.

Example C07_example_not_arrived : not_reached ((fun _ => 0%Z) (partner Up 4 1 1)) 1 = true.
Proof. reflexivity. Qed.

(* The same inversion for waiting on a single slot. *)
Theorem C07_atomic_poll_refuted :
  forall (mem : nat -> Z) (count : Z) (entry : nat),
  (not_reached (mem entry) count = false ->
     forall fuel, poll_atomic fuel mem count entry = Stay mem count) /\
  (not_reached (mem entry) count = true ->
     forall fuel, poll_atomic fuel mem count entry = Stuck).
Proof. exact atomic_poll_inverted. Qed.
Print Assumptions C07_atomic_poll_refuted.
