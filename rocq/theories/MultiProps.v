(* C69: the exchange by all cores of the nodes. *)
From Coq Require Import Permutation.
From Verif Require Import Base SchedModel SchedSpec RecursiveModel RecursiveArith RecursiveSpec RecursiveProofs ReduceProofs AllreduceProofs MatchProofs CyclicModel CyclicSpec CyclicProofs CycRedModel CycRedScatter CycRedWhole CycRedInst CycRedAllInst.
From Verif Require Import RawModel RawSpec RawInst RawRepeat CoresModel CoresSpec CoresProofs CoresInst.
From Verif Require Import MultiModel MultiSpec MultiProofs.
Local Ltac Zify.zify_post_hook ::= idtac.

Theorem C69_cores_as_one : forall {V} (op : V -> V -> V) N perm c alg blocks size_of (m : nat -> @memory V),
  Permutation perm (seq 0 N) -> 0 < c -> 1 <= blocks -> same_length N alg blocks ->
  (forall k, 1 <= k < blocks -> well_matched N (fun q => nth k (alg q) empty_block)) ->
  (forall k, 1 <= k < blocks -> rotating N (fun x => nth x perm 0) (fun q => nth k (alg q) empty_block)) ->
  as_one_core op N c (fun q => blocks_code size_of N q (tl (alg q)) true) (core_exchange size_of N c perm alg) m.
Proof. exact @cores_as_one. Qed.
Print Assumptions C69_cores_as_one.

(* so the exchange follows the schedule, as in C42 *)
Theorem C69_exchange_follows_schedule : forall {V} (op : V -> V -> V) N perm c alg blocks size_of F (m : nat -> @memory V),
  Permutation perm (seq 0 N) -> 0 < c -> 1 <= blocks -> same_length N alg blocks ->
  (forall k, 1 <= k < blocks -> well_matched N (fun q => nth k (alg q) empty_block)) ->
  (forall k, 1 <= k < blocks -> rotating N (fun x => nth x perm 0) (fun q => nth k (alg q) empty_block)) ->
  fixed_layout N alg blocks F ->
  let prog := core_exchange size_of N c perm alg in
  cnever_stuck op N c prog m /\ cleaves_nothing op N c prog m /\
  ccomputes op N c prog m (fun q mm =>
    (forall n i, i < size_of (F q n) ->
       mm (cell size_of (F q) n i) = execute op N alg blocks (fun p l => m p (cell size_of (F p) l i)) q n) /\
    (forall j, mm (Sendbuf, j) = m q (Sendbuf, j)) /\ (forall j, mm (Recvbuf, j) = m q (Recvbuf, j))).
Proof.
  intros V op N perm c alg blocks size_of F m Hp Hc Hb SL WM Rot LAY prog.
  destruct (cores_as_one op N perm c alg blocks size_of m Hp Hc Hb SL WM Rot) as (A & B & C).
  split; [exact A|]. split; [exact B|]. apply C. now apply exchange_run.
Qed.
Print Assumptions C69_exchange_follows_schedule.

(* the generated schedules *)
Lemma own_numbers N blk : rotating N (fun x => x) blk -> rotating N (fun x => nth x (seq 0 N) 0) blk.
Proof. apply rotating_ext; [|reflexivity]. intros q Hq. now rewrite seq_nth. Qed.

Theorem C69_recursive_allgather : forall {V} (op : V -> V -> V) ports c size_of (m : nat -> @memory V), 0 < c ->
  let N := node_count ports in let alg := generate_recursive true ports in
  as_one_core op N c (fun q => blocks_code size_of N q (tl (alg q)) true) (core_exchange size_of N c (seq 0 N) alg) m.
Proof.
  intros V op ports c size_of m Hc N alg. apply cores_as_one with (length ports + 2); auto; [lia|apply ag_len| |].
  - intros k _. apply ag_match.
  - intros k _. apply own_numbers. exact (allgather_turning ports k).
Qed.
Print Assumptions C69_recursive_allgather.

Theorem C69_recursive_reduce_scatter : forall {V} (op : V -> V -> V) ports c size_of (m : nat -> @memory V), 0 < c ->
  nonzero ports -> (last ports 0 < 0)%Z ->
  let N := node_count ports in let alg := generate_recursive false ports in
  as_one_core op N c (fun q => blocks_code size_of N q (tl (alg q)) true) (core_exchange size_of N c (seq 0 N) alg) m.
Proof.
  intros V op ports c size_of m Hc Hz Hl N alg. apply cores_as_one with (length ports + 2); auto; [lia|now apply rs_len| |].
  - intros k _. now apply rs_match.
  - intros k _. apply own_numbers.
    apply (turning_ext _ (fun q => nth k (reduce_scatter_core ports q) empty_block)); [|exact (reduce_scatter_turning ports k Hz)].
    intros q. unfold alg. now rewrite generate_reduce_scatter.
Qed.
Print Assumptions C69_recursive_reduce_scatter.

Theorem C69_recursive_allreduce : forall {V} (op : V -> V -> V) down mid up c size_of (m : nat -> @memory V), 0 < c ->
  balanced down mid up ->
  let N := node_count (mid ++ up) in let alg := generate_recursive false (down ++ mid ++ up) in
  as_one_core op N c (fun q => blocks_code size_of N q (tl (alg q)) true) (core_exchange size_of N c (seq 0 N) alg) m.
Proof.
  intros V op down mid up c size_of m Hc B N alg.
  apply cores_as_one with (length (down ++ mid ++ up) + 2); auto.
  - lia.
  - now apply generated_allreduce_same_length.
  - intros k _. now apply generated_allreduce_matched.
  - intros k _. apply own_numbers.
    apply (turning_ext _ (fun q => nth k (allreduce_core (down ++ mid ++ up) q) empty_block)); [|exact (allreduce_turning down mid up k B)].
    intros q. unfold alg. now rewrite generate_allreduce.
Qed.
Print Assumptions C69_recursive_allreduce.

Theorem C69_cyclic_allgather : forall {V} (op : V -> V -> V) N ports c size_of (m : nat -> @memory V), 0 < c -> minimal N ports ->
  let alg := cyclic_allgather N ports in
  as_one_core op N c (fun q => blocks_code size_of N q (tl (alg q)) true) (core_exchange size_of N c (seq 0 N) alg) m.
Proof.
  intros V op N ports c size_of m Hc M alg. apply cores_as_one with (length ports + 2); auto; [lia|apply cy_len| |].
  - intros k _. now apply cy_match.
  - intros k _. apply own_numbers. now apply cyclic_turning.
Qed.
Print Assumptions C69_cyclic_allgather.

Theorem C69_cyclic_reduce_scatter : forall {V} (op : V -> V -> V) N down c size_of (m : nat -> @memory V), 0 < c -> 0 < N ->
  let alg := cyclic_reduce N down [] in
  as_one_core op N c (fun q => blocks_code size_of N q (tl (alg q)) true) (core_exchange size_of N c (seq 0 N) alg) m.
Proof.
  intros V op N down c size_of m Hc HN alg. apply cores_as_one with (length (alg 0)); auto; [apply all_nb|apply sc_len| |].
  - intros k _. now apply scatter_matched.
  - intros k _. apply own_numbers. now apply scatter_turning.
Qed.
Print Assumptions C69_cyclic_reduce_scatter.

Theorem C69_cyclic_allreduce : forall {V} (op : V -> V -> V) N down up c size_of (m : nat -> @memory V), 0 < c -> 0 < N ->
  up <> [] -> minimal N up ->
  let alg := cyclic_reduce N down up in
  as_one_core op N c (fun q => blocks_code size_of N q (tl (alg q)) true) (core_exchange size_of N c (seq 0 N) alg) m.
Proof.
  intros V op N down up c size_of m Hc HN Ne M alg. apply cores_as_one with (length (alg 0)); auto; [apply all_nb|apply ca_len| |].
  - intros k _. now apply whole_matched.
  - intros k _. apply own_numbers. now apply whole_turning.
Qed.
Print Assumptions C69_cyclic_allreduce.

(* three nodes of two cores: core 0 packs and unpacks for both, each core has one message in each direction *)
Example C69_example :
  let alg := cyclic_allgather 3 [2] in
  minimal 3 [2] /\ same_length 3 alg 3 /\
  map (core_exchange (fun _ => 1) 3 2 (seq 0 3) alg) [0; 1] =
    [[Irecv (Shm 2, 0) 1 2; Memcpy (Shm 3, 0) (Shm 0, 0) 1; Barrier; Memcpy (Shm 4, 0) (Shm 0, 0) 1; Barrier; Isend (Shm 4, 0) 1 4;
      Waitall; Barrier; Memcpy (Shm 0, 2) (Shm 1, 0) 1; Memcpy (Shm 0, 1) (Shm 2, 0) 1; Barrier; Barrier; Waitall; Barrier; Barrier; Barrier];
     [Irecv (Shm 1, 0) 1 5; Barrier; Isend (Shm 3, 0) 1 3; Barrier;
      Waitall; Barrier; Barrier; Barrier; Waitall; Barrier; Barrier; Barrier]].
Proof.
  cbv zeta. split; [|split].
  - split; [repeat constructor; lia|]. right. exists [], 2. split; [reflexivity|]. cbn. lia.
  - intros t _. apply cyclic_length.
  - vm_compute. reflexivity.
Qed.
(* the hypotheses of the general theorem *)
Example C69_hypotheses :
  let alg := cyclic_allgather 3 [2] in
  (forall k, 1 <= k < 3 -> well_matched 3 (fun q => nth k (alg q) empty_block)) /\
  (forall k, 1 <= k < 3 -> rotating 3 (fun x => nth x (seq 0 3) 0) (fun q => nth k (alg q) empty_block)) /\
  fixed_layout 3 alg 3 (fun q n => (q + n) mod 3).
Proof.
  assert (M : minimal 3 [2]) by (split; [repeat constructor; lia|]; right; exists [], 2; split; [reflexivity|cbn; lia]).
  cbv zeta. split; [|split].
  - intros k _. now apply cyclic_matched.
  - intros k _. apply own_numbers. now apply cyclic_turning.
  - intros k q n Hk Hq Hn. apply (cy_lay 3 [2]); auto. cbn. lia.
Qed.
