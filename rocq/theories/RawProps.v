(* C42-C47: the generated code of the exchange between the nodes. *)
From Verif Require Import Base SchedModel SchedSpec RecursiveModel RecursiveSpec CyclicModel CyclicSpec RawModel
  RawSpec MsgProofs PhaseProofs RawStage RawProofs RawEnd RawWhole RawInst RawRepeat.

(* ---------- C42 ---------- *)
Theorem C42_exchange_follows_schedule : forall {V} (op : V -> V -> V) N alg blocks size_of F (m : nat -> @memory V),
  1 <= blocks -> same_length N alg blocks ->
  (forall k, 1 <= k < blocks -> well_matched N (fun q => nth k (alg q) empty_block)) ->
  fixed_layout N alg blocks F ->
  let prog := fun q => blocks_code size_of N q (tl (alg q)) true in
  never_stuck op N prog m /\ leaves_nothing op N prog m /\
  computes op N prog m (fun q mm =>
    (forall n i, i < size_of (F q n) ->
       mm (cell size_of (F q) n i) = execute op N alg blocks (fun p l => m p (cell size_of (F p) l i)) q n) /\
    (forall j, mm (Sendbuf, j) = m q (Sendbuf, j)) /\ (forall j, mm (Recvbuf, j) = m q (Recvbuf, j))).
Proof. exact @exchange_run. Qed.
Print Assumptions C42_exchange_follows_schedule.

(* ---------- C43 ---------- *)
Theorem C43_execution_is_bounded : forall {V} (op : V -> V -> V) N prog (m : nat -> @memory V) n s,
  steps op N (start prog m) n s -> n <= 3 * fold_right (fun p a => length (prog p) + a) 0 (seq 0 N).
Proof. exact @steps_bound. Qed.
Print Assumptions C43_execution_is_bounded.
Theorem C43_execution_can_be_completed : forall {V} (op : V -> V -> V) N prog (m : nat -> @memory V),
  never_stuck op N prog m -> forall s, reach op N (start prog m) s ->
  exists t, reach op N s t /\ forall p, p < N -> finished t p.
Proof. exact @run_to_end. Qed.
Print Assumptions C43_execution_can_be_completed.

(* ---------- C44, C45, C46 ---------- *)
Theorem C44_allreduce_code_correct : forall {V} (op : V -> V -> V) down mid up count (m : nat -> @memory V),
  (forall a b c, op a (op b c) = op (op a b) c) -> (forall a b, op a b = op b a) ->
  balanced down mid up ->
  let N := node_count (mid ++ up) in
  let prog := fun q => allreduce_program (generate_recursive false (down ++ mid ++ up) q) count N q in
  never_stuck op N prog m /\ leaves_nothing op N prog m /\
  computes op N prog m (fun q mm => receives_only count (m q) mm (fun j => total op (fun p => m p (Sendbuf, j)) N)).
Proof. exact @allreduce_run. Qed.
Print Assumptions C44_allreduce_code_correct.

Theorem C45_allgather_code_correct : forall {V} (op : V -> V -> V) ports counts (m : nat -> @memory V),
  let N := node_count ports in
  let prog := fun q => allgather_program (generate_recursive true ports q) counts N q in
  never_stuck op N prog m /\ leaves_nothing op N prog m /\
  computes op N prog m (fun q mm =>
    receives_only (first_of counts N) (m q) mm (fun j => mm (Recvbuf, j)) /\
    forall f i, f < N -> i < counts f -> mm (Recvbuf, first_of counts f + i) = m f (Sendbuf, i)).
Proof. exact @allgather_run. Qed.
Print Assumptions C45_allgather_code_correct.

Theorem C45_cyclic_allgather_code_correct : forall {V} (op : V -> V -> V) N ports counts (m : nat -> @memory V),
  minimal N ports ->
  let prog := fun q => allgather_program (cyclic_allgather N ports q) counts N q in
  never_stuck op N prog m /\ leaves_nothing op N prog m /\
  computes op N prog m (fun q mm =>
    receives_only (first_of counts N) (m q) mm (fun j => mm (Recvbuf, j)) /\
    forall f i, f < N -> i < counts f -> mm (Recvbuf, first_of counts f + i) = m f (Sendbuf, i)).
Proof. exact @cyclic_run. Qed.
Print Assumptions C45_cyclic_allgather_code_correct.

Theorem C46_reduce_scatter_code_correct : forall {V} (op : V -> V -> V) ports counts (m : nat -> @memory V),
  (forall a b c, op a (op b c) = op (op a b) c) -> (forall a b, op a b = op b a) ->
  nonzero ports -> (last ports 0 < 0)%Z ->
  let N := node_count ports in
  let prog := fun q => reduce_scatter_program (generate_recursive false ports q) counts N q in
  never_stuck op N prog m /\ leaves_nothing op N prog m /\
  computes op N prog m (fun q mm =>
    receives_only (counts q) (m q) mm (fun j => total op (fun p => m p (Sendbuf, first_of counts q + j)) N)).
Proof. exact @reduce_scatter_run. Qed.
Print Assumptions C46_reduce_scatter_code_correct.

(* ---------- C47 ---------- *)
Theorem C47_calls_in_sequence_correct : forall {V} (op : V -> V -> V) N jobs (m : nat -> @memory V),
  (forall a b c, op a (op b c) = op (op a b) c) -> (forall a b, op a b = op b a) ->
  Forall (fun j => (forall q, q < N -> own_work (fst j q)) /\ admissible N (snd j)) jobs ->
  never_stuck op N (jobs_program N jobs) m /\ leaves_nothing op N (jobs_program N jobs) m /\
  exists new, carried_out op N jobs m new /\
    computes op N (jobs_program N jobs) m (fun q mm => forall a, mm a = new q a).
Proof. intros V op N jobs m A C. exact (jobs_run op A C N jobs m). Qed.
Print Assumptions C47_calls_in_sequence_correct.

(* ---------- the hypotheses can be met ---------- *)

(* 2 nodes, reduce-scatter and allgather step, 5 elements *)
Example C44_ports : balanced [(-1)%Z] [] [1%Z] /\ node_count ([] ++ [1%Z]) = 2.
Proof. repeat split; try (repeat constructor; fail); discriminate. Qed.
(* 6 nodes in one step each of 2 and 1 partners, the reduction undone by one step of 5 *)
Example C44_ports_6 : balanced [(-2)%Z; (-1)%Z] [] [5%Z] /\ node_count ([] ++ [5%Z]) = 6.
Proof. repeat split; try (repeat constructor; fail); discriminate. Qed.
Example C45_ports : node_count [2%Z; 1%Z] = 6 /\ minimal 5 [1; 1; 1].
Proof.
  split; [reflexivity|]. split; [repeat constructor|]. right. exists [1; 1], 1. split; [reflexivity|]. cbn. lia.
Qed.
Example C46_ports : nonzero [(-2)%Z; (-1)%Z] /\ (last [(-2)%Z; (-1)%Z] 0 < 0)%Z /\ node_count [(-2)%Z; (-1)%Z] = 6.
Proof. repeat split. repeat constructor; discriminate. Qed.
(* the code of node 0 in the first example *)
Example C44_code : allreduce_program (generate_recursive false [(-1)%Z; 1%Z] 0) 5 2 0 =
  [Barrier; Barrier; Memcpy (Shm 0, 0) (Sendbuf, 0) 3; Memcpy (Shm 0, 3) (Sendbuf, 3) 2;
   Irecv (Shm 1, 0) 3 1; Memcpy (Shm 2, 0) (Shm 0, 3) 2; Barrier; Isend (Shm 2, 0) 2 1; Waitall;
   Barrier; Memcpy (Shm 0, 5) (Shm 1, 0) 3; Barrier; Reduce_ (Shm 0, 5) (Shm 0, 0) 3; Barrier;
   Irecv (Shm 1, 0) 2 1; Memcpy (Shm 2, 0) (Shm 0, 5) 3; Barrier; Isend (Shm 2, 0) 3 1; Waitall;
   Barrier; Memcpy (Shm 0, 8) (Shm 1, 0) 2; Barrier; Barrier; Waitall; Barrier; Barrier; Barrier;
   Memcpy (Recvbuf, 0) (Shm 0, 5) 3; Memcpy (Recvbuf, 3) (Shm 0, 8) 2].
Proof. vm_compute. reflexivity. Qed.
(* an execution that runs to the end exists for every program that is never stuck *)
Example C43_end : forall (m : nat -> @memory Z),
  exists t, reach Z.add 2 (start (fun q => allreduce_program (generate_recursive false [(-1)%Z; 1%Z] q) 5 2 q) m) t /\
    forall p, p < 2 -> finished t p /\ receives_only 5 (m p) (mem (procs t p)) (fun j => (m 0%nat (Sendbuf, j) + m 1%nat (Sendbuf, j))%Z).
Proof.
  intros m. destruct (C44_allreduce_code_correct Z.add [(-1)%Z] [] [1%Z] 5 m) as (A & _ & C); [intros; lia|intros; lia|apply C44_ports|].
  destruct (C43_execution_can_be_completed Z.add 2 _ m A _ (Reach0 _ _ _)) as (t & R & F). exists t. split; [exact R|].
  intros p Hp. split; [now apply F|]. exact (C t p R Hp (F p Hp)).
Qed.
(* allreduce, then allgather of what was received, then the allreduce again *)
Example C47_jobs : let give := fun q : nat => [Memcpy (Sendbuf, 0) (Recvbuf, 0) 5] in
  Forall (fun j => (forall q, q < 2 -> own_work (fst j q)) /\ admissible 2 (snd j))
    [(fun _ => [], Allreduce [(-1)%Z] [] [1%Z] 5); (give, Allgather [1%Z] (fun _ => 5)); (give, Allreduce [(-1)%Z] [] [1%Z] 5)].
Proof.
  cbv zeta. repeat constructor; cbn; try discriminate; try (intros; repeat constructor).
Qed.
(* the schedule of the first example meets the hypotheses of C42 *)
Example C42_schedule : let alg := generate_recursive false [(-1)%Z; 1%Z] in
  same_length 2 alg 4 /\ (forall k, 1 <= k < 4 -> well_matched 2 (fun q => nth k (alg q) empty_block)) /\
  fixed_layout 2 alg 4 (fun _ n => n mod 2).
Proof.
  assert (B := proj1 C44_ports). cbv zeta. split; [|split].
  - exact (MatchProofs.generated_allreduce_same_length [(-1)%Z] [] [1%Z] B 2).
  - intros k _. exact (MatchProofs.generated_allreduce_matched [(-1)%Z] [] [1%Z] k B).
  - intros k q n Hk Hq Hn. exact (ar_lay [(-1)%Z] [] [1%Z] B k q n (proj2 Hk) Hq Hn).
Qed.
