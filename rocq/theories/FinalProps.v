(* C54-C57: the code after the optimisation passes, which is what is executed. *)
From Verif Require Import Base SchedModel SchedSpec RecursiveModel RecursiveSpec RawModel RawSpec RootModel RootSpec
  FinalModel FinalSpec FinalRootModel FinalRun FinalRefute FinalInPlace.

(* ---------- C54 ---------- *)
Theorem C54_final_allreduce_correct : forall {V} (op : V -> V -> V) down mid up count (base : nat -> nat -> nat) (alt : nat -> bool) (m : nat -> @memory V),
  (forall a b c, op a (op b c) = op (op a b) c) -> (forall a b, op a b = op b a) ->
  balanced down mid up ->
  let N := node_count (mid ++ up) in
  let alg := generate_recursive false (down ++ mid ++ up) in
  (forall q, q < N -> laid_out (base q) (allreduce_program (alg q) count N q)) ->
  let prog := fun q => allreduce_final (alg q) (base q) (alt q) count N q in
  never_stuck op N prog m /\ leaves_nothing op N prog m /\
  computes op N prog m (fun q mm => receives_only count (m q) mm (fun j => total op (fun p => m p (Sendbuf, j)) N)).
Proof. exact @allreduce_final_run. Qed.
Print Assumptions C54_final_allreduce_correct.

(* ---------- C55 ---------- *)
Theorem C55_final_reduce_scatter_correct : forall {V} (op : V -> V -> V) ports counts (base : nat -> nat -> nat) (alt : nat -> bool) (m : nat -> @memory V),
  (forall a b c, op a (op b c) = op (op a b) c) -> (forall a b, op a b = op b a) ->
  nonzero ports -> (last ports 0 < 0)%Z ->
  let N := node_count ports in
  let alg := generate_recursive false ports in
  (forall q, q < N -> laid_out (base q) (reduce_scatter_program (alg q) counts N q)) ->
  let prog := fun q => reduce_scatter_final (alg q) (base q) (alt q) counts N q in
  never_stuck op N prog m /\ leaves_nothing op N prog m /\
  computes op N prog m (fun q mm =>
    receives_only (counts q) (m q) mm (fun j => total op (fun p => m p (Sendbuf, first_of counts q + j)) N)).
Proof. exact @reduce_scatter_final_run. Qed.
Print Assumptions C55_final_reduce_scatter_correct.

(* ---------- C56 ---------- *)
Theorem C56_final_allreduce_in_place_refuted :
  ~ (forall down mid up count base alt (m : nat -> @memory nat), balanced down mid up ->
       let N := node_count (mid ++ up) in
       let alg := generate_recursive false (down ++ mid ++ up) in
       (forall q, q < N -> laid_out (base q) (allreduce_program (alg q) count N q)) ->
       computes Nat.add N (fun q => in_place_code (allreduce_final (alg q) (base q) alt count N q)) m
         (fun q mm => forall j, j < count -> mm (Recvbuf, j) = total Nat.add (fun p => m p (Recvbuf, j)) N)).
Proof. exact in_place_wrong. Qed.
Print Assumptions C56_final_allreduce_in_place_refuted.
(* before the passes the same code is right in place *)
Theorem C56_in_place_before_passes_partial : forall {V} (op : V -> V -> V) down mid up count (m : nat -> @memory V),
  (forall a b c, op a (op b c) = op (op a b) c) -> (forall a b, op a b = op b a) ->
  balanced down mid up ->
  let N := node_count (mid ++ up) in
  let prog := fun q => in_place_code (allreduce_program (generate_recursive false (down ++ mid ++ up) q) count N q) in
  never_stuck op N prog m /\ leaves_nothing op N prog m /\
  computes op N prog m (fun q mm => forall j,
    (j < count -> mm (Recvbuf, j) = total op (fun p => m p (Recvbuf, j)) N) /\ (count <= j -> mm (Recvbuf, j) = m q (Recvbuf, j))).
Proof. exact @in_place_run. Qed.
Print Assumptions C56_in_place_before_passes_partial.

(* ---------- C57 ---------- *)
Theorem C57_final_reduce_refuted :
  ~ (forall down mid up root count base alt (m : nat -> @memory nat), balanced down mid up ->
       let N := node_count (mid ++ up) in
       let ports := down ++ mid ++ up in
       let alg := RootModel.backward N root (generate_recursive false ports) (length ports + 2) in
       root < N ->
       (forall q, q < N -> laid_out (base q) (reduce_lines (alg q) count N root q)) ->
       computes Nat.add N (fun q => reduce_final (alg q) (base q) alt count N root q) m (reduced_at Nat.add N root count m)).
Proof. exact reduce_final_wrong. Qed.
Print Assumptions C57_final_reduce_refuted.
Theorem C57_lines_without_passes : forall alg count num_nodes root node, 0 < num_nodes ->
  executed num_nodes (reduce_lines alg count num_nodes root node) = reduce_program alg count num_nodes root node.
Proof. exact reduce_lines_executed. Qed.
Print Assumptions C57_lines_without_passes.

(* ---------- examples ---------- *)
(* two nodes, five elements: the hypotheses hold, and this is the final code *)
Example laid_out_two : forall q, q < 2 -> laid_out base40 (allreduce_program (generate_recursive false [(-1)%Z; 1%Z] q) 5 2 q).
Proof. exact laid_allreduce2. Qed.
Example final_two : allreduce_final (generate_recursive false [(-1)%Z; 1%Z] 0) base40 false 5 2 0 =
  [Irecv (Recvbuf, 0) 3 1; Isend (Sendbuf, 3) 2 1; Waitall; Reduce_ (Recvbuf, 0) (Sendbuf, 0) 3;
   Irecv (Recvbuf, 3) 2 1; Isend (Recvbuf, 0) 3 1; Waitall; Waitall].
Proof. vm_compute. reflexivity. Qed.
Example final_two_runs (m : nat -> @memory nat) :
  let prog := fun q => allreduce_final (generate_recursive false [(-1)%Z; 1%Z] q) base40 false 5 2 q in
  computes Nat.add 2 prog m (fun q mm => receives_only 5 (m q) mm (fun j => m 0 (Sendbuf, j) + m 1 (Sendbuf, j))).
Proof.
  destruct (C54_final_allreduce_correct Nat.add [(-1)%Z] [] [1%Z] 5 (fun _ => base40) (fun _ => false) m Nat.add_assoc Nat.add_comm balanced2 laid_out_two)
    as (_ & _ & H).
  exact H.
Qed.
(* three nodes, different numbers of elements *)
Definition counts3 (q : nat) : nat := nth q [2; 0; 3] 0.
Example laid_out_three : forall q, q < 3 -> laid_out base40 (reduce_scatter_program (generate_recursive false [(-2)%Z] q) counts3 3 q).
Proof. intros q H. destruct q as [|[|[|]]]; [laid|laid|laid|lia]. Qed.
Example final_three_runs (m : nat -> @memory nat) :
  let prog := fun q => reduce_scatter_final (generate_recursive false [(-2)%Z] q) base40 false counts3 3 q in
  never_stuck Nat.add 3 prog m /\
  computes Nat.add 3 prog m (fun q mm =>
    receives_only (counts3 q) (m q) mm (fun j => total Nat.add (fun p => m p (Sendbuf, first_of counts3 q + j)) 3)).
Proof.
  destruct (C55_final_reduce_scatter_correct Nat.add [(-2)%Z] counts3 (fun _ => base40) (fun _ => false) m Nat.add_assoc Nat.add_comm
              ltac:(repeat constructor; discriminate) ltac:(reflexivity) laid_out_three) as (A & _ & H).
  split; [exact A|exact H].
Qed.
(* The final code of node 1 in the refutation of C57: the root is node 0, node 1
   receives into and reduces in its own receive buffer. *)
Example final_reduce_two : reduce2 1 =
  [Irecv (Recvbuf, 3) 2 0; Isend (Sendbuf, 0) 3 0; Waitall; Reduce_ (Recvbuf, 3) (Sendbuf, 3) 2; Isend (Recvbuf, 3) 2 0; Waitall; Waitall].
Proof. vm_compute. reflexivity. Qed.
(* In place and before the passes, two nodes. *)
Example in_place_two (m : nat -> @memory nat) :
  computes Nat.add 2 (fun q => in_place_code (allreduce_program (generate_recursive false [(-1)%Z; 1%Z] q) 5 2 q)) m
    (fun q mm => mm (Recvbuf, 0) = m 0 (Recvbuf, 0) + m 1 (Recvbuf, 0)).
Proof.
  destruct (C56_in_place_before_passes_partial Nat.add [(-1)%Z] [] [1%Z] 5 m Nat.add_assoc Nat.add_comm balanced2) as (_ & _ & H).
  intros s q R Hq F. apply (H s q R Hq F 0). lia.
Qed.
