(* C58, C59: the final code of allgather. *)
From Verif Require Import Base SchedModel SchedSpec RecursiveModel RecursiveSpec RawModel RawSpec FinalModel FinalSpec FinalRefute GatherFinalModel GatherFinalRun.

(* ---------- C58 ---------- *)
Theorem C58_final_allgather_correct : forall {V} (op : V -> V -> V) ports counts (base : nat -> nat -> nat) (alt : nat -> bool) (m : nat -> @memory V),
  let N := node_count ports in
  let alg := generate_recursive true ports in
  (forall f, f < N -> 0 < counts f) ->
  (forall q, q < N -> laid_out (base q) (allgather_program (alg q) counts N q)) ->
  exists prog, (forall q, q < N -> allgather_final ports (alg q) (base q) (alt q) counts N q = Some (prog q)) /\
  never_stuck op N prog m /\ leaves_nothing op N prog m /\
  computes op N prog m (fun q mm =>
    receives_only (first_of counts N) (m q) mm (fun j => mm (Recvbuf, j)) /\
    forall f i, f < N -> i < counts f -> mm (Recvbuf, first_of counts f + i) = m f (Sendbuf, i)).
Proof. exact @allgather_final_run. Qed.
Print Assumptions C58_final_allgather_correct.

(* ---------- C59 ---------- *)
Theorem C59_nodes_without_elements_refuted :
  ~ (forall ports counts base alt (m : nat -> @memory nat) prog,
       let N := node_count ports in
       let alg := generate_recursive true ports in
       (forall q, q < N -> laid_out (base q) (allgather_program (alg q) counts N q)) ->
       (forall q, q < N -> allgather_final ports (alg q) (base q) alt counts N q = Some (prog q)) ->
       computes Nat.add N prog m (fun q mm => forall f i, f < N -> i < counts f -> mm (Recvbuf, first_of counts f + i) = m f (Sendbuf, i))).
Proof. exact no_elements_wrong. Qed.
Print Assumptions C59_nodes_without_elements_refuted.
Theorem C59_lines_not_set_refuted :
  ~ (forall ports counts base alt,
       let N := node_count ports in
       let alg := generate_recursive true ports in
       (forall q, q < N -> laid_out (base q) (allgather_program (alg q) counts N q)) ->
       forall q, q < N -> allgather_final ports (alg q) (base q) alt counts N q <> None).
Proof. exact no_elements_unset. Qed.
Print Assumptions C59_lines_not_set_refuted.

(* ---------- examples ---------- *)
(* six nodes with 1, 2, 3, 1, 2, 3 elements: the hypotheses hold, and this is the final code of node 2 *)
Definition counts12 (q : nat) : nat := S (q mod 3).
Example laid_out_six : forall q, q < 6 -> laid_out base40 (allgather_program (generate_recursive true [1%Z; 2%Z] q) counts12 6 q).
Proof. intros q H. destruct q as [|[|[|[|[|[|]]]]]]; [laid|laid|laid|laid|laid|laid|lia]. Qed.
Example final_six : allgather_final [1%Z; 2%Z] (generate_recursive true [1%Z; 2%Z] 2) base40 false counts12 6 2 =
  Some [Irecv (Recvbuf, 6) 1 3; Isend (Sendbuf, 0) 3 3; Memcpy (Recvbuf, 3) (Sendbuf, 0) 3; Waitall;
        Irecv (Recvbuf, 0) 3 0; Irecv (Recvbuf, 7) 5 4; Isend (Recvbuf, 3) 4 4; Isend (Recvbuf, 3) 4 0; Waitall; Waitall].
Proof. vm_compute. reflexivity. Qed.
Example final_six_runs (m : nat -> @memory nat) :
  exists prog, (forall q, q < 6 -> allgather_final [1%Z; 2%Z] (generate_recursive true [1%Z; 2%Z] q) base40 false counts12 6 q = Some (prog q)) /\
  computes Nat.add 6 prog m (fun q mm => mm (Recvbuf, 3) = m 2 (Sendbuf, 0)).
Proof.
  destruct (C58_final_allgather_correct Nat.add [1%Z; 2%Z] counts12 (fun _ => base40) (fun _ => false) m) as (prog & E & _ & _ & H).
  - intros f _. unfold counts12. lia.
  - exact laid_out_six.
  - exists prog. split; [exact E|]. intros s q R Hq F. destruct (H s q R Hq F) as [_ G]. apply (G 2 0); vm_compute; lia.
Qed.
(* The final code of node 0 in the first refutation of C59. *)
Example final_without_elements : allgather_final [1%Z; 2%Z] (generate_recursive true [1%Z; 2%Z] 0) base40 false counts6 6 0 =
  Some [Irecv (Recvbuf, 7) 11 4; Irecv (Sendbuf, 0) 7 2; Waitall; Waitall; Waitall].
Proof. vm_compute. reflexivity. Qed.
