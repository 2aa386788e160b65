(* C62, C63: the cyclic allreduce *)
From Verif Require Import Base SchedModel SchedSpec CyclicSpec CycRedModel RawModel RawSpec CycRedAllInst.

(* ---------- C62: the schedule ---------- *)
Theorem C62_cyclic_allreduce_correct : forall {V} (op : V -> V -> V) N down up (x st : nat -> nat -> V),
  (forall a b c, op a (op b c) = op (op a b) c) -> (forall a b, op a b = op b a) ->
  minimal N up ->
  (forall t, t < N -> placed (first_block (cyclic_reduce N down up t)) (x t) (st t)) ->
  forall t, t < N ->
    delivered (last_block (cyclic_reduce N down up t)) (fun f => f < N) (fun f => total op (fun k => x k f) N)
      (execute op N (cyclic_reduce N down up) (length (cyclic_reduce N down up t)) st t).
Proof. exact @cyclic_allreduce_correct. Qed.
Print Assumptions C62_cyclic_allreduce_correct.

Theorem C62_cyclic_allreduce_matched : forall N down up, minimal N up -> forall m,
  well_matched N (fun q => nth m (cyclic_reduce N down up q) empty_block).
Proof. exact all_matched. Qed.
Print Assumptions C62_cyclic_allreduce_matched.

(* the array lines_used has as many entries as the last block has lines *)
Theorem C62_lines_used_in_bounds : forall N down up t, minimal N up -> up <> [] -> t < N ->
  let first := cr_first N t in
  let middle := last (cr_down N N N down t first) first in
  let us := cr_up N (fold_left shrink down N) 1 up t middle in
  let NL := num_lines (cr_last (num_lines (last us middle)) (last us middle)) in
  forall b n, In b us -> n < num_lines b ->
    n < NL /\ Forall (fun e => snd e < NL) (sendto (lines b n)) /\
    Forall (fun r => r < NL) (firstn 1 (reducefrom (lines b n)) ++ firstn 1 (map snd (recvfrom (lines b n)))).
Proof. exact lines_used_bounds. Qed.
Print Assumptions C62_lines_used_in_bounds.

(* with ports that reach too far delete_lines looks up a line, 5, behind the
   last one, 4, in lines_used (line 47) *)
Theorem C62_lines_used_out_of_bounds_refuted : exists N down up t,
  Forall (fun p => 0 < p) up /\ N <= spread up /\ t < N /\
  let first := cr_first N t in
  let middle := last (cr_down N N N down t first) first in
  let us := cr_up N (fold_left shrink down N) 1 up t middle in
  let NL := num_lines (cr_last (num_lines (last us middle)) (last us middle)) in
  exists b n, In b us /\ n < num_lines b /\ cr_used us (cr_last NL (last us middle)) n = true /\
    ~ Forall (fun e => snd e < NL) (sendto (lines b n)).
Proof.
  exists 5, [4], [1; 3], 0. split; [repeat constructor|]. split; [cbn; lia|]. split; [lia|]. cbv zeta.
  eexists _, 1. split; [right; right; now left|]. split; [cbn; lia|]. split; [vm_compute; reflexivity|].
  intros H. rewrite Forall_forall in H. specialize (H (1%Z, 5)). vm_compute in H. specialize (H (or_intror (or_introl eq_refl))). lia.
Qed.
Print Assumptions C62_lines_used_out_of_bounds_refuted.

(* ---------- C63: the code ---------- *)
Theorem C63_cyclic_allreduce_code_correct : forall {V} (op : V -> V -> V),
  (forall a b c, op a (op b c) = op (op a b) c) -> (forall a b, op a b = op b a) ->
  forall N down up, minimal N up -> forall count (m : nat -> @memory V),
  let prog := fun q => allreduce_program (cyclic_reduce N down up q) count N q in
  never_stuck op N prog m /\ leaves_nothing op N prog m /\
  computes op N prog m (fun q mm => receives_only count (m q) mm (fun j => total op (fun p => m p (Sendbuf, j)) N)).
Proof. exact @cyclic_allreduce_run. Qed.
Print Assumptions C63_cyclic_allreduce_code_correct.

(* ---------- the hypotheses can be met ---------- *)

(* 5 nodes: one step with 1 partner back, then steps with 1, 1 and 1 *)
Example C62_ports : minimal 5 [1; 1; 1] /\ minimal 5 [1; 2] /\ minimal 1 [].
Proof.
  split; [|split].
  - split; [repeat constructor|]. right. exists [1; 1], 1. split; [reflexivity|]. cbn. lia.
  - split; [repeat constructor|]. right. exists [1], 2. split; [reflexivity|]. cbn. lia.
  - split; [constructor|]. now left.
Qed.
Example C62_placed : forall x : nat -> nat -> Z,
  let st := fun t n => x t ((n + t) mod 5) in
  forall t, t < 5 -> placed (first_block (cyclic_reduce 5 [1] [1; 1; 1] t)) (x t) (st t).
Proof.
  intros x st t Ht n f Hn I. unfold st. cbn in I. injection I as <-. reflexivity.
Qed.
(* of the 15 lines of the last blocks 13 are kept *)
Example C62_lines : map num_lines (cyclic_reduce 5 [1] [1; 1; 1] 1) = [5; 7; 7; 6; 6; 10; 10; 13; 13; 13].
Proof. vm_compute. reflexivity. Qed.
(* the code of node 1 of 3 *)
Example C63_code : allreduce_program (cyclic_reduce 3 [1] [2] 1) 4 3 1 =
  [Barrier; Barrier; Memcpy (Shm 0, 0) (Sendbuf, 2) 1; Memcpy (Shm 0, 1) (Sendbuf, 3) 1; Memcpy (Shm 0, 2) (Sendbuf, 0) 2;
   Irecv (Shm 1, 0) 1 2; Memcpy (Shm 2, 0) (Shm 0, 2) 2; Barrier; Isend (Shm 2, 0) 2 0; Waitall; Barrier;
   Memcpy (Shm 0, 4) (Shm 1, 0) 1; Barrier; Barrier; Waitall; Barrier; Barrier; Reduce_ (Shm 0, 0) (Shm 0, 4) 1; Barrier;
   Irecv (Shm 1, 0) 3 0; Irecv (Shm 2, 0) 3 2; Memcpy (Shm 3, 0) (Shm 0, 0) 1; Memcpy (Shm 3, 1) (Shm 0, 1) 1; Barrier;
   Isend (Shm 3, 0) 2 2; Memcpy (Shm 4, 0) (Shm 0, 0) 1; Memcpy (Shm 4, 1) (Shm 0, 1) 1; Barrier; Isend (Shm 4, 0) 2 0;
   Waitall; Barrier; Memcpy (Shm 0, 5) (Shm 1, 0) 3; Memcpy (Shm 0, 2) (Shm 2, 0) 3; Barrier; Barrier; Waitall; Barrier;
   Barrier; Reduce_ (Shm 0, 2) (Shm 0, 1) 1; Reduce_ (Shm 0, 5) (Shm 0, 3) 2; Reduce_ (Shm 0, 7) (Shm 0, 0) 1; Barrier;
   Waitall; Barrier; Barrier; Barrier; Memcpy (Recvbuf, 3) (Shm 0, 2) 1; Memcpy (Recvbuf, 0) (Shm 0, 5) 2;
   Memcpy (Recvbuf, 2) (Shm 0, 7) 1].
Proof. vm_compute. reflexivity. Qed.
