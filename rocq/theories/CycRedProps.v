(* C60, C61: the cyclic reduce_scatter *)
From Verif Require Import Base SchedModel SchedSpec CyclicSpec CycRedModel CycRedScatter RawModel RawSpec CycRedInst.

(* ---------- C60: the schedule ---------- *)
Theorem C60_cyclic_reduce_scatter_correct : forall {V} (op : V -> V -> V) N down (x st : nat -> nat -> V),
  (forall a b c, op a (op b c) = op (op a b) c) -> (forall a b, op a b = op b a) ->
  0 < N -> N <= spread down ->
  (forall t, t < N -> placed (first_block (cyclic_reduce N down [] t)) (x t) (st t)) ->
  forall t, t < N ->
    delivered (last_block (cyclic_reduce N down [] t)) (fun f => f = t) (fun f => total op (fun k => x k f) N)
      (execute op N (cyclic_reduce N down []) (length (cyclic_reduce N down [] t)) st t).
Proof. exact @cyclic_scatter_correct. Qed.
Print Assumptions C60_cyclic_reduce_scatter_correct.

Theorem C60_cyclic_reduce_scatter_matched : forall N down m, 0 < N ->
  well_matched N (fun q => nth m (cyclic_reduce N down [] q) empty_block).
Proof. exact scatter_matched. Qed.
Print Assumptions C60_cyclic_reduce_scatter_matched.

(* ---------- C61: the code ---------- *)
Theorem C61_cyclic_reduce_scatter_code_correct : forall {V} (op : V -> V -> V),
  (forall a b c, op a (op b c) = op (op a b) c) -> (forall a b, op a b = op b a) ->
  forall N down, 0 < N -> N <= spread down -> forall counts (m : nat -> @memory V),
  let prog := fun q => reduce_scatter_program (cyclic_reduce N down [] q) counts N q in
  never_stuck op N prog m /\ leaves_nothing op N prog m /\
  computes op N prog m (fun q mm =>
    receives_only (counts q) (m q) mm (fun j => total op (fun p => m p (Sendbuf, first_of counts q + j)) N)).
Proof. exact @cyclic_scatter_run. Qed.
Print Assumptions C61_cyclic_reduce_scatter_code_correct.

(* ---------- the hypotheses can be met ---------- *)

(* 5 nodes, a step with 1 and one with 2 partners *)
Example C60_ports : 0 < 5 /\ 5 <= spread [1; 2].
Proof. cbn. lia. Qed.
(* what the nodes start with can be placed *)
Example C60_placed : forall x : nat -> nat -> Z,
  let st := fun t n => x t ((n + t) mod 5) in
  forall t, t < 5 -> placed (first_block (cyclic_reduce 5 [1; 2] [] t)) (x t) (st t).
Proof.
  intros x st t Ht n f Hn I. unfold st. cbn in I. injection I as <-. reflexivity.
Qed.
(* the first step of node 3: its lines 3 and 4 go to node 1 *)
Example C60_first_step :
  map (fun n => sendto (lines (nth 1 (cyclic_reduce 5 [1; 2] [] 3) empty_block) n)) (seq 0 7) =
  [[]; []; []; [(1%Z, 0)]; [(1%Z, 1)]; []; []].
Proof. reflexivity. Qed.
(* with too few ports more than one fragment is left *)
Example C60_too_few : output_line (last_block (cyclic_reduce 3 [1] [] 0)) 1 = Some 1.
Proof. reflexivity. Qed.
(* the code of node 0 of 3; the fragments have 2, 1 and 0 elements *)
Example C61_code : reduce_scatter_program (cyclic_reduce 3 [2] [] 0) (fun f => 2 - f) 3 0 =
  [Barrier; Barrier; Memcpy (Shm 0, 0) (Sendbuf, 0) 2; Memcpy (Shm 0, 2) (Sendbuf, 2) 1; Irecv (Shm 1, 0) 2 2;
   Irecv (Shm 2, 0) 2 1; Memcpy (Shm 3, 0) (Shm 0, 2) 1; Barrier; Isend (Shm 3, 0) 1 1; Waitall; Barrier;
   Memcpy (Shm 0, 3) (Shm 1, 0) 2; Memcpy (Shm 0, 5) (Shm 2, 0) 2; Barrier; Barrier; Waitall; Barrier; Barrier;
   Reduce_ (Shm 0, 0) (Shm 0, 3) 2; Reduce_ (Shm 0, 0) (Shm 0, 5) 2; Barrier; Waitall; Barrier; Barrier; Barrier;
   Memcpy (Recvbuf, 0) (Shm 0, 0) 2].
Proof. vm_compute. reflexivity. Qed.
