(* Claim C21: the cyclic-shift allgather. *)
From Verif Require Import Base SchedModel SchedSpec CyclicModel CyclicSpec CyclicProofs.

Theorem C21_cyclic_allgather_delivers_everything :
  forall (V : Type) (op : V -> V -> V) n ports (x : nat -> V) st,
  minimal n ports ->
  (forall t, t < n -> placed (first_block (cyclic_allgather n ports t)) (fun _ => x t) (st t)) ->
  forall t, t < n ->
    delivered (last_block (cyclic_allgather n ports t)) (fun f => f < n) x
              (execute op n (cyclic_allgather n ports) (length (cyclic_allgather n ports t)) st t).
Proof. exact (fun V => cyclic_correct). Qed.
Print Assumptions C21_cyclic_allgather_delivers_everything.

Theorem C21_cyclic_allgather_matched :
  forall n ports m, minimal n ports ->
  well_matched n (fun q => nth m (cyclic_allgather n ports q) empty_block).
Proof. exact cyclic_matched. Qed.
Print Assumptions C21_cyclic_allgather_matched.

(* 5 nodes (no product of ports plus one), two steps of 1 and 2 ports *)
Example C21_example :
  minimal 5 [1; 2] /\
  let st := fun t n => if n =? 0 then Z.of_nat t else (-1)%Z in
  map (fun t => map (execute Z.add 5 (cyclic_allgather 5 [1; 2]) 4 st t) (seq 0 5)) (seq 0 5) =
  [[0; 1; 2; 3; 4]; [1; 2; 3; 4; 0]; [2; 3; 4; 0; 1]; [3; 4; 0; 1; 2]; [4; 0; 1; 2; 3]]%Z.
Proof.
  split; [|vm_compute; reflexivity]. split; [repeat constructor|].
  right. exists [1], 2. split; [reflexivity|]. vm_compute. split; repeat constructor.
Qed.

(* Without minimality, sends and receives do not match although the steps
   reach all nodes: with 5 nodes and ports 1, 3, node 0 packs two lines for
   node 1 in the second step, but node 1 expects one. *)
Theorem C21_nonminimal_ports_refuted :
  exists n ports, Forall (fun p => 0 < p) ports /\ n <= spread ports /\
  exists m, ~ well_matched n (fun q => nth m (cyclic_allgather n ports q) empty_block).
Proof.
  exists 5, [1; 3]. split; [repeat constructor|]. split; [vm_compute; repeat constructor|].
  exists 2. intros [H _]. specialize (H 0 1 ltac:(repeat constructor) ltac:(repeat constructor) ltac:(discriminate)).
  destruct H as [H _]. vm_compute in H. discriminate.
Qed.
Print Assumptions C21_nonminimal_ports_refuted.

(* Not even the partners are nodes: with 5 nodes and ports 1, 4, node 0 sends
   to "node" -1, which stands for the user's buffer. *)
Theorem C21_nonminimal_partner_refuted :
  exists n ports t l, n <= spread ports /\ t < n /\
  In (-1)%Z (map fst (sendto (lines (nth 2 (cyclic_allgather n ports t) empty_block) l))).
Proof.
  exists 5, [1; 4], 0, 0. split; [vm_compute; repeat constructor|]. split; [repeat constructor|].
  vm_compute. tauto.
Qed.
Print Assumptions C21_nonminimal_partner_refuted.
