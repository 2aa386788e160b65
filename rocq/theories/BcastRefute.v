(* Broadcast from node 1 of two nodes: executing the generated code. *)
From Verif Require Import Base SchedModel SchedSpec RecursiveModel RecursiveSpec RawModel RawSpec RootModel RootSpec RootRefute BcastModel BcastSpec.

Definition cast2 (q : nat) : list instr := bcast_program (forward 2 1 (generate_recursive false [(-1)%Z; 1%Z]) 4 q) 4 2 1 q.
Definition vec2 (q : nat) : @memory nat := fun a => match fst a with Recvbuf => if q =? 1 then 100 + snd a else 0 | _ => 99 end.
Definition done2 : @system nat := go Nat.add 2 200 (start cast2 vec2).
Lemma done2_reached : reach Nat.add 2 (start cast2 vec2) done2.
Proof. apply go_reach. constructor. Qed.
Lemma done2_finished : finished done2 0.
Proof. unfold finished. vm_compute. auto. Qed.
Lemma done2_first : mem (procs done2 0) (Recvbuf, 0) = 102.
Proof. vm_compute. reflexivity. Qed.
(* node 0 ends with 102, 103, 100, 101 *)
Lemma done2_wrong : map (fun j => mem (procs done2 0) (Recvbuf, j)) [0; 1; 2; 3] = [102; 103; 100; 101].
Proof. vm_compute. reflexivity. Qed.

Lemma bcast_wrong :
  ~ (forall down mid up root count (m : nat -> @memory nat), balanced down mid up ->
       let N := node_count (mid ++ up) in
       let ports := down ++ mid ++ up in
       root < N ->
       computes Nat.add N (fun q => bcast_program (forward N root (generate_recursive false ports) (length ports + 2) q) count N root q) m
         (broadcast root count m)).
Proof.
  intros H. assert (B : balanced [(-1)%Z] [] [1%Z]) by (repeat split; try (repeat constructor; fail); discriminate).
  assert (H2 := H [(-1)%Z] [] [1%Z] 1 4 vec2 B ltac:(cbn; lia) done2 0 done2_reached ltac:(cbn; lia) done2_finished).
  unfold broadcast in H2. cbn [Nat.eqb] in H2. destruct H2 as (G & _).
  assert (G0 := G 0 ltac:(lia)). rewrite done2_first in G0. discriminate.
Qed.
