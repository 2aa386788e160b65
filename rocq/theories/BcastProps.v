(* C52, C53: broadcast. *)
From Verif Require Import Base SchedModel SchedSpec RecursiveModel RecursiveSpec RawModel RawSpec
  RawInst RawRepeat RootModel RootSpec BcastModel BcastSpec BcastInst BcastRefute.

(* ---------- C52 ---------- *)
Theorem C52_bcast_code_correct : forall {V} (op : V -> V -> V) down mid up root count (m : nat -> @memory V),
  balanced down mid up ->
  let N := node_count (mid ++ up) in
  let ports := down ++ mid ++ up in
  root < N -> root = 0 \/ count <= root ->
  let prog := fun q => bcast_program (forward N root (generate_recursive false ports) (length ports + 2) q) count N root q in
  never_stuck op N prog m /\ leaves_nothing op N prog m /\ computes op N prog m (broadcast root count m).
Proof. exact @bcast_fits. Qed.
Print Assumptions C52_bcast_code_correct.

(* For every root the vector arrives shifted by the elements that belong to the nodes in front of the root. *)
Theorem C52_bcast_code_effect : forall {V} (op : V -> V -> V) down mid up root count (m : nat -> @memory V),
  balanced down mid up ->
  let N := node_count (mid ++ up) in
  let ports := down ++ mid ++ up in
  root < N ->
  let prog := fun q => bcast_program (forward N root (generate_recursive false ports) (length ports + 2) q) count N root q in
  never_stuck op N prog m /\ leaves_nothing op N prog m /\
  computes op N prog m (broadcast_by (root * (count / N) + Nat.min root (count mod N)) root count m).
Proof. exact @bcast_shifted. Qed.
Print Assumptions C52_bcast_code_effect.

(* ---------- C53 ---------- *)
Theorem C53_bcast_any_root_refuted :
  ~ (forall down mid up root count (m : nat -> @memory nat), balanced down mid up ->
       let N := node_count (mid ++ up) in
       let ports := down ++ mid ++ up in
       root < N ->
       computes Nat.add N (fun q => bcast_program (forward N root (generate_recursive false ports) (length ports + 2) q) count N root q) m
         (broadcast root count m)).
Proof. exact bcast_wrong. Qed.
Print Assumptions C53_bcast_any_root_refuted.

(* It is never right otherwise: if the elements at the root differ, every node ends with a wrong element at every place. *)
Theorem C53_bcast_never_right : forall {V} (op : V -> V -> V) down mid up root count (m : nat -> @memory V),
  balanced down mid up ->
  let N := node_count (mid ++ up) in
  let ports := down ++ mid ++ up in
  root < N -> 0 < root < count ->
  (forall i j, i < count -> j < count -> i <> j -> m root (Recvbuf, i) <> m root (Recvbuf, j)) ->
  let prog := fun q => bcast_program (forward N root (generate_recursive false ports) (length ports + 2) q) count N root q in
  never_stuck op N prog m /\
  computes op N prog m (fun q new => q <> root -> forall j, j < count -> new (Recvbuf, j) <> m root (Recvbuf, j)).
Proof. exact @bcast_fails. Qed.
Print Assumptions C53_bcast_never_right.

(* ---------- the hypotheses can be met ---------- *)
Example C52_ports : balanced [(-2)%Z; (-1)%Z] [] [5%Z] /\ 0 < node_count ([] ++ [5%Z]).
Proof. split; [|cbn; lia]. repeat split; try (repeat constructor; fail); discriminate. Qed.
Example C53_ports : balanced [] [1%Z; 2%Z] [] /\ 4 < node_count ([1%Z; 2%Z] ++ []) /\ 0 < 4 < 10.
Proof. split; [|cbn; lia]. repeat split; try (repeat constructor; fail); discriminate. Qed.
Example C53_distinct : exists m : nat -> @memory nat, forall i j, i < 10 -> j < 10 -> i <> j -> m 4 (Recvbuf, i) <> m 4 (Recvbuf, j).
Proof. exists (fun _ a => snd a). auto. Qed.
(* two nodes, root 0: node 0 receives nothing in the first exchange; in the second both halves go around *)
Example C52_code : forall c, c = (fun q => bcast_program (forward 2 0 (generate_recursive false [(-1)%Z; 1%Z]) 4 q) 5 2 0 q) ->
  let sends q := length (filter (fun i => match i with Isend _ _ _ => true | _ => false end) (c q)) in
  let receives q := length (filter (fun i => match i with Irecv _ _ _ => true | _ => false end) (c q)) in
  sends 0 = 2 /\ receives 0 = 1 /\ sends 1 = 1 /\ receives 1 = 2.
Proof. intros c ->. vm_compute. auto. Qed.
(* an execution that runs to the end exists *)
Example C52_end : forall (m : nat -> @memory Z),
  let prog := fun q => bcast_program (forward 2 0 (generate_recursive false [(-1)%Z; 1%Z]) 4 q) 5 2 0 q in
  exists t, reach Z.add 2 (start prog m) t /\ forall p, p < 2 -> finished t p /\ broadcast 0 5 m p (mem (procs t p)).
Proof.
  intros m prog. destruct (C52_bcast_code_correct Z.add [(-1)%Z] [] [1%Z] 0 5 m) as (A & _ & C); auto.
  - repeat split; try (repeat constructor; fail); discriminate.
  - cbn. lia.
  - destruct (run_to_end Z.add 2 _ m A _ (Reach0 _ _ _)) as (t & R & F). exists t. split; [exact R|].
    intros p Hp. split; [now apply F|]. exact (C t p R Hp (F p Hp)).
Qed.
