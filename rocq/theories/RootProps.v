(* C48-C51: collectives with a root. *)
From Verif Require Import Base SchedModel SchedSpec RecursiveModel RecursiveSpec CyclicModel CyclicSpec RawModel RawSpec
  RawInst RawRepeat RootModel RootSpec RootInst RootRefute.

(* ---------- C48 ---------- *)
Theorem C48_reduce_code_correct : forall {V} (op : V -> V -> V) down mid up root count (m : nat -> @memory V),
  (forall a b c, op a (op b c) = op (op a b) c) -> (forall a b, op a b = op b a) ->
  balanced down mid up ->
  let N := node_count (mid ++ up) in
  let ports := down ++ mid ++ up in
  root < N ->
  let prog := fun q => reduce_program (backward N root (generate_recursive false ports) (length ports + 2) q) count N root q in
  never_stuck op N prog m /\ leaves_nothing op N prog m /\ computes op N prog m (reduced_at op N root count m).
Proof. exact @reduce_run. Qed.
Print Assumptions C48_reduce_code_correct.

(* ---------- C49 ---------- *)
Theorem C49_gather_code_correct : forall {V} (op : V -> V -> V) ports root counts (m : nat -> @memory V),
  let N := node_count ports in
  root < N ->
  let prog := fun q => gather_program (backward N root (generate_recursive true ports) (length ports + 2) q) counts N root q in
  never_stuck op N prog m /\ leaves_nothing op N prog m /\ computes op N prog m (gathered_at N root counts m).
Proof. exact @gather_run. Qed.
Print Assumptions C49_gather_code_correct.

(* ---------- C50 ---------- *)
Theorem C50_cyclic_gather_refuted :
  ~ (forall N ports root counts (m : nat -> @memory nat), minimal N ports -> root < N ->
       computes Nat.add N (fun q => gather_program (backward N root (cyclic_allgather N ports) (length ports + 2) q) counts N root q) m
         (gathered_at N root counts m)).
Proof. exact cyclic_gather_wrong. Qed.
Print Assumptions C50_cyclic_gather_refuted.

(* ---------- C51 ---------- *)
Theorem C51_reduce_to_rank_refuted :
  ~ (forall down mid up rows root count (m : nat -> @memory nat), balanced down mid up -> 0 < rows ->
       let N := node_count (mid ++ up) in
       let ports := down ++ mid ++ up in
       root < N * rows ->
       computes Nat.add N (fun q => reduce_by_rank (generate_recursive false ports) (length ports + 2) count N rows root q) m
         (reduced_at Nat.add N (root / rows) count m)).
Proof. exact reduce_by_rank_wrong. Qed.
Print Assumptions C51_reduce_to_rank_refuted.
(* it holds when the number of the rank is that of its node *)
Theorem C51_reduce_to_rank_partial : forall {V} (op : V -> V -> V) down mid up rows root count (m : nat -> @memory V),
  (forall a b c, op a (op b c) = op (op a b) c) -> (forall a b, op a b = op b a) ->
  balanced down mid up -> 0 < rows ->
  let N := node_count (mid ++ up) in
  let ports := down ++ mid ++ up in
  root < N -> root / rows = root ->
  let prog := fun q => reduce_by_rank (generate_recursive false ports) (length ports + 2) count N rows root q in
  never_stuck op N prog m /\ leaves_nothing op N prog m /\ computes op N prog m (reduced_at op N (root / rows) count m).
Proof. exact @reduce_by_rank_same. Qed.
Print Assumptions C51_reduce_to_rank_partial.

(* ---------- the hypotheses can be met ---------- *)
Example C48_ports : balanced [(-2)%Z; (-1)%Z] [] [5%Z] /\ 4 < node_count ([] ++ [5%Z]).
Proof. split; [|cbn; lia]. repeat split; try (repeat constructor; fail); discriminate. Qed.
Example C49_ports : 5 < node_count [2%Z; 1%Z].
Proof. cbn. lia. Qed.
Example C50_ports : minimal 7 [1; 1; 1].
Proof. exact minimal7. Qed.
Example C51_one_core : 3 / 1 = 3 /\ 0 / 4 = 0 /\ 1 / 2 <> 1.
Proof. cbn. repeat split; discriminate. Qed.
(* two nodes, root 1: node 0 receives nothing in the second exchange *)
Example C48_code : forall c, c = reduce_program (backward 2 1 (generate_recursive false [(-1)%Z; 1%Z]) 4 0) 5 2 1 0 ->
  length (filter (fun i => match i with Irecv _ _ _ => true | _ => false end) c) = 1 /\
  length (filter (fun i => match i with Isend _ _ _ => true | _ => false end) c) = 2.
Proof. intros c ->. vm_compute. auto. Qed.
(* an execution that runs to the end exists *)
Example C48_end : forall (m : nat -> @memory Z),
  let prog := fun q => reduce_program (backward 2 1 (generate_recursive false [(-1)%Z; 1%Z]) 4 q) 5 2 1 q in
  exists t, reach Z.add 2 (start prog m) t /\ forall p, p < 2 -> finished t p /\ reduced_at Z.add 2 1 5 m p (mem (procs t p)).
Proof.
  intros m prog. destruct (C48_reduce_code_correct Z.add [(-1)%Z] [] [1%Z] 1 5 m) as (A & _ & C); try (intros; lia).
  - repeat split; try (repeat constructor; fail); discriminate.
  - cbn. lia.
  - destruct (run_to_end Z.add 2 _ m A _ (Reach0 _ _ _)) as (t & R & F). exists t. split; [exact R|].
    intros p Hp. split; [now apply F|]. exact (C t p R Hp (F p Hp)).
Qed.
