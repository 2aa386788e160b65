From Verif Require Import Base SchedModel SchedSpec RecursiveModel RecursiveSpec AllreduceProofs MatchProofs.

(* C17: every list of port counts, every data, every initial memory *)
Theorem C17_allgather_delivers_everything :
  forall (V : Type) (op : V -> V -> V) ports (x : nat -> V) st,
  positive ports ->
  let N := node_count ports in
  (forall t, t < N -> placed (first_block (generate_recursive true ports t)) (fun _ => x t) (st t)) ->
  forall t, t < N ->
    delivered (last_block (generate_recursive true ports t)) (fun f => f < N) x
              (execute op N (generate_recursive true ports) (length (generate_recursive true ports t)) st t).
Proof. exact (fun V op ports x st _ => generated_allgather op ports x st). Qed.
Print Assumptions C17_allgather_delivers_everything.

(* 6 nodes; node t starts with 100 + t in its line t *)
Example C17_example :
  positive [1; 2]%Z /\ node_count [1; 2]%Z = 6 /\
  let alg := generate_recursive true [1; 2]%Z in
  let st := fun t n => if n =? t then 100 + t else 0 in
  map (fun t => map (execute Nat.add 6 alg 4 st t) (seq 0 6)) (seq 0 6) =
  repeat [100; 101; 102; 103; 104; 105] 6.
Proof. split; [repeat constructor|]. split; vm_compute; reflexivity. Qed.
Example C17_example_placed :
  let st := fun t n => if n =? t then 100 + t else 0 in
  forall t, t < 6 -> placed (first_block (generate_recursive true [1; 2]%Z t)) (fun _ => 100 + t) (st t).
Proof.
  cbv zeta. intros t Ht. do 6 (destruct t as [|t]; [intros n f Hn; do 6 (destruct n as [|n]; [vm_compute; congruence|]); vm_compute in Hn; lia|]). lia.
Qed.

(* C18: every list of non-zero port counts; the operation is assumed to be
   associative and commutative *)
Theorem C18_reduce_scatter_reduces_everything_once :
  forall (V : Type) (op : V -> V -> V) ports (x : nat -> nat -> V) st,
  (forall a b c, op a (op b c) = op (op a b) c) -> (forall a b, op a b = op b a) ->
  nonzero ports -> (last ports 0 < 0)%Z ->
  let N := node_count ports in
  (forall t, t < N -> placed (first_block (generate_recursive false ports t)) (x t) (st t)) ->
  forall t, t < N ->
    delivered (last_block (generate_recursive false ports t)) (fun f => f = t)
              (fun f => total op (fun k => x k f) N)
              (execute op N (generate_recursive false ports) (length (generate_recursive false ports t)) st t).
Proof. exact (fun V => generated_reduce_scatter). Qed.
Print Assumptions C18_reduce_scatter_reduces_everything_once.

(* 6 nodes; fragment f of node t is 10^t (f + 1) *)
Example C18_example :
  nonzero [-2; -1]%Z /\ (last [-2; -1] 0 < 0)%Z /\ node_count [-2; -1]%Z = 6 /\
  let alg := generate_recursive false [-2; -1]%Z in
  let st := fun t n => (10 ^ Z.of_nat t * (Z.of_nat n + 1))%Z in
  map (fun t => execute Z.add 6 alg 4 st t (6 + t)) (seq 0 6) =
  [111111; 222222; 333333; 444444; 555555; 666666]%Z.
Proof. split; [repeat constructor; discriminate|]. split; [reflexivity|]. split; vm_compute; reflexivity. Qed.
Example C18_example_placed :
  forall (x : nat -> nat -> Z) t, t < 6 -> placed (first_block (generate_recursive false [-2; -1]%Z t)) (x t) (x t).
Proof.
  intros x t Ht n f Hn E. change (first_block _) with (rs_first 6) in *.
  do 12 (destruct n as [|n]; [vm_compute in E; congruence|]). vm_compute in Hn. lia.
Qed.

(* C19: every balanced port list *)
Theorem C19_allreduce_reduces_everything_everywhere :
  forall (V : Type) (op : V -> V -> V) down mid up (x : nat -> nat -> V) st,
  (forall a b c, op a (op b c) = op (op a b) c) -> (forall a b, op a b = op b a) ->
  balanced down mid up ->
  let ports := down ++ mid ++ up in
  let N := node_count (mid ++ up) in
  (forall t, t < N -> placed (first_block (generate_recursive false ports t)) (x t) (st t)) ->
  forall t, t < N ->
    delivered (last_block (generate_recursive false ports t)) (fun f => f < N)
              (fun f => total op (fun k => x k f) N)
              (execute op N (generate_recursive false ports) (length (generate_recursive false ports t)) st t).
Proof. exact (fun V => generated_allreduce). Qed.
Print Assumptions C19_allreduce_reduces_everything_everywhere.

(* 6 nodes: split in 2, full exchange among 3, gather 2 *)
Example C19_example :
  balanced [-1]%Z [2]%Z [1]%Z /\ node_count [2; 1]%Z = 6 /\
  let alg := generate_recursive false [-1; 2; 1]%Z in
  let st := fun t n => (10 ^ Z.of_nat t * (Z.of_nat n + 1))%Z in
  map (fun t => map (execute Z.add 6 alg 5 st t) (seq 6 6)) (seq 0 6) =
  repeat [111111; 222222; 333333; 444444; 555555; 666666]%Z 6.
Proof.
  split; [repeat split; repeat constructor; discriminate|]. split; vm_compute; reflexivity.
Qed.

(* C20: each stage m of the generated schedules, all port lists *)
Theorem C20_allgather_matched :
  forall ports m, positive ports ->
  well_matched (node_count ports) (fun q => nth m (generate_recursive true ports q) empty_block).
Proof. exact (fun ports m _ => generated_allgather_matched ports m). Qed.
Print Assumptions C20_allgather_matched.
Theorem C20_reduce_scatter_matched :
  forall ports m, nonzero ports -> (last ports 0 < 0)%Z ->
  well_matched (node_count ports) (fun q => nth m (generate_recursive false ports q) empty_block).
Proof. exact generated_reduce_scatter_matched. Qed.
Print Assumptions C20_reduce_scatter_matched.
Theorem C20_allreduce_matched :
  forall down mid up m, balanced down mid up ->
  well_matched (node_count (mid ++ up)) (fun q => nth m (generate_recursive false (down ++ mid ++ up) q) empty_block).
Proof. exact generated_allreduce_matched. Qed.
Print Assumptions C20_allreduce_matched.

(* all nodes go through the same number of stages *)
Theorem C20_same_number_of_stages :
  forall ports,
  (forall N, same_length N (generate_recursive true ports) (length ports + 2)) /\
  ((last ports 0 < 0)%Z -> forall N, same_length N (generate_recursive false ports) (length ports + 2)).
Proof. exact generated_same_length. Qed.
Print Assumptions C20_same_number_of_stages.
Theorem C20_allreduce_same_number_of_stages :
  forall down mid up, balanced down mid up ->
  forall N, same_length N (generate_recursive false (down ++ mid ++ up)) (length (down ++ mid ++ up) + 2).
Proof. exact generated_allreduce_same_length. Qed.
Print Assumptions C20_allreduce_same_number_of_stages.

(* not vacuous: in stage 1 of the 6-node reduce-scatter, node 0 sends lines to node 2 *)
Example C20_example :
  let blk := fun q => nth 1 (generate_recursive false [-2; -1]%Z q) empty_block in
  sent_lines blk 0 2 = [2; 3] /\ recv_lines blk 2 0 = [20; 21] /\ sent_lines blk 0 1 = [].
Proof. split; [|split]; vm_compute; reflexivity. Qed.
