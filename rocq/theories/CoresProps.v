(* C68: the messages of a node, shared out among its cores. *)
From Coq Require Import Permutation.
From Verif Require Import Base SchedModel SchedSpec PermModel RecursiveModel RecursiveArith RecursiveSpec RecursiveProofs ReduceProofs AllreduceProofs MatchProofs CyclicModel CyclicSpec CyclicProofs CycRedModel CycRedScatter CycRedWhole.
From Verif Require Import CoresModel CoresSpec CoresProofs CoresInst.

(* Core k mod c of node k / c *)
Definition cores_of (N : nat) (perm : list nat) (c : nat) (blk : nat -> block) : nat -> block :=
  fun k => tasks_node N perm (k / c) c (k mod c) (blk (k / c)).

Theorem C68_cores_agree : forall N perm c blk, Permutation perm (seq 0 N) -> 0 < c ->
  well_matched N blk -> rotating N (fun x => nth x perm 0) blk -> shared_out N c blk (cores_of N perm c blk).
Proof. intros N perm c blk Hp Hc W R. exact (cores_agree N perm Hp c Hc blk W R). Qed.
Print Assumptions C68_cores_agree.

Theorem C68_ranks_matched : forall N c blk cb, 0 < c -> well_matched N blk -> shared_out N c blk cb ->
  forall a b, a < N * c -> b < N * c -> a / c <> b / c ->
  map (fun n => frac (lines (cb a) n)) (sent_lines cb a b) = map (fun n => frac (lines (cb b) n)) (recv_lines cb b a).
Proof. exact ranks_matched. Qed.
Print Assumptions C68_ranks_matched.

(* all stages of all generated schedules *)
Theorem C68_recursive_allgather : forall ports c m, 0 < c ->
  let blk q := nth m (generate_recursive true ports q) empty_block in
  shared_out (node_count ports) c blk (cores_of (node_count ports) (seq 0 (node_count ports)) c blk).
Proof. intros ports c m Hc. apply cores_agree_id; [assumption|exact (generated_allgather_matched ports m)|exact (allgather_turning ports m)]. Qed.
Print Assumptions C68_recursive_allgather.

Theorem C68_recursive_reduce_scatter : forall ports c m, 0 < c -> nonzero ports -> (last ports 0 < 0)%Z ->
  let blk q := nth m (generate_recursive false ports q) empty_block in
  shared_out (node_count ports) c blk (cores_of (node_count ports) (seq 0 (node_count ports)) c blk).
Proof.
  intros ports c m Hc Hz Hl. apply cores_agree_id; [assumption|now apply generated_reduce_scatter_matched|].
  apply (turning_ext _ (fun q => nth m (reduce_scatter_core ports q) empty_block)); [|exact (reduce_scatter_turning ports m Hz)].
  intros q. now rewrite generate_reduce_scatter.
Qed.
Print Assumptions C68_recursive_reduce_scatter.

Theorem C68_recursive_allreduce : forall down mid up c m, 0 < c -> balanced down mid up ->
  let blk q := nth m (generate_recursive false (down ++ mid ++ up) q) empty_block in
  shared_out (node_count (mid ++ up)) c blk (cores_of (node_count (mid ++ up)) (seq 0 (node_count (mid ++ up))) c blk).
Proof.
  intros down mid up c m Hc B. apply cores_agree_id; [assumption|now apply generated_allreduce_matched|].
  apply (turning_ext _ (fun q => nth m (allreduce_core (down ++ mid ++ up) q) empty_block)); [|exact (allreduce_turning down mid up m B)].
  intros q. now rewrite generate_allreduce.
Qed.
Print Assumptions C68_recursive_allreduce.

Theorem C68_cyclic_allgather : forall n ports c m, 0 < c -> minimal n ports ->
  let blk q := nth m (cyclic_allgather n ports q) empty_block in
  shared_out n c blk (cores_of n (seq 0 n) c blk).
Proof. intros n ports c m Hc M. apply cores_agree_id; [assumption|now apply cyclic_matched|now apply cyclic_turning]. Qed.
Print Assumptions C68_cyclic_allgather.

Theorem C68_cyclic_reduce_scatter : forall N down c m, 0 < c -> 0 < N ->
  let blk q := nth m (cyclic_reduce N down [] q) empty_block in
  shared_out N c blk (cores_of N (seq 0 N) c blk).
Proof. intros N down c m Hc HN. apply cores_agree_id; [assumption|now apply scatter_matched|now apply scatter_turning]. Qed.
Print Assumptions C68_cyclic_reduce_scatter.

Theorem C68_cyclic_allreduce : forall N down up c m, 0 < c -> 0 < N -> up <> [] -> minimal N up ->
  let blk q := nth m (cyclic_reduce N down up q) empty_block in
  shared_out N c blk (cores_of N (seq 0 N) c blk).
Proof. intros N down up c m Hc HN Ne M. apply cores_agree_id; [assumption|now apply whole_matched|now apply whole_turning]. Qed.
Print Assumptions C68_cyclic_allreduce.

(* After rank_permutation.c the nodes have other numbers: fine if the permutation is its own inverse... *)
Theorem C68_permuted : forall perm N c blk, Permutation perm (seq 0 N) -> 0 < c ->
  well_matched N blk -> rotating N (fun x => x) blk -> (forall x, x < N -> nth (nth x perm 0) perm 0 = x) ->
  let moved s := permute_block perm (blk (fst (forward perm (s, [])))) in
  shared_out N c moved (cores_of N perm c moved).
Proof. intros perm N c blk Hp Hc W T I. exact (moved_agree perm N Hp blk W c Hc T I). Qed.
Print Assumptions C68_permuted.

(* ...but in general it is not: with two cores per node, a rank sends to one that does not expect anything from it. *)
Lemma stable_run_1112 : chosen stable [1; 1; 1; 2]%Z [1; 2; 0; 3].
Proof.
  unfold chosen. cbn [existsb nth Z.eqb Pos.eqb negb orb].
  exists (round 2 [1; 0] (round 4 [0; 1; 2; 3] (start [1; 1; 1; 2]%Z))). split; [|reflexivity].
  apply round_more with [0; 1; 2; 3]; [| |cbn; lia|].
  - split; [reflexivity|]. intros i j H.
    assert (C : i < 4 /\ j < 4) by (cbn in H; lia). destruct C as [Ci Cj]. revert H.
    do 4 (destruct i as [|i]; [do 4 (destruct j as [|j]; [intros H; try (exfalso; lia); vm_compute; discriminate|]); exfalso; lia|]); exfalso; lia.
  - intros i j H _.
    assert (C : i < 4 /\ j < 4) by (cbn in H; lia). destruct C as [Ci Cj]. revert H.
    do 4 (destruct i as [|i]; [do 4 (destruct j as [|j]; [intros H; try (exfalso; lia); vm_compute; lia|]); exfalso; lia|]); exfalso; lia.
  - apply round_last; [| |cbn; lia].
    + split; [apply perm_swap|]. intros i j H.
      assert (C : i = 0 /\ j = 1) by (cbn in H; lia). destruct C as [-> ->]; vm_compute; discriminate.
    + intros i j H. assert (C : i = 0 /\ j = 1) by (cbn in H; lia). destruct C as [-> ->]; vm_compute; discriminate.
Qed.

Theorem C68_permuted_refuted : exists sizes perm ports c m a b,
  let N := length sizes in
  let moved s := permute_block perm (nth m (cyclic_allgather N ports (fst (forward perm (s, [])))) empty_block) in
  chosen stable sizes perm /\ minimal N ports /\ 0 < c /\ well_matched N moved /\
  a < N * c /\ b < N * c /\
  sent_lines (cores_of N perm c moved) a b <> [] /\ recv_lines (cores_of N perm c moved) b a = [].
Proof.
  exists [1; 1; 1; 2]%Z, [1; 2; 0; 3], [2; 1], 2, 1, 5, 3. cbv zeta.
  assert (M : minimal 4 [2; 1]).
  { split; [repeat constructor; lia|]. right. exists [2], 1. split; [reflexivity|]. cbn. lia. }
  split; [exact stable_run_1112|]. split; [exact M|]. split; [lia|]. split.
  { refine (PermProofs.permuted_matched [1; 2; 0; 3] 4 _ (fun q => nth 1 (cyclic_allgather 4 [2; 1] q) empty_block) (cyclic_matched 4 [2; 1] 1 M)).
    apply (PermProofs.chosen_perm [1; 1; 1; 2]%Z); [repeat constructor; discriminate|exact stable_run_1112]. }
  split; [cbn; lia|]. split; [cbn; lia|]. split; [vm_compute; discriminate|vm_compute; reflexivity].
Qed.
Print Assumptions C68_permuted_refuted.

(* two cores on each of five nodes, three of which are reached in the first stage *)
Example C68_example :
  let blk q := nth 1 (cyclic_allgather 5 [3; 1] q) empty_block in
  well_matched 5 blk /\ rotating 5 (fun x => nth x (seq 0 5) 0) blk /\
  map (fun k => sendto (lines (cores_of 5 (seq 0 5) 2 blk k) 0)) [0; 1] =
    [[(8%Z, 0); ((-16)%Z, 0); (4%Z, 0)]; [((-19)%Z, 0); (7%Z, 0); ((-15)%Z, 0)]] /\
  map (fun k => recvfrom (lines (cores_of 5 (seq 0 5) 2 blk k) 2)) [4; 5] = [[((-18)%Z, 0)]; [(9%Z, 0)]].
Proof.
  assert (M : minimal 5 [3; 1]).
  { split; [repeat constructor; lia|]. right. exists [3], 1. split; [reflexivity|]. cbn. lia. }
  cbv zeta. split; [exact (cyclic_matched 5 [3; 1] 1 M)|]. split.
  - generalize (cyclic_turning 5 [3; 1] 1 M). apply rotating_ext; [|reflexivity]. intros q Hq. now rewrite seq_nth.
  - split; vm_compute; reflexivity.
Qed.
(* a permutation that is its own inverse *)
Example C68_permuted_example :
  Permutation [2; 1; 0; 3] (seq 0 4) /\ (forall x, x < 4 -> nth (nth x [2; 1; 0; 3] 0) [2; 1; 0; 3] 0 = x) /\
  rotating 4 (fun x => x) (fun q => nth 1 (cyclic_allgather 4 [2; 1] q) empty_block).
Proof.
  split; [|split].
  - apply NoDup_Permutation; [repeat constructor; cbn; lia|apply seq_NoDup|]. intros x. cbn. lia.
  - intros x Hx. do 4 (destruct x as [|x]; [reflexivity|]). lia.
  - apply cyclic_turning. split; [repeat constructor; lia|]. right. exists [2], 1. split; [reflexivity|]. cbn. lia.
Qed.
