(* Claim C23: the rank permutation. *)
From Coq Require Import Permutation.
From Verif Require Import Base SchedModel SchedSpec PermModel PermProofs RecursiveModel MatchProofs.

(* With a stable sort the permutation is one, for all message sizes. *)
Theorem C23_permutation_with_stable_sort :
  forall sizes perm, Forall (fun s => (0 <= s)%Z) sizes -> chosen stable sizes perm ->
  Permutation perm (seq 0 (length sizes)).
Proof. exact chosen_perm. Qed.
Print Assumptions C23_permutation_with_stable_sort.

(* qsort need not be stable: then a rank may be lost. *)
Theorem C23_permutation_refuted :
  exists sizes perm, Forall (fun s => (0 <= s)%Z) sizes /\ chosen (fun _ _ _ => True) sizes perm /\
  ~ Permutation perm (seq 0 (length sizes)).
Proof.
  exists [5; 0; 3]%Z, [0; 0; 2]. split; [repeat constructor; discriminate|]. split.
  - unfold chosen. cbn [existsb nth Z.eqb Pos.eqb negb orb].
    exists (round 2 [0; 1] (round 3 [1; 0; 2] (start [5; 0; 3]%Z))). split; [|reflexivity].
    apply round_more with [1; 0; 2]; [|exact I|cbn; lia|].
    + split; [apply perm_swap|]. intros i j H.
      assert (C : (i = 0 /\ j = 1) \/ (i = 0 /\ j = 2) \/ (i = 1 /\ j = 2)) by (cbn in H; lia).
      destruct C as [[-> ->]|[[-> ->]|[-> ->]]]; vm_compute; discriminate.
    + apply round_last; [|exact I|cbn; lia].
      split; [reflexivity|]. intros i j H.
      assert (C : i = 0 /\ j = 1) by (cbn in H; lia). destruct C as [-> ->]; vm_compute; discriminate.
  - intros H. apply Permutation_sym in H. apply (Permutation_in 1) in H; [|cbn; tauto].
    cbn in H. intuition discriminate.
Qed.
Print Assumptions C23_permutation_refuted.

(* The backward pass restores the parameters. *)
Theorem C23_round_trip :
  forall perm n s sizes, Permutation perm (seq 0 n) -> s < n -> length sizes = n ->
  backward perm (forward perm (s, sizes)) = (s, sizes).
Proof. exact (fun perm n s sizes H => round_trip perm n H s sizes). Qed.
Print Assumptions C23_round_trip.

(* The schedule of the permuted nodes, moved back, still matches. *)
Theorem C23_permuted_schedule_matched :
  forall perm n (blk : nat -> block), Permutation perm (seq 0 n) -> well_matched n blk ->
  well_matched n (fun s => permute_block perm (blk (fst (forward perm (s, []))))).
Proof. exact (fun perm n blk H => permuted_matched perm n H blk). Qed.
Print Assumptions C23_permuted_schedule_matched.

Lemma stable_run_311 : chosen stable [3; 1; 1]%Z [1; 2; 0].
Proof.
  unfold chosen. cbn [existsb nth Z.eqb Pos.eqb negb orb].
  exists (round 2 [1; 0] (round 3 [0; 1; 2] (start [3; 1; 1]%Z))). split; [|reflexivity].
  apply round_more with [0; 1; 2]; [| |cbn; lia|].
  - split; [reflexivity|]. intros i j H.
    assert (C : (i = 0 /\ j = 1) \/ (i = 0 /\ j = 2) \/ (i = 1 /\ j = 2)) by (cbn in H; lia).
    destruct C as [[-> ->]|[[-> ->]|[-> ->]]]; vm_compute; discriminate.
  - intros i j H _.
    assert (C : (i = 0 /\ j = 1) \/ (i = 0 /\ j = 2) \/ (i = 1 /\ j = 2)) by (cbn in H; lia).
    destruct C as [[-> ->]|[[-> ->]|[-> ->]]]; vm_compute; lia.
  - apply round_last; [| |cbn; lia].
    + split; [apply perm_swap|]. intros i j H.
      assert (C : i = 0 /\ j = 1) by (cbn in H; lia). destruct C as [-> ->]; vm_compute; discriminate.
    + intros i j H. assert (C : i = 0 /\ j = 1) by (cbn in H; lia). destruct C as [-> ->]; vm_compute; discriminate.
Qed.

(* In between, the sizes do not belong to the permuted nodes: node s of the
   permuted world is node perm[s], but it gets the size of another node. *)
Theorem C23_sizes_follow_nodes_refuted :
  exists sizes perm s, chosen stable sizes perm /\ s < length sizes /\
  nth s (snd (forward perm (0, sizes))) 0%Z <> nth (nth s perm 0) sizes 0%Z.
Proof.
  exists [3; 1; 1]%Z, [1; 2; 0], 1. split; [exact stable_run_311|]. split; [cbn; lia|]. vm_compute. discriminate.
Qed.
Print Assumptions C23_sizes_follow_nodes_refuted.

Example C23_example :
  chosen stable [3; 1; 1]%Z [1; 2; 0] /\ Permutation [1; 2; 0] (seq 0 3) /\
  forward [1; 2; 0] (0, [3; 1; 1]%Z) = (2, [1; 3; 1]%Z) /\
  backward [1; 2; 0] (2, [1; 3; 1]%Z) = (0, [3; 1; 1]%Z).
Proof.
  split; [exact stable_run_311|]. split; [|split; reflexivity].
  apply (C23_permutation_with_stable_sort [3; 1; 1]%Z); [repeat constructor; discriminate|exact stable_run_311].
Qed.
(* the 3-node allgather under that permutation *)
Example C23_schedule_example :
  well_matched 3 (fun s => permute_block [1; 2; 0] (nth 1 (generate_recursive true [2]%Z (fst (forward [1; 2; 0] (s, [])))) empty_block)).
Proof.
  apply (C23_permuted_schedule_matched [1; 2; 0] 3 (fun s => nth 1 (generate_recursive true [2]%Z s) empty_block)).
  - apply C23_example.
  - exact (generated_allgather_matched [2]%Z 1).
Qed.
