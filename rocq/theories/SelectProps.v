(* C41: the copy-in method and the factors that are chosen by measurement are
   admissible, whatever the times are; so the reduction inside a node is correct
   (C38) and ends (C39) with them. *)
From Verif Require Import Base NodeModel NodeSpec NodeProofs NodeProps SelectModel SelectProofs.
From Coq Require Import Permutation.
Local Open Scope nat_scope.

(* [row] processes, [cores] of them on each of the given sockets; the vector has one
   part for each socket in the end. *)
Theorem C41_selection_admissible :
  forall time cores row size gpu sockets one p,
  0 < cores -> 0 < sockets -> row mod (cores * sockets) = 0 -> 0 < row ->
  let pl := measurement time cores row size gpu sockets one in
  n_cores p = pl_cores pl -> n_factors p = snd (pl_choice pl) -> n_gpu p = gpu ->
  length (n_counts p) = row / pl_cores pl -> bytes (n_counts p) = size ->
  Forall (fun z => (0 <= z)%Z) (n_counts p) -> (0 < bytes (n_counts p))%Z ->
  (0 < n_type p)%Z -> (exists k, bytes (n_counts p) = k * n_type p)%Z ->
  Permutation (n_fracs p) (seq 0 (length (n_counts p))) ->
  (fst (pl_choice pl) = 0 /\ copyin_ok p) \/ (fst (pl_choice pl) = 1 /\ half_ok p).
Proof. exact plan_ok. Qed.
Print Assumptions C41_selection_admissible.

(* Cores are neither lost nor invented when the node is divided into sockets. *)
Theorem C41_sockets_partition_cores :
  forall time cores row size gpu sockets one,
  0 < cores -> 0 < sockets ->
  let pl := measurement time cores row size gpu sockets one in
  0 < pl_cores pl /\ pl_cores pl * pl_sockets pl = cores * sockets.
Proof. intros. destruct (plan_good time cores row size gpu sockets one) as (A & B & _); auto. Qed.
Print Assumptions C41_sockets_partition_cores.

(* The factors and the terminating 0 fit into the arrays of cores + 1 entries. *)
Theorem C41_factors_fit :
  forall time cores row size gpu sockets one, 0 < cores ->
  length (snd (pl_choice (measurement time cores row size gpu sockets one))) + 1 <= cores + 1.
Proof. intros. pose proof (plan_fit time cores row size gpu sockets one H). cbn zeta in H0. lia. Qed.
Print Assumptions C41_factors_fit.

(* 12 cores, 800 bytes, one node: the division into two sockets wins if it is the
   fastest, there with the factors 2, 3. *)
Example C41_example :
  measurement (fun j c => if (j =? 2) && (length (snd c) =? 2) then 1%Z else 5%Z) 12 12 800 false 1 false =
  Plan 2 6 (0, [2; 3]).
Proof. vm_compute. reflexivity. Qed.
Example C41_example_half :
  measurement (fun _ c => if fst c =? 1 then 1%Z else 5%Z) 12 48 800 false 1 false =
  Plan 1 12 (1, [1; 2; 2; 2; 2]).
Proof. vm_compute. reflexivity. Qed.
Example C41_example_small :
  measurement (fun _ _ => 5%Z) 12 12 56 false 1 true = Plan 1 12 (0, [1; 2; 2; 2; 2]).
Proof. vm_compute. reflexivity. Qed.
