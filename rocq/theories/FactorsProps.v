(* Claim C32: candidate lists of factors. *)
From Verif Require Import Base FactorsModel FactorsSpec FactorsProofs.
Local Open Scope Z_scope.

(* The candidates are exactly the minimal lists of factors 2..13 that cover the
   nodes, each once. *)
Theorem C32_candidates_are_minimal_lists : forall n p, 2 <= n -> (In p (candidates n) <-> minimal n p).
Proof. exact candidates_exact. Qed.
Print Assumptions C32_candidates_are_minimal_lists.
Theorem C32_candidates_distinct : forall n, 2 <= n -> NoDup (candidates n).
Proof. exact candidates_nodup. Qed.
Print Assumptions C32_candidates_distinct.
(* The lists returned: a candidate preceded by some of its last factors,
   mirrored and negative. *)
Theorem C32_lists_from_candidates :
  forall ag n f, 2 <= n -> (In f (factor_lists ag n) <->
  exists p l, minimal n p /\ (l <= if ag then 0 else length p)%nat /\ f = map Z.opp (firstn l (rev p)) ++ p).
Proof. exact lists_exact. Qed.
Print Assumptions C32_lists_from_candidates.
Example C32_example :
  candidates 5 = [[2; 2; 2]; [2; 3]; [3; 2]; [4; 2]; [5]] /\ minimal 5 [2; 3] /\
  factor_lists false 3 = [[2; 2]; [-2; 2; 2]; [-2; -2; 2; 2]; [3]; [-3; 3]].
Proof.
  split; [vm_compute; reflexivity|]. split; [|vm_compute; reflexivity].
  exists [2], 3. split; [reflexivity|]. cbn. split; [lia|]. split; [lia|]. unfold FACTOR_MAX. intros x [<-|[<-|[]]]; lia.
Qed.

(* num_ports_factors.c:112-113 and 134-141 store a list and a terminating 0 in an
   array of comm_size + 1 elements; with one rank per node comm_size is the number
   of nodes. *)
Theorem C32_lists_fit_the_array :
  forall ag n f, 6 <= n \/ n = 2 \/ n = 4 -> In f (factor_lists ag n) -> Z.of_nat (length f) <= n.
Proof. exact lists_fit. Qed.
Print Assumptions C32_lists_fit_the_array.
Theorem C32_lists_fit_the_array_refuted :
  forall n, n = 3 \/ n = 5 -> exists f, In f (factor_lists false n) /\ n < Z.of_nat (length f).
Proof.
  intros n [->| ->].
  - exists [-2; -2; 2; 2]. split; [vm_compute; tauto|reflexivity].
  - exists [-2; -2; -2; 2; 2; 2]. split; [vm_compute; tauto|reflexivity].
Qed.
Print Assumptions C32_lists_fit_the_array_refuted.
