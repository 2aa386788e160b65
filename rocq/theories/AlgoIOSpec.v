(* Claim C26: what a schedule in memory is. *)
From Verif Require Export Base BytesModel AlgoIOModel.
Local Open Scope Z_scope.

(* The counts are the lengths of the arrays; all numbers are ints. *)
Definition array_ok (n : Z) (a : list Z) : Prop := n = Z.of_nat (length a) /\ Forall is_int a.
Definition aline_ok (l : aline) : Prop :=
  is_int (frac l) /\
  is_int (sendto_max l) /\ array_ok (sendto_max l) (sendto_node l) /\ array_ok (sendto_max l) (sendto_line l) /\
  is_int (recvfrom_max l) /\ array_ok (recvfrom_max l) (recvfrom_node l) /\ array_ok (recvfrom_max l) (recvfrom_line l) /\
  is_int (reducefrom_max l) /\ array_ok (reducefrom_max l) (reducefrom l) /\
  is_int (copyreducefrom_max l) /\ array_ok (copyreducefrom_max l) (copyreducefrom l).
Definition ablock_ok (b : ablock) : Prop :=
  is_int (num_lines b) /\ num_lines b = Z.of_nat (length (alines b)) /\ Forall aline_ok (alines b).
Definition algo_ok (a : algo) : Prop :=
  is_int (num_blocks a) /\ num_blocks a = Z.of_nat (length (blocks a)) /\ Forall ablock_ok (blocks a).
