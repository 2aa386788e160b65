(* Claim C26: binary form of a schedule. *)
From Verif Require Import Base BytesModel AlgoIOModel AlgoIOSpec AlgoIOProofs.
Local Open Scope Z_scope.

(* Reading what was written gives the schedule and leaves exactly what follows. *)
Theorem C26_algorithm_round_trip :
  forall a rest, algo_ok a -> read_algo (write_algo a ++ rest) = Some (a, rest).
Proof. exact read_write_algo. Qed.
Print Assumptions C26_algorithm_round_trip.
(* Two schedules with the same bytes are the same. *)
Theorem C26_algorithm_injective :
  forall a b, algo_ok a -> algo_ok b -> write_algo a = write_algo b -> a = b.
Proof.
  intros a b Ha Hb E. assert (X := read_write_algo a [] Ha). rewrite E, (read_write_algo b []) in X by assumption. congruence.
Qed.
Print Assumptions C26_algorithm_injective.

Definition ex_algo : algo :=
  {| num_blocks := 2;
     blocks := [ {| num_lines := 1; alines := [
        {| frac := 3; sendto_max := 2; sendto_node := [0; -1]; sendto_line := [5; 6]; recvfrom_max := 0; recvfrom_node := []; recvfrom_line := [];
           reducefrom_max := 1; reducefrom := [4]; copyreducefrom_max := 0; copyreducefrom := [] |} ] |};
                 {| num_lines := 0; alines := [] |} ] |}.
Example C26_example : algo_ok ex_algo /\ length (write_algo ex_algo) = 52%nat.
Proof.
  split; [|reflexivity]. repeat (constructor || (unfold is_int; cbn; lia) || (unfold algo_ok, ablock_ok, aline_ok, array_ok; cbn)).
Qed.
