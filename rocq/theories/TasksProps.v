(* Claim C31: the number of tasks per socket. *)
From Verif Require Import Base TasksModel TasksProofs.
Local Open Scope Z_scope.

(* With one socket per node, or as long as the sockets divide every node evenly,
   the result fills every node exactly and is the largest such number. *)
Theorem C31_tasks_fill_every_node :
  forall cores sockets, 0 < hd 0 cores -> 0 < sockets -> (forall c, In c cores -> (sockets | c)) ->
  let t := tasks_per_socket 0 cores sockets in
  0 < t /\ (forall c, In c cores -> (t * sockets | c)) /\
  forall u, 0 < u -> (forall c, In c cores -> (u * sockets | c)) -> (u | t) /\ u <= t.
Proof. exact tasks_ok. Qed.
Print Assumptions C31_tasks_fill_every_node.
Example C31_example : tasks_per_socket 0 [12; 12; 18] 2 = 3 /\ (forall c, In c [12; 12; 18] -> (2 | c)).
Proof.
  split; [reflexivity|]. intros c [<-|[<-|[<-|[]]]]; [exists 6|exists 6|exists 9]; reflexivity.
Qed.

(* If they do not, the result need not divide the nodes, and may be 0. *)
Theorem C31_uneven_sockets_refuted :
  exists cores sockets, 0 < hd 0 cores /\ 0 < sockets /\ ~ (tasks_per_socket 0 cores sockets | hd 0 cores).
Proof.
  exists [7], 2. split; [reflexivity|]. split; [reflexivity|]. intros [q Hq].
  change (tasks_per_socket 0 [7] 2) with 3 in Hq. cbn in Hq. lia.
Qed.
Print Assumptions C31_uneven_sockets_refuted.
Theorem C31_no_tasks_refuted :
  exists cores sockets, 0 < hd 0 cores /\ 0 < sockets /\ tasks_per_socket 0 cores sockets = 0.
Proof. exists [1; 1], 2. repeat split. Qed.
Print Assumptions C31_no_tasks_refuted.
(* A number given by the user is taken ... *)
Theorem C31_setting_used :
  forall fixed cores sockets, 0 < fixed -> tasks_per_socket fixed cores sockets = fixed.
Proof. intros fixed cores sockets H. unfold tasks_per_socket. apply Z.ltb_lt in H. now rewrite H. Qed.
Print Assumptions C31_setting_used.
(* ... unchecked. *)
Theorem C31_fixed_number_refuted :
  exists fixed cores, 0 < fixed /\ 0 < hd 0 cores /\ ~ (tasks_per_socket fixed cores 1 | hd 0 cores).
Proof. exists 5, [7]. split; [reflexivity|]. split; [reflexivity|]. intros [q Hq]. cbn in Hq. lia. Qed.
Print Assumptions C31_fixed_number_refuted.
