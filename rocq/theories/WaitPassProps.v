(* C79: the code waitany.c writes is that it reads with other waits, and the executor can read it.
   C80: the reductions it attaches to messages. *)
From Verif Require Import Base SchedModel RecursiveModel RecursiveSpec RawModel FinalModel FinalSpec FinalRefute WaitanyModel WaitanySpec WaitPassModel WaitPassSpec WaitPassProofs.
Local Open Scope nat_scope.

(* ---------- C79 ---------- *)
(* No line is lost, added, or moved. *)
Theorem C79_only_waits_change : forall ls, restored (waitany_pass ls) = numbered 0 ls.
Proof. exact pass_restored. Qed.
Print Assumptions C79_only_waits_change.

(* Every waitany is followed by reductions and as many ends of attached lines as it has
   messages: "illegal opcode in exec_waitany" does not happen. *)
Theorem C79_executor_can_read : forall ls, readable 0 (without_barriers (waitany_pass ls)) = true.
Proof. exact pass_readable. Qed.
Print Assumptions C79_executor_can_read.

(* ---------- C80 ---------- *)
(* If the messages are reported in the order in which they were posted, after all of
   them have arrived, nothing changes. *)
Theorem C80_in_order_as_waitall : forall reqs payload m0,
  mem (exec reqs payload false (in_order_trace (length reqs)) m0) = plain reqs payload m0.
Proof. intros. apply in_order_plain. Qed.
Print Assumptions C80_in_order_as_waitall.

(* If every reduction reads the message it is attached to, no receive buffer is reduced
   to and nothing is sent from there, nothing changes whatever the order. *)
Theorem C80_any_order_partial : forall reqs payload m0 tr, layout reqs -> sends_apart reqs -> possible (length reqs) tr ->
  forall a, (forall j, j < length reqs -> is_send (req reqs j) = false -> ~ inside (base (req reqs j)) (size (req reqs j)) a) ->
  mem (exec reqs payload false tr m0) a = plain reqs payload m0 a.
Proof. exact order_irrelevant. Qed.
Print Assumptions C80_any_order_partial.

(* The code waitany.c gets: ext_mpi_native.c:799-808 *)
Definition before_waitany (base : nat -> nat) (ls : list instr) : list instr :=
  optimise_buffers2 (optimise_buffers (map (flat_instr base) ls)).

(* But waitany.c attaches the reductions to the messages in the order of the lines,
   without looking at what they read and write.  Three processes, one per node, a vector of six
   elements: if the second message arrives first, it is reduced to the place where
   the first one arrives afterwards. *)
Definition three_code : list instr := allreduce_program (generate_recursive false [(-2)%Z; 2%Z] 0) 6 3 0.
Definition three_requests : list request :=
  [ {| is_send := false; base := 6; size := 2; reds := [{| to := 6; from := 0; len := 2 |}] |};
    {| is_send := false; base := 18; size := 2; reds := [{| to := 6; from := 18; len := 2 |}] |};
    {| is_send := true; base := 2; size := 2; reds := [] |};
    {| is_send := true; base := 4; size := 2; reds := [] |} ]%Z.
Example three_attached :
  first_wait [] (without_barriers (waitany_pass (before_waitany base40 three_code))) = Some (three_requests, false).
Proof. vm_compute. reflexivity. Qed.
Definition three_trace : list event :=
  [Transfer 1; Complete 1; Transfer 0; Complete 0; Transfer 2; Complete 2; Transfer 3; Complete 3].
Lemma three_possible : possible 4 three_trace.
Proof.
  split.
  - apply NoDup_Permutation.
    + unfold three_trace. repeat constructor; simpl; intuition discriminate.
    + simpl. repeat constructor; simpl; intuition discriminate.
    + intros x. simpl. tauto.
  - intros i a b E. unfold three_trace in E.
    repeat (destruct a as [|? a]; [try discriminate E; injection E as <- <-; simpl; tauto|injection E as <- E]).
    destruct a; discriminate E.
Qed.
Theorem C80_attached_reductions_refuted :
  ~ (forall down mid up count base q reqs neg, balanced down mid up ->
       let N := node_count (mid ++ up) in
       let ls := allreduce_program (generate_recursive false (down ++ mid ++ up) q) count N q in
       q < N -> laid_out base ls ->
       first_wait [] (without_barriers (waitany_pass (before_waitany base ls))) = Some (reqs, neg) ->
       same_as_waitall reqs neg).
Proof.
  intros H.
  assert (B : balanced [(-2)%Z] [] [2%Z]) by (repeat split; try (repeat constructor; fail); discriminate).
  specialize (H [(-2)%Z] [] [2%Z] 6 base40 0 three_requests false B). cbn zeta in H.
  assert (X : same_as_waitall three_requests false).
  { apply H; [vm_compute; lia|laid|vm_compute; reflexivity]. }
  specialize (X (fun a => if (a <? 10)%Z then 100%Z else 1000%Z) (fun _ => 1%Z) three_trace three_possible 6%Z).
  vm_compute in X. discriminate.
Qed.
Print Assumptions C80_attached_reductions_refuted.

(* What C80_any_order_partial asks for can be met. *)
Example C80_example : let reqs := [ {| is_send := false; base := 100; size := 3; reds := [{| to := 0; from := 100; len := 3 |}] |};
    {| is_send := true; base := 20; size := 3; reds := [] |} ]%Z in
  layout reqs /\ sends_apart reqs /\ possible (length reqs) (in_order_trace (length reqs)).
Proof.
  assert (T : forall i, i < 2 -> i = 0 \/ i = 1) by lia.
  intros reqs. split; [split|split].
  - intros i j Hi Hj Ne S. destruct (T i Hi) as [->| ->], (T j Hj) as [->| ->]; try congruence; try discriminate S.
    unfold apart, inside; cbn; intros a Ha Ha'; lia.
  - intros i r Hi Hr. destruct (T i Hi) as [->| ->]; cbn in Hr; [|contradiction]. destruct Hr as [<-|[]].
    split; [reflexivity|]. cbn. auto.
  - intros i j r Hi Hj Hr S. destruct (T i Hi) as [->| ->], (T j Hj) as [->| ->]; cbn in Hr, S; try contradiction; try discriminate;
      destruct Hr as [<-|[]]; unfold apart, inside; cbn; intros a Ha Ha'; lia.
  - intros i j r Hi Hj Hr S. destruct (T i Hi) as [->| ->], (T j Hj) as [->| ->]; cbn in Hr, S; try contradiction; try discriminate;
      destruct Hr as [<-|[]]; unfold apart, inside; cbn; intros a Ha Ha'; lia.
  - apply in_order_possible.
Qed.
