(* C81: messages between the sockets of a node become copies.
   C82: the reductions that read from another socket.
   C83: code with node barriers. *)
From Verif Require Import Base SchedModel SchedSpec RecursiveModel RecursiveSpec RawModel RawSpec FinalModel FinalSpec FinalRefute WaitPassProps SocketModel SocketSpec SocketProofs SocketRace.
Local Open Scope nat_scope.

(* ---------- C81 ---------- *)
(* The copy for a message from process q reads in the memory of q, where q would have
   sent from. *)
Theorem C81_copy_reads_the_senders_memory : forall {V} S p (prog : nat -> list instr) d q k o n (m : nat -> @memory V),
  0 < S -> on_node S p q = true -> nth_send p k (prog q) = ((Shm 0, o), n) ->
  exists s, copy_for S p prog (Posted d q k) = Own (Memcpy d s n) /\
    forall i, view S m p (at_off s i) = m q (Shm 0, o + i).
Proof.
  intros V S p prog d q k o n m HS H E. unfold copy_for. cbn [partner earlier SocketModel.place]. rewrite E. cbn [fst snd].
  eexists. split; [reflexivity|]. intros i. unfold at_off. cbn [fst snd]. apply view_other; assumption.
Qed.
Print Assumptions C81_copy_reads_the_senders_memory.

(* All processes come to the same number of node barriers. *)
Theorem C81_same_number_of_node_barriers : forall S N prog p q, waitalls (prog p) = waitalls (prog q) ->
  node_barriers (messages_shared_memory S N prog p) = node_barriers (messages_shared_memory S N prog q).
Proof. exact node_barriers_same. Qed.
Print Assumptions C81_same_number_of_node_barriers.

(* The reductions and waits are those of before, in the same order. *)
Theorem C81_other_lines_stay : forall S N prog p,
  steady_lines (messages_shared_memory S N prog p) = filter steady (prog p).
Proof. intros. apply lines_steady. Qed.
Print Assumptions C81_other_lines_stay.

(* No message to a socket of the own node is left. *)
Theorem C81_messages_leave_the_node : forall S N prog p, awaited false (prog p) = true ->
  forall i, In (Own i) (messages_shared_memory S N prog p) -> stays S p i = true.
Proof.
  intros S N prog p H i Hi. assert (F := lines_leave S N p prog (prog p) 0 [] [] [] H).
  rewrite Forall_forall in F. exact (F _ Hi).
Qed.
Print Assumptions C81_messages_leave_the_node.

(* The code these passes get: ext_mpi_native.c:799-808 *)
Definition socket_code (ports : list Z) (base : nat -> nat) (count N p : nat) : list instr :=
  before_waitany base (allreduce_program (generate_recursive false ports p) count N p).
Definition copying_code (ports : list Z) (base : nat -> nat) (count N p : nat) : list sline :=
  messages_shared_memory N N (socket_code ports base count N) p.
Definition reading_code (ports : list Z) (base : nat -> nat) (count N p : nat) : list sline :=
  optimise_multi_socket (copying_code ports base count N p).

Example C81_four_sockets :
  waitalls (socket_code [1%Z; 1%Z] base40 1 4 0) = waitalls (socket_code [1%Z; 1%Z] base40 1 4 3) /\
  awaited false (socket_code [1%Z; 1%Z] base40 1 4 0) = true /\
  on_node 4 0 2 = true /\ nth_send 0 0 (socket_code [1%Z; 1%Z] base40 1 4 2) = ((Shm 0, 1), 1) /\
  In (Own (Memcpy (Shm 0, 2) (Shm 2, 1) 1)) (copying_code [1%Z; 1%Z] base40 1 4 0) /\
  node_barriers (copying_code [1%Z; 1%Z] base40 1 4 0) = 4.
Proof. vm_compute. intuition. Qed.

(* ---------- C82 ---------- *)
(* Without copies from other sockets the code does not change. *)
Theorem C82_unchanged_without_copies : forall ls, existsb from_other ls = false -> optimise_multi_socket ls = ls.
Proof. intros. apply multi_same. assumption. Qed.
Print Assumptions C82_unchanged_without_copies.
Example C82_two_sockets_unchanged : forall p, p < 2 ->
  existsb from_other (copying_code [(-1)%Z; 1%Z] base40 2 2 p) = true /\
  reading_code [(-1)%Z; 1%Z] base40 2 2 p = copying_code [(-1)%Z; 1%Z] base40 2 2 p.
Proof. intros p Hp. destruct p as [|[|p]]; [split; vm_compute; reflexivity|split; vm_compute; reflexivity|lia]. Qed.

(* Four sockets: the reduction that replaces a copy is behind the node barrier after the
   copies, and the other socket adds to the same place at the same time. Even if all go
   on line by line together, sockets 2 and 3 get some addends twice. *)
Definition together (n : nat) : list nat := concat (repeat (seq 0 4) n).
Definition powers : nat -> @memory Z := fun p _ => Z.of_nat (10 ^ p).
Lemma four_outcome :
  option_map (fun s => map (fun p => (length (scode s p), smem s p (Recvbuf, 0))) (seq 0 4))
    (srun Z.add 4 (together 27) (sstart (reading_code [1%Z; 1%Z] base40 1 4) powers)) =
  Some [(0, 1111%Z); (0, 1111%Z); (0, 2211%Z); (0, 2211%Z)].
Proof. vm_compute. reflexivity. Qed.
Lemma wrong_outcome prog :
  option_map (fun s => map (fun p => (length (scode s p), smem s p (Recvbuf, 0))) (seq 0 4)) (srun Z.add 4 (together 27) (sstart prog powers)) =
    Some [(0, 1111%Z); (0, 1111%Z); (0, 2211%Z); (0, 2211%Z)] ->
  ~ sums_up Z.add 4 prog 1.
Proof.
  intros X H. destruct (srun Z.add 4 (together 27) (sstart prog powers)) as [s|] eqn:E; [|discriminate].
  assert (R := srun_reach Z.add 4 (together 27) _ s ltac:(repeat constructor) E).
  cbn [option_map map seq] in X. injection X as L0 V0 L1 V1 L2 V2 L3 V3.
  apply length_zero_iff_nil in L0, L1, L2, L3.
  assert (D : forall p, p < 4 -> scode s p = []).
  { intros p Hp. destruct p as [|[|[|[|p]]]]; [assumption..|lia]. }
  specialize (H powers s R D 2 0 ltac:(lia) ltac:(lia)). rewrite V2 in H. vm_compute in H. discriminate.
Qed.
Theorem C82_reductions_from_other_sockets_refuted :
  ~ (forall down mid up count base, balanced down mid up ->
       let N := node_count (mid ++ up) in
       (forall q, q < N -> laid_out base (allreduce_program (generate_recursive false (down ++ mid ++ up) q) count N q)) ->
       sums_up Z.add N (reading_code (down ++ mid ++ up) base count N) count).
Proof.
  intros H. specialize (H [] [1%Z; 1%Z] [] 1 base40). cbn zeta in H.
  change (node_count ([1%Z; 1%Z] ++ [])) with 4 in H. cbn [app] in H.
  assert (B : balanced [] [1%Z; 1%Z] []) by (repeat split; try (repeat constructor; fail); discriminate).
  specialize (H B). clear B.
  assert (L : forall q, q < 4 -> laid_out base40 (allreduce_program (generate_recursive false [1%Z; 1%Z] q) 1 4 q)).
  { intros q Hq. destruct q as [|[|[|[|q]]]]; [laid|laid|laid|laid|lia]. }
  specialize (H L). clear L.
  exact (wrong_outcome _ four_outcome H).
Qed.
Print Assumptions C82_reductions_from_other_sockets_refuted.

(* Six sockets, two partners in one step: already the code of one process is wrong.  The
   second copy overwrites what is held for the place of the reduction, so that the copy is
   written twice and what the first partner has is not added. *)
Definition six_memories : nat -> @memory Z := fun p l => match l with (Sendbuf, _) => 1%Z | _ => Z.of_nat (100 * p) end.
Theorem C82_two_partners_refuted :
  ~ (forall down mid up count base, balanced down mid up ->
       let N := node_count (mid ++ up) in
       (forall q, q < N -> laid_out base (allreduce_program (generate_recursive false (down ++ mid ++ up) q) count N q)) ->
       forall p (m : nat -> @memory Z) j, p < N -> j < count ->
       alone Z.add N p (reading_code (down ++ mid ++ up) base count N p) m (Recvbuf, j) =
       alone Z.add N p (copying_code (down ++ mid ++ up) base count N p) m (Recvbuf, j)).
Proof.
  intros H. specialize (H [] [1%Z; 2%Z] [] 1 base40). cbn zeta in H.
  change (node_count ([1%Z; 2%Z] ++ [])) with 6 in H. cbn [app] in H.
  assert (B : balanced [] [1%Z; 2%Z] []) by (repeat split; try (repeat constructor; fail); discriminate).
  specialize (H B). clear B.
  assert (L : forall q, q < 6 -> laid_out base40 (allreduce_program (generate_recursive false [1%Z; 2%Z] q) 1 6 q)).
  { intros q Hq. destruct q as [|[|[|[|[|[|q]]]]]]; [laid|laid|laid|laid|laid|laid|lia]. }
  specialize (H L 0 six_memories 0 ltac:(lia) ltac:(lia)).
  vm_compute in H. discriminate.
Qed.
Print Assumptions C82_two_partners_refuted.

(* ---------- C83 ---------- *)
(* If nobody reads from another what this one writes between the same node barriers, every
   execution ends with the memories one gets phase by phase. *)
Theorem C83_race_free_code_is_deterministic : forall {V} (op : V -> V -> V) S code (m : nat -> @memory V), race_free S code ->
  ends_with op S code m (fun p => before_phase op S code m (node_barriers (code p) + 1) p).
Proof. intros. destruct S as [|S]; [intros s _ _ p a Hp; lia|]. apply race_free_end; [lia|assumption]. Qed.
Print Assumptions C83_race_free_code_is_deterministic.

(* With the same number of node barriers nobody waits forever. *)
Theorem C83_same_barriers_no_deadlock : forall {V} (op : V -> V -> V) S code (m : nat -> @memory V),
  (forall p, p < S -> no_messages (code p)) ->
  (forall p q, p < S -> q < S -> node_barriers (code p) = node_barriers (code q)) -> goes_on op S code m.
Proof. exact @go_on. Qed.
Print Assumptions C83_same_barriers_no_deadlock.

(* All processes at one node: the code messages_shared_memory.c writes does not get stuck. *)
Theorem C83_copying_code_goes_on : forall {V} (op : V -> V -> V) S prog (m : nat -> @memory V),
  (forall p, p < S -> awaited false (prog p) = true) ->
  (forall p i, p < S -> In i (prog p) -> match i with Irecv _ _ q | Isend _ _ q => q < S | _ => True end) ->
  (forall p q, p < S -> q < S -> waitalls (prog p) = waitalls (prog q)) ->
  goes_on op S (messages_shared_memory S S prog) m.
Proof.
  intros V op S prog m A P W. apply go_on.
  - intros p Hp i Hi. assert (X := C81_messages_leave_the_node S S prog p (A p Hp) i Hi).
    assert (Y := lines_from S S p prog (prog p) 0 [] [] [] i Hi). cbn [app] in Y.
    destruct (is_message i) eqn:E; [|reflexivity]. exfalso. specialize (P p i Hp (Y eq_refl)).
    destruct i; try discriminate E; cbn [stays] in X; apply negb_true_iff in X; unfold on_node in X; rewrite !Nat.div_small in X by assumption; discriminate.
  - intros p q Hp Hq. apply node_barriers_same. apply W; assumption.
Qed.
Print Assumptions C83_copying_code_goes_on.

(* The code for four sockets is right before optimise_multi_socket.c. *)
Lemma four_quiet : quiet 4 (copying_code [1%Z; 1%Z] base40 1 4) = true.
Proof. vm_compute. reflexivity. Qed.
Lemma four_loud : quiet 4 (reading_code [1%Z; 1%Z] base40 1 4) = false.
Proof. vm_compute. reflexivity. Qed.
Lemma four_ends {V} (op : V -> V -> V) (m : nat -> @memory V) p :
  (forall a b c, op a (op b c) = op (op a b) c) -> (forall a b, op a b = op b a) -> p < 4 ->
  before_phase op 4 (copying_code [1%Z; 1%Z] base40 1 4) m (node_barriers (copying_code [1%Z; 1%Z] base40 1 4 p) + 1) p (Recvbuf, 0) =
  total op (fun q => m q (Sendbuf, 0)) 4.
Proof.
  intros A C H. destruct p as [|[|[|[|p]]]]; [| | | |lia]; vm_compute.
  - rewrite (C (m 1 _)), (C (m 3 _)). apply A.
  - apply A.
  - rewrite C, (C (m 1 _)), (C (m 3 _)). apply A.
  - rewrite C. apply A.
Qed.
Example C83_four_sockets {V} (op : V -> V -> V) m :
  (forall a b c, op a (op b c) = op (op a b) c) -> (forall a b, op a b = op b a) ->
  goes_on op 4 (copying_code [1%Z; 1%Z] base40 1 4) m /\ sums_up op 4 (copying_code [1%Z; 1%Z] base40 1 4) 1.
Proof.
  intros A C. split.
  - apply C83_copying_code_goes_on.
    + intros p Hp. destruct p as [|[|[|[|p]]]]; [vm_compute; reflexivity..|lia].
    + intros p i Hp Hi. destruct p as [|[|[|[|p]]]]; [| | | |lia]; vm_compute in Hi; intuition (subst; try exact I; lia).
    + intros p q Hp Hq. destruct p as [|[|[|[|p]]]]; [| | | |lia]; (destruct q as [|[|[|[|q]]]]; [vm_compute; reflexivity..|lia]).
  - intros m' s R F p j Hp Hj. assert (j = 0) by lia. subst j. rewrite <- (four_ends op m' p A C Hp).
    apply (C83_race_free_code_is_deterministic op 4 _ m' (quiet_race_free 4 _ four_quiet) s R F p (Recvbuf, 0) Hp).
Qed.

(* The ports cost_copyin_measurement.c takes for two sockets: optimise_multi_socket.c does
   not change the code and the code is right. *)
Lemma two_quiet : quiet 2 (reading_code [(-1)%Z; 1%Z] base40 2 2) = true.
Proof. vm_compute. reflexivity. Qed.
Example C83_two_sockets {V} (op : V -> V -> V) :
  (forall a b, op a b = op b a) -> sums_up op 2 (reading_code [(-1)%Z; 1%Z] base40 2 2) 2.
Proof.
  intros C m s R F p j Hp Hj.
  rewrite (C83_race_free_code_is_deterministic op 2 _ m (quiet_race_free 2 _ two_quiet) s R F p (Recvbuf, j) Hp).
  destruct p as [|[|p]]; [| |lia]; (destruct j as [|[|j]]; [| |lia]); vm_compute; first [reflexivity|apply C].
Qed.
