(* C66, C67: the code for the ports and the schedule chosen by the library, for
   collectives with a root and behind all passes. *)
From Verif Require Import Base FactorsModel ChoiceModel ChosenModel SchedModel SchedSpec RawModel RawSpec RootModel RootSpec BcastModel BcastSpec
  FinalModel FinalSpec ChosenInst ChosenRefute RootRefute.

(* ---------- C66 ---------- *)
(* whenever the recursive schedule is taken *)
Theorem C66_reduce_as_chosen_partial : forall param T limit N, 2 <= N -> param <> Some false ->
  forall {V} (op : V -> V -> V) root count prog (m : nat -> @memory V),
  (forall a b c, op a (op b c) = op (op a b) c) -> (forall a b, op a b = op b a) -> root < N ->
  takes_recursive param T limit false N = true ->
  chosen_reduce param T limit N root count = Some prog ->
  never_stuck op N prog m /\ leaves_nothing op N prog m /\ computes op N prog m (reduced_at op N root count m).
Proof. exact @chosen_reduce_run. Qed.
Print Assumptions C66_reduce_as_chosen_partial.
Theorem C66_gather_as_chosen_partial : forall param T limit N, 2 <= N -> param <> Some false ->
  forall {V} (op : V -> V -> V) root counts prog (m : nat -> @memory V), root < N ->
  takes_recursive param T limit true N = true ->
  chosen_gather param T limit N root counts = Some prog ->
  never_stuck op N prog m /\ leaves_nothing op N prog m /\ computes op N prog m (gathered_at N root counts m).
Proof. exact @chosen_gather_run. Qed.
Print Assumptions C66_gather_as_chosen_partial.
Theorem C66_bcast_as_chosen_partial : forall param T limit N, 2 <= N -> param <> Some false ->
  forall {V} (op : V -> V -> V) root count prog (m : nat -> @memory V), root < N -> root = 0 \/ count <= root ->
  takes_recursive param T limit true N = true ->
  chosen_bcast param T limit N root count = Some prog ->
  never_stuck op N prog m /\ leaves_nothing op N prog m /\ computes op N prog m (broadcast root count m).
Proof. exact @chosen_bcast_root0. Qed.
Print Assumptions C66_bcast_as_chosen_partial.
(* but not always: seven nodes and three ports 1 *)
Theorem C66_reduce_as_chosen_refuted : exists T limit prog, (forall f, (T f < limit)%Z) /\
  chosen_reduce None T limit 7 0 7 = Some prog /\
  exists m : nat -> @memory nat, ~ computes Nat.add 7 prog m (reduced_at Nat.add 7 0 7 m).
Proof. exists (prefer [2; 2; 2]%Z), 2%Z, reduce7. split; [apply prefer_cheap|]. split; [exact chosen_reduce7|]. exists ones. exact reduce7_wrong. Qed.
Print Assumptions C66_reduce_as_chosen_refuted.
Theorem C66_gather_as_chosen_refuted : exists T limit prog, (forall f, (T f < limit)%Z) /\
  chosen_gather None T limit 7 0 (fun _ => 1) = Some prog /\
  exists m : nat -> @memory nat, ~ computes Nat.add 7 prog m (gathered_at 7 0 (fun _ => 1) m).
Proof. exists (prefer [2; 2; 2]%Z), 2%Z, gather7. split; [apply prefer_cheap|]. split; [exact choose_gather7|]. exists mem7. exact gather7_wrong. Qed.
Print Assumptions C66_gather_as_chosen_refuted.
Theorem C66_bcast_as_chosen_refuted : exists T limit prog, (forall f, (T f < limit)%Z) /\
  chosen_bcast None T limit 7 0 7 = Some prog /\
  exists m : nat -> @memory nat, ~ computes Nat.add 7 prog m (broadcast 0 7 m).
Proof. exists (prefer [2; 2; 2]%Z), 2%Z, bcast7. split; [apply prefer_cheap|]. split; [exact choose_bcast7|]. exists vector. exact bcast7_wrong. Qed.
Print Assumptions C66_bcast_as_chosen_refuted.

(* ---------- C67 ---------- *)
Theorem C67_final_allreduce_as_chosen_partial : forall param T limit N, 2 <= N -> param <> Some false ->
  forall {V} (op : V -> V -> V) count base alt sched prog (m : nat -> @memory V),
  (forall a b c, op a (op b c) = op (op a b) c) -> (forall a b, op a b = op b a) ->
  takes_recursive param T limit false N = true ->
  choose_allreduce param T limit N = Some sched ->
  (forall q, q < N -> laid_out (base q) (allreduce_program (sched q) count N q)) ->
  chosen_allreduce_final param T limit base alt N count = Some prog ->
  never_stuck op N prog m /\ leaves_nothing op N prog m /\
  computes op N prog m (fun q mm => receives_only count (m q) mm (fun j => total op (fun p => m p (Sendbuf, j)) N)).
Proof. exact @chosen_allreduce_final_run. Qed.
Print Assumptions C67_final_allreduce_as_chosen_partial.
(* nine nodes, four elements, ports -1 1 1 1 1 *)
Theorem C67_final_allreduce_as_chosen_refuted : exists T limit base sched prog, (forall f, (T f < limit)%Z) /\
  choose_allreduce None T limit 9 = Some sched /\
  (forall q, q < 9 -> laid_out (base q) (allreduce_program (sched q) 4 9 q)) /\
  chosen_allreduce_final None T limit base false 9 4 = Some prog /\
  exists m : nat -> @memory nat, ~ computes Nat.add 9 prog m
    (fun q mm => receives_only 4 (m q) mm (fun j => total Nat.add (fun p => m p (Sendbuf, j)) 9)).
Proof.
  exists (prefer [-2; 2; 2; 2; 2]%Z), 2%Z, (fun _ => base32), sched9, allreduce9. split; [apply prefer_cheap|]. split; [exact chosen_sched9|].
  split; [exact raw9_laid|]. split; [exact chosen_allreduce9|]. exists one5. exact allreduce9_wrong.
Qed.
Print Assumptions C67_final_allreduce_as_chosen_refuted.

(* ---------- the hypotheses can be met ---------- *)
Lemma choose6 : choose (prefer [-2; 3; 2]%Z) 2 false 6 = Some ([-1; 2; 1], [6; 6; -6])%Z.
Proof. vm_compute. reflexivity. Qed.
Lemma choose6_gather : choose (prefer [3; 2]%Z) 2 true 6 = Some ([2; 1], [6; -6])%Z.
Proof. vm_compute. reflexivity. Qed.
Example C66_reduce_chosen : takes_recursive None (prefer [-2; 3; 2]%Z) 2 false 6 = true /\
  exists prog, chosen_reduce None (prefer [-2; 3; 2]%Z) 2 6 4 10 = Some prog.
Proof.
  split.
  - unfold takes_recursive. change (Z.of_nat 6) with 6%Z. rewrite choose6. reflexivity.
  - unfold chosen_reduce, choose_allreduce. change (Z.of_nat 6) with 6%Z. rewrite choose6.
    replace (not_recursive None 6 [-1; 2; 1]%Z) with false by reflexivity. cbn [option_map]. eexists. reflexivity.
Qed.
Example C66_gather_chosen : takes_recursive None (prefer [3; 2]%Z) 2 true 6 = true /\
  (exists prog, chosen_gather None (prefer [3; 2]%Z) 2 6 4 (fun _ => 2) = Some prog) /\
  exists prog, chosen_bcast None (prefer [3; 2]%Z) 2 6 0 10 = Some prog.
Proof.
  split; [|split].
  - unfold takes_recursive. change (Z.of_nat 6) with 6%Z. rewrite choose6_gather. reflexivity.
  - unfold chosen_gather, choose_allgather. change (Z.of_nat 6) with 6%Z. rewrite choose6_gather.
    replace (not_recursive None 6 [2; 1]%Z) with false by reflexivity. cbn [option_map]. eexists. reflexivity.
  - unfold chosen_bcast, choose_bcast. change (Z.of_nat 6) with 6%Z. rewrite choose6_gather.
    replace (not_recursive None 6 [2; 1]%Z) with false by reflexivity. cbn [option_map]. eexists. reflexivity.
Qed.
