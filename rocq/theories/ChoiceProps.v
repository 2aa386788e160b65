(* C64, C65: the library's own choice of ports and schedule *)
From Verif Require Import Base FactorsModel FactorsSpec ChoiceModel ChoiceSpec PortsModel.
From Verif Require Import SchedModel SchedSpec RecursiveModel RecursiveSpec RawModel RawSpec ChoiceProofs ChoiceInst.

(* ---------- C64: the choice ---------- *)
(* If some list that is not cancelled costs less than the limit, one is chosen. *)
Theorem C64_choice_total : forall T limit ag n, (2 <= n)%Z ->
  (exists f, In f (cancel_factors (factor_lists ag n)) /\ (T f < limit)%Z) -> choose T limit ag n <> None.
Proof. exact choose_total. Qed.
Print Assumptions C64_choice_total.
(* and there always is one that is not cancelled *)
Theorem C64_something_to_choose : forall ag n, (2 <= n)%Z -> exists f, In f (cancel_factors (factor_lists ag n)).
Proof. exact options_nonempty. Qed.
Print Assumptions C64_something_to_choose.
(* It is one of the cheapest of the lists with ordered factors. *)
Theorem C64_choice_cheapest : forall T limit ag n ports groups, choose T limit ag n = Some (ports, groups) ->
  exists f, cheapest T limit (cancel_factors (factor_lists ag n)) f /\ ports = ports_of_factors f /\ groups = groups_of_factors n f.
Proof. exact choose_some. Qed.
Print Assumptions C64_choice_cheapest.
Theorem C64_cancel_ordered : forall fs f, In f (cancel_factors fs) <-> In f fs /\ ordered f.
Proof. exact cancel_in. Qed.
Print Assumptions C64_cancel_ordered.
(* The generators read the ports and groups that were chosen. *)
Theorem C64_choice_read_back : forall T limit ag n ports groups, (2 <= n)%Z -> choose T limit ag n = Some (ports, groups) ->
  exists t, print_ports_groups ports groups = Some t /\ scan_ports_groups t = Some (ports, groups).
Proof. exact choice_round_trip. Qed.
Print Assumptions C64_choice_read_back.

(* costs that favour one list *)
Definition favour (g f : list Z) : Z := if list_eq_dec Z.eq_dec f g then 0%Z else 1%Z.

(* num_ports_factors.c:112-113 allocates comm_size + 1 entries, the ports and the
   0 behind them need more *)
Theorem C64_ports_array_overflow_refuted : exists T limit ports groups,
  choose T limit false 3 = Some (ports, groups) /\ 3 + 1 < length ports + 1.
Proof.
  exists (favour [-2; -2; 2; 2]%Z), 2%Z, [-1; -1; 1; 1]%Z, [3; 3; 3; -3]%Z. split; [vm_compute; reflexivity|]. cbn. lia.
Qed.
Print Assumptions C64_ports_array_overflow_refuted.

(* ---------- C65: the code ---------- *)
(* N nodes with one rank each; any costs; the parameter ext_mpi_not_recursive is
   unset or true *)
Theorem C65_allreduce_correct_as_chosen : forall param T limit N, 2 <= N -> param <> Some false ->
  forall {V} (op : V -> V -> V) sched count (m : nat -> @memory V),
  (forall a b c, op a (op b c) = op (op a b) c) -> (forall a b, op a b = op b a) ->
  choose_allreduce param T limit N = Some sched ->
  let prog := fun q => allreduce_program (sched q) count N q in
  never_stuck op N prog m /\ leaves_nothing op N prog m /\
  computes op N prog m (fun q mm => receives_only count (m q) mm (fun j => total op (fun p => m p (Sendbuf, j)) N)).
Proof. exact @chosen_allreduce. Qed.
Print Assumptions C65_allreduce_correct_as_chosen.

Theorem C65_allgather_correct_as_chosen : forall param T limit N, 2 <= N -> param <> Some false ->
  forall {V} (op : V -> V -> V) sched counts (m : nat -> @memory V),
  choose_allgather param T limit N = Some sched ->
  let prog := fun q => allgather_program (sched q) counts N q in
  never_stuck op N prog m /\ leaves_nothing op N prog m /\
  computes op N prog m (fun q mm =>
    receives_only (first_of counts N) (m q) mm (fun j => mm (Recvbuf, j)) /\
    forall f i, f < N -> i < counts f -> mm (Recvbuf, first_of counts f + i) = m f (Sendbuf, i)).
Proof. exact @chosen_allgather. Qed.
Print Assumptions C65_allgather_correct_as_chosen.

Theorem C65_reduce_scatter_correct_as_chosen : forall param T limit N, 2 <= N -> param <> Some false ->
  forall {V} (op : V -> V -> V) sched counts (m : nat -> @memory V),
  (forall a b c, op a (op b c) = op (op a b) c) -> (forall a b, op a b = op b a) ->
  choose_reduce_scatter param T limit N = Some sched ->
  let prog := fun q => reduce_scatter_program (sched q) counts N q in
  never_stuck op N prog m /\ leaves_nothing op N prog m /\
  computes op N prog m (fun q mm =>
    receives_only (counts q) (m q) mm (fun j => total op (fun p => m p (Sendbuf, first_of counts q + j)) N)).
Proof. exact @chosen_reduce_scatter. Qed.
Print Assumptions C65_reduce_scatter_correct_as_chosen.

(* The choice does not fail. *)
Theorem C65_schedule_chosen : forall param T limit N, 2 <= N -> (forall f, (T f < limit)%Z) ->
  choose_allreduce param T limit N <> None /\ choose_allgather param T limit N <> None /\
  choose_reduce_scatter param T limit N <> None.
Proof. exact choose_schedules. Qed.
Print Assumptions C65_schedule_chosen.

(* With ext_mpi_not_recursive = 0 in the info object the recursive schedule is
   taken for ports that do not fit: node 0 of 5 sends to node 5. *)
Theorem C65_forced_recursive_refuted : exists T limit N sched, 2 <= N /\ (forall f, (T f < limit)%Z) /\
  choose_allgather (Some false) T limit N = Some sched /\
  exists t b n, t < N /\ In b (sched t) /\ n < num_lines b /\ Exists (fun e => (Z.of_nat N <= fst e)%Z) (sendto (lines b n)).
Proof.
  exists (favour [3; 2]%Z), 2%Z, 5, (generate_recursive true [2; 1]%Z). split; [lia|].
  split; [intros f; unfold favour; destruct (list_eq_dec _ _ _); lia|]. split.
  { unfold choose_allgather.
    replace (choose _ _ _ _) with (Some ([2; 1], [5; -5])%Z) by (vm_compute; reflexivity). reflexivity. }
  exists 2, (nth 2 (generate_recursive true [2; 1]%Z 2) empty_block), 0. split; [lia|].
  split; [apply nth_In; vm_compute; lia|]. split; [vm_compute; lia|].
  apply Exists_exists. exists (5%Z, 0). split; [vm_compute; tauto|]. cbn. lia.
Qed.
Print Assumptions C65_forced_recursive_refuted.

(* ---------- the hypotheses can be met ---------- *)
(* 6 nodes: factors 3 and 2, recursive; 5 nodes: cyclic; one factor: cyclic *)
Example C64_example :
  choose (favour [-2; 3; 2]%Z) 2 false 6 = Some ([-1; 2; 1], [6; 6; -6])%Z /\
  not_recursive None 6 [-1; 2; 1]%Z = false /\
  choose (favour [-2; 3; 2]%Z) 2 false 5 = Some ([-1; 2; 1], [5; 5; -5])%Z /\
  not_recursive None 5 [-1; 2; 1]%Z = true /\
  choose (favour [6]%Z) 2 true 6 = Some ([5], [-6])%Z /\ not_recursive None 6 [5]%Z = true.
Proof. repeat split; vm_compute; reflexivity. Qed.
Example C64_cancelled : cancel_factors (factor_lists true 6) = [[2; 2; 2]; [3; 2]; [4; 2]; [5; 2]; [6]]%Z.
Proof. vm_compute. reflexivity. Qed.
Example C64_costs : exists f, In f (cancel_factors (factor_lists true 6)) /\ (favour [6]%Z f < 2)%Z.
Proof. exists [6]%Z. split; vm_compute; tauto. Qed.
Example C65_sum : (forall a b c : Z, (a + (b + c) = a + b + c)%Z) /\ forall a b : Z, (a + b = b + a)%Z.
Proof. split; intros; lia. Qed.
Example C65_chosen : exists sched, choose_allreduce None (favour [-2; 3; 2]%Z) 2 5 = Some sched /\
  map num_lines (sched 1) = [5; 7; 7; 9; 9; 13; 13; 13].
Proof.
  exists (CycRedModel.cyclic_reduce 5 [1] [2; 1]). split; [|vm_compute; reflexivity]. unfold choose_allreduce.
  replace (choose _ _ _ _) with (Some ([-1; 2; 1], [5; 5; -5])%Z) by (vm_compute; reflexivity). reflexivity.
Qed.
