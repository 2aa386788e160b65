(* C84: the ports if all processes are on one node. *)
From Verif Require Import Base SchedModel SchedSpec RecursiveModel RecursiveSpec CyclicModel CycRedModel RawModel RootModel FinalModel FinalSpec FinalRefute ChoiceModel ChosenModel SocketModel SocketSpec SocketProofs SocketRace SocketProps OneNodeModel OneNodeSpec.
Local Open Scope nat_scope.

Lemma measured_cases time cores : measured time cores = 1 \/ measured time cores = 2 \/ measured time cores = 4.
Proof.
  unfold measured, try_sockets. cbn [fold_left].
  destruct ((cores mod 2 =? 0) && _); destruct ((cores mod 4 =? 0) && _); auto.
Qed.
(* Every process belongs to a socket. *)
Theorem C84_sockets_divide_the_processes : forall time cores, 0 < cores ->
  measured time cores * per_socket (allreduce_setting time cores) = cores.
Proof.
  intros time cores H. cbn [per_socket allreduce_setting].
  assert (D : cores mod measured time cores = 0).
  { unfold measured, try_sockets. cbn [fold_left].
    destruct (cores mod 2 =? 0) eqn:E2; destruct (cores mod 4 =? 0) eqn:E4; cbn [andb];
      repeat match goal with |- context [(?a <? ?b)%Z] => destruct (a <? b)%Z end;
      first [apply Nat.mod_1_r|apply Nat.eqb_eq; assumption]. }
  assert (N : measured time cores <> 0) by (destruct (measured_cases time cores) as [->|[->| ->]]; discriminate).
  assert (X := Nat.div_mod_eq cores (measured time cores)). rewrite D in X. lia.
Qed.
Print Assumptions C84_sockets_divide_the_processes.

(* The ports of allreduce are those for the sockets chosen. *)
Theorem C84_allreduce_ports_fit : forall time cores,
  ports_fit (sockets (allreduce_setting time cores)) (fst (ports_groups (allreduce_setting time cores))).
Proof.
  intros time cores. cbn [sockets ports_groups allreduce_setting].
  destruct (measured_cases time cores) as [->|[->| ->]]; [left; reflexivity|right|right].
  - exists [(-1)%Z], [1%Z]. repeat split; try (repeat constructor; fail); discriminate.
  - exists [(-1)%Z; (-1)%Z], [1%Z; 1%Z]. repeat split; try (repeat constructor; fail); discriminate.
Qed.
Print Assumptions C84_allreduce_ports_fit.

(* Those of reduce are not. *)
Definition two_faster (s : nat) : Z := if s =? 2 then 1%Z else 2%Z.
Theorem C84_reduce_ports_refuted :
  ~ (forall time cores, 1 < cores -> ports_fit (sockets (reduce_setting time cores)) (fst (ports_groups (reduce_setting time cores)))).
Proof.
  intros H. specialize (H two_faster 2 ltac:(lia)). cbn in H. destruct H as [H|(down & up & E & (_ & _ & P & C & _) & N)]; [discriminate|].
  destruct up as [|u up]; [discriminate N|]. destruct down as [|d down].
  - injection E as <- E. inversion P; subst. lia.
  - destruct down; discriminate E.
Qed.
Print Assumptions C84_reduce_ports_refuted.

(* Two processes: if two sockets are faster than one, the root gets the first half of
   the result only. *)
Definition two_order : list nat := repeat 0 8 ++ repeat 1 5 ++ [0; 1; 1; 0; 1] ++ repeat 0 14 ++ repeat 1 13.
Definition half_memory : nat -> @memory Z := fun p l => match fst l with Sendbuf => Z.of_nat (10 ^ p) | _ => 0%Z end.
Lemma half_outcome :
  option_map (fun s => (length (scode s 0), length (scode s 1), smem s 0 (Recvbuf, 1)))
    (srun Z.add 2 two_order (sstart (one_node_reduce [(-1)%Z] base40 2 0 2) half_memory)) = Some (0, 0, 0%Z).
Proof. vm_compute. reflexivity. Qed.
Lemma half_wrong prog :
  option_map (fun s => (length (scode s 0), length (scode s 1), smem s 0 (Recvbuf, 1))) (srun Z.add 2 two_order (sstart prog half_memory)) = Some (0, 0, 0%Z) ->
  ~ sums_up_at Z.add 2 0 prog 2.
Proof.
  intros X H. destruct (srun Z.add 2 two_order (sstart prog half_memory)) as [s|] eqn:E; [|discriminate].
  assert (R := srun_reach Z.add 2 two_order _ s ltac:(repeat constructor) E).
  cbn [option_map] in X. injection X as L0 L1 V. apply length_zero_iff_nil in L0, L1.
  assert (D : forall p, p < 2 -> scode s p = []) by (intros p Hp; destruct p as [|[|p]]; [assumption..|lia]).
  specialize (H half_memory s R D 1 ltac:(lia)). rewrite V in H. vm_compute in H. discriminate.
Qed.
Theorem C84_reduce_on_one_node_refuted :
  ~ (forall time cores root count base, 1 < cores ->
       let st := reduce_setting time cores in
       let N := sockets st in
       let ports := fst (ports_groups st) in
       per_socket st = 1 -> root < N ->
       (forall q, q < N -> laid_out base (reduce_program (adapted_to_root N root (cyclic_reduce N (sizes (negatives ports)) (sizes (after_negatives ports))) q) count N root q)) ->
       sums_up_at Z.add N root (one_node_reduce ports base N root count) count).
Proof.
  intros H. specialize (H two_faster 2 0 2 base40 ltac:(lia)). cbn zeta in H.
  change (sockets (reduce_setting two_faster 2)) with 2 in H.
  change (fst (ports_groups (reduce_setting two_faster 2))) with [(-1)%Z] in H.
  specialize (H eq_refl ltac:(lia)).
  refine (half_wrong _ half_outcome (H _)).
  intros q Hq. destruct q as [|[|q]]; [laid|laid|lia].
Qed.
Print Assumptions C84_reduce_on_one_node_refuted.

Example C84_settings :
  one_node_not_recursive = true /\ ngroups (snd (ports_groups (reduce_setting two_faster 2))) = 1 /\
  reduce_setting two_faster 2 = Setting 2 1 ([-1], [-1])%Z /\ allreduce_setting two_faster 2 = Setting 2 1 ([-1; 1], [-2; -2])%Z.
Proof. split; [|split; [|split]]; vm_compute; reflexivity. Qed.
(* With the ports allreduce has it would be right. *)
Definition whole_table : list (list sline) := Eval vm_compute in map (one_node_reduce [(-1)%Z; 1%Z] base40 2 0 2) [0; 1].
Definition whole (p : nat) : list sline := nth p whole_table [].
Example whole_is_reduce : map whole [0; 1] = map (one_node_reduce [(-1)%Z; 1%Z] base40 2 0 2) [0; 1].
Proof. vm_compute. reflexivity. Qed.
Lemma whole_quiet : quiet 2 whole = true.
Proof. vm_compute. reflexivity. Qed.
Lemma whole_ends {V} (op : V -> V -> V) (m : nat -> @memory V) j : (forall a b, op a b = op b a) -> j < 2 ->
  before_phase op 2 whole m (node_barriers (whole 0) + 1) 0 (Recvbuf, j) = total op (fun q => m q (Sendbuf, j)) 2.
Proof. intros C H. destruct j as [|[|j]]; [| |lia]; vm_compute; first [reflexivity|apply C]. Qed.
Example C84_reduce_with_ports {V} (op : V -> V -> V) : (forall a b, op a b = op b a) -> sums_up_at op 2 0 whole 2.
Proof.
  intros C m s R F j Hj. rewrite <- (whole_ends op m j C Hj).
  apply (C83_race_free_code_is_deterministic op 2 _ m (quiet_race_free 2 _ whole_quiet) s R F 0 (Recvbuf, j)). lia.
Qed.
