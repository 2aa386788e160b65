(* Claim C22: group-local and global socket numbers. *)
From Verif Require Import Base SchedModel SchedSpec GroupModel GroupSpec GroupProofs GroupLayoutProofs.
From Verif Require Import RecursiveModel RecursiveProofs RecursiveSpec MatchProofs.
Local Open Scope Z_scope.

(* In a configuration with a way down, a middle and a way up, step -i selects the
   i-th group before the middle, step 0 the first group of the middle, step i the
   i-th group behind the middle; there are no others. *)
Theorem C22_group_of_step :
  forall down mid up sockets, hierarchy down mid up ->
  let P := layout (down ++ mid ++ up) sockets in
  groups_down P = length down /\ groups_up P = length up /\ groups_middle P = Z.of_nat (length mid) /\
  (forall i g, (0 < i)%nat -> nth_error (rev down) (i - 1) = Some g -> ports_group P (- Z.of_nat i) = Some (entries g)) /\
  (forall g r, mid = g :: r -> ports_group P 0 = Some (entries g)) /\
  (forall i g, (0 < i)%nat -> nth_error up (i - 1) = Some g -> ports_group P (Z.of_nat i) = Some (entries g)).
Proof.
  intros down mid up sockets (HP & HN & HT & HS) P. rewrite !Forall_app in HP. destruct HP as (Hd & Hm & Hu).
  split; [now apply down_count|]. split; [now apply up_count_eq|]. split; [now apply middle_count|].
  split; [intros; now apply select_down|]. split; [intros; now apply select_middle with (r := r)|intros; now apply select_up].
Qed.
Print Assumptions C22_group_of_step.
Example C22_group_example :
  let down := [([-2; -1], 6); ([-3], 4)] in let mid := [([-2; 2], 3)] in let up := [([3], 4); ([2; 1], 6)] in
  hierarchy down mid up /\
  p_ports (layout (down ++ mid ++ up) 72) = [-2; -1; -3; -2; 2; 3; 2; 1] /\
  p_groups (layout (down ++ mid ++ up) 72) = [6; -6; -4; 3; -3; -4; 6; -6].
Proof.
  repeat split; try reflexivity.
  - repeat constructor; cbn; try discriminate; lia.
  - repeat constructor; cbn; lia.
  - intros H. inversion H as [|? ? _ H']. inversion H'. lia.
Qed.

(* u0: indeterminate content of the C array *)
Theorem C22_global_of_local :
  forall P u0 s step, 0 <= s < p_sockets P -> splits P u0 step ->
  in_range P u0 step (fst (socket_local P u0 s step)) (snd (socket_local P u0 s step)) /\
  socket_global P u0 (fst (socket_local P u0 s step)) step (snd (socket_local P u0 s step)) = s.
Proof. exact (fun P u0 s step H S => conj (local_range P u0 s step H S) (local_global P u0 s step (proj1 H) S)). Qed.
Print Assumptions C22_global_of_local.

Theorem C22_local_of_global :
  forall P u0 l step c, splits P u0 step -> in_range P u0 step l c ->
  0 <= socket_global P u0 l step c < p_sockets P /\
  socket_local P u0 (socket_global P u0 l step c) step = (l, c).
Proof. exact (fun P u0 l step c S R => conj (global_range P u0 l step c S R) (global_local P u0 l step c S R)). Qed.
Print Assumptions C22_local_of_global.

(* The positions in the groups 0..k of a side together identify the socket. *)
Theorem C22_positions_identify_socket :
  forall P u0 sign k s s', sign = 1 \/ sign = -1 -> covers P u0 sign k ->
  0 <= s < p_sockets P -> 0 <= s' < p_sockets P ->
  (forall i, (i <= k)%nat -> fst (socket_local P u0 s (sign * Z.of_nat i)) =
                             fst (socket_local P u0 s' (sign * Z.of_nat i))) ->
  s = s'.
Proof. exact (fun P u0 sign k s s' Hs Hc => digits_determine P u0 sign Hs k Hc s s'). Qed.
Print Assumptions C22_positions_identify_socket.

(* A schedule that matches inside each group still matches after its partners
   have been renumbered. *)
Theorem C22_renumbered_schedule_matched :
  forall P u0 step (LB : Z * Z -> nat -> block),
  splits P u0 step ->
  (forall c, (exists l, in_range P u0 step l c) -> well_matched (Z.to_nat (snd (split_at P step u0))) (LB c)) ->
  well_matched (Z.to_nat (p_sockets P)) (fun s =>
    let '(l, c) := socket_local P u0 (Z.of_nat s) step in revise_block P u0 step c (LB c (Z.to_nat l))).
Proof. exact revise_matched. Qed.
Print Assumptions C22_renumbered_schedule_matched.

(* 12 sockets: down in 3, middle 4, up in 3; socket 7 *)
Example C22_example :
  let P := Params [-2; 3; 2] [-3; -4; -3] 12 in
  (groups_down P, groups_middle P, groups_up P) = (1%nat, 1, 1%nat) /\
  Forall (splits P 0) [-1; 0; 1] /\ covers P 0 (-1) 1 /\ covers P 0 1 1 /\
  map (fun step => socket_local P 0 7 step) [-1; 0; 1] = [(1, (0, 2)); (2, (1, 0)); (1, (0, 2))] /\
  map (fun l => socket_global P 0 l (-1) (0, 2)) [0; 1; 2] = [6; 7; 8].
Proof.
  split; [vm_compute; reflexivity|].
  split. { repeat constructor; cbn; try lia; match goal with |- (?a | ?b) => exists (b / a); vm_compute; reflexivity end. }
  split. { split; [vm_compute; repeat constructor|vm_compute; reflexivity]. }
  split. { split; [vm_compute; repeat constructor|vm_compute; reflexivity]. }
  split; vm_compute; reflexivity.
Qed.

(* the recursive schedules inside the middle groups of that machine *)
Example C22_renumbered_example :
  let P := Params [-2; 3; 2] [-3; -4; -3] 12 in
  well_matched 12 (fun s => let '(l, c) := socket_local P 0 (Z.of_nat s) 0 in
    revise_block P 0 0 c (nth 1 (generate_recursive true [3] (Z.to_nat l)) empty_block)).
Proof.
  intros P. change 12%nat with (Z.to_nat (p_sockets P)).
  apply (C22_renumbered_schedule_matched P 0 0 (fun _ l => nth 1 (generate_recursive true [3] l) empty_block)).
  - cbn. split; [lia|]. split; [lia|]. exists 1. reflexivity.
  - intros c _. exact (generated_allgather_matched [3] 1).
Qed.
