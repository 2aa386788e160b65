From Verif Require Import Base TextModel PortsModel PortsSpec PortsProofs.

(* C12: any non-empty sequence of groups *)
Theorem C12_ports_groups_round_trip :
  forall bs, bs <> [] -> Forall group_ok bs ->
  exists t, print_ports_groups (ports_of bs) (groups_of bs) = Some t /\
            scan_ports_groups t = Some (ports_of bs, groups_of bs).
Proof. exact ports_round_trip. Qed.
Print Assumptions C12_ports_groups_round_trip.

Example C12_example :
  let bs := [Group 4 [3; -2]; Group 12 [-11]]%Z in
  ports_of bs = [3; -2; -11]%Z /\ groups_of bs = [4; -4; -12]%Z /\
  print_ports_groups (ports_of bs) (groups_of bs) = Some (txt "4(3 -2) 12(-11)").
Proof. split; [|split]; vm_compute; reflexivity. Qed.
Example C12_example_ok : Forall group_ok [Group 4 [3; -2]; Group 12 [-11]]%Z.
Proof. repeat constructor; cbn; try lia; discriminate. Qed.

(* The empty configuration cannot be printed: the code writes before its buffer. *)
Theorem C12_empty_configuration_refuted : print_ports_groups [] [] = None.
Proof. reflexivity. Qed.
Print Assumptions C12_empty_configuration_refuted.

(* C13: any method number, any list of integers *)
Theorem C13_copyin_round_trip :
  forall m fs, scan_copyin (print_copyin m fs) = Some (m, fs).
Proof. exact copyin_round_trip. Qed.
Print Assumptions C13_copyin_round_trip.

Example C13_example : print_copyin 3 [2; 12]%Z = txt "3;2 12".
Proof. vm_compute; reflexivity. Qed.
