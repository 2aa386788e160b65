(* Model of the choice of the ports and of the schedule:
   src/core/recursive_factors.c:98-133, 214-238,
   src/mpi/num_ports_factors.c:66-80, 105-190,
   src/mpi/ext_mpi.c:225-300 (allgatherv), 425-472 (reduce_scatter), 640-663
   (allreduce) and the calls of the generators, src/mpi/ext_mpi_native.c:736-742,
   1048-1054, 1532-1538, src/core/allreduce.c:349-355.
   One rank per node, so there are as many nodes as ranks; more than one node
   (otherwise 117-120 of num_ports_factors.c set the ports without this choice).
   No ports are given by the environment or the info object, and
   minimum_computation is 0. *)
From Verif Require Import Base FactorsModel SchedModel RecursiveModel CyclicModel CycRedModel.

(* 217-227: [l] is the last positive factor, None stands for INT_MAX *)
Definition cancel_step (a : bool * option Z) (x : Z) : bool * option Z :=
  if (0 <? x)%Z && match snd a with Some l => (x <=? l)%Z | None => true end then (fst a, Some x)
  else if (0 <? x)%Z then (true, snd a) else a.
Definition cancelled (f : list Z) : bool := fst (fold_left cancel_step f (false, None)).
(* 228-236: the list is removed, the others keep their order *)
Definition cancel_factors (fs : list (list Z)) : list (list Z) := filter (fun f => negb (cancelled f)) fs.

(* 98-133, ext_mpi_min_cost_total: the loop for the smallest cost.  The costs T
   (double; read from a benchmark) are given, only their order matters; [limit]
   is 1e99.  None is ind_min = -1. *)
Fixpoint min_cost (T : list Z -> Z) (best : Z) (at_ : option nat) (i : nat) (fs : list (list Z)) : option nat :=
  match fs with
  | [] => at_
  | f :: r => if (T f <? best)%Z then min_cost T (T f) (Some i) (S i) r else min_cost T best at_ (S i) r
  end.

(* num_ports_factors.c:131-141; groups[j - 1] is negative for the last j *)
Definition port_of (x : Z) : Z := if (0 <? x)%Z then (x - 1)%Z else (x + 1)%Z.
Definition ports_of_factors (f : list Z) : list Z := map port_of f.
Definition groups_of_factors (n : Z) (f : list Z) : list Z := repeat n (length f - 1) ++ [(- n)%Z].

(* get_group_size, 66-80; num_ports[1] is the terminating 0 for one port *)
Definition group_size (ports : list Z) : Z :=
  fold_left (fun g p => if (0 <? p)%Z then (g * (Z.abs p + 1))%Z else g) ports
            (match ports with _ :: _ :: _ => 1%Z | _ => 0%Z end).

(* ext_mpi_num_ports_factors, 121-154, ag = collective_type: the ports and the
   groups; the other ranks get them from rank 0.  With ind_min = -1 factors[-1]
   is accessed: None. *)
Definition choose (T : list Z -> Z) (limit : Z) (ag : bool) (n : Z) : option (list Z * list Z) :=
  let fs := cancel_factors (factor_lists ag n) in
  match min_cost T limit None 0 fs with
  | Some i => let f := nth i fs [] in Some (ports_of_factors f, groups_of_factors n f)
  | None => None
  end.

(* ext_mpi.c:274, 472, 663 and get_param, num_ports_factors.c:9-23: the value of
   the parameter ext_mpi_not_recursive, if it is set (the environment can only
   set 1, ext_mpi.c:61; the info object any value), or
   group_size != comm_size / cores *)
Definition not_recursive (param : option bool) (n : Z) (ports : list Z) : bool :=
  match param with Some b => b | None => negb (group_size ports =? n)%Z end.

(* the number of groups, allreduce.c:349-355: ngroups[1] is the number of
   negative groups less ngroups[0] and ngroups[2] (13-20), so the sum is the
   number of negative groups *)
Definition ngroups (groups : list Z) : nat := length (filter (fun g => (g <? 0)%Z) groups).

(* allreduce_core of allreduce_single.c runs over the negative ports as long as
   they come (206), then over the rest (251, 335) *)
Fixpoint negatives (ports : list Z) : list Z :=
  match ports with p :: r => if (p <? 0)%Z then p :: negatives r else [] | [] => [] end.
Fixpoint after_negatives (ports : list Z) : list Z :=
  match ports with p :: r => if (p <? 0)%Z then after_negatives r else ports | [] => [] end.
Definition sizes (ports : list Z) : list nat := map (fun p => Z.to_nat (Z.abs p)) ports.

(* The schedule of a node, None if the choice fails or if there is more than
   one group (not modelled).  allreduce: *)
Definition choose_allreduce (param : option bool) (T : list Z -> Z) (limit : Z) (N : nat) : option (nat -> list block) :=
  match choose T limit false (Z.of_nat N) with
  | Some (ports, groups) =>
    if not_recursive param (Z.of_nat N) ports then
      if ngroups groups =? 1
      then Some (cyclic_reduce N (sizes (negatives ports)) (sizes (after_negatives ports))) else None
    else Some (generate_recursive false ports)
  | None => None
  end.
(* allgather *)
Definition choose_allgather (param : option bool) (T : list Z -> Z) (limit : Z) (N : nat) : option (nat -> list block) :=
  match choose T limit true (Z.of_nat N) with
  | Some (ports, groups) =>
    if not_recursive param (Z.of_nat N) ports then
      if ngroups groups =? 1 then Some (cyclic_allgather N (sizes ports)) else None
    else Some (generate_recursive true ports)
  | None => None
  end.
(* reduce_scatter: the ports of an allgather, in the other order and negated,
   ext_mpi.c:466-470 *)
Definition choose_reduce_scatter (param : option bool) (T : list Z -> Z) (limit : Z) (N : nat) : option (nat -> list block) :=
  match choose T limit true (Z.of_nat N) with
  | Some (ports, groups) =>
    let back := map Z.opp (rev ports) in
    if not_recursive param (Z.of_nat N) ports then
      if ngroups groups =? 1
      then Some (cyclic_reduce N (sizes (negatives back)) (sizes (after_negatives back))) else None
    else Some (generate_recursive false back)
  | None => None
  end.
