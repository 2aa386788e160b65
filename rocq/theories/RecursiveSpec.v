(* The port lists for which the recursive generators are meant. *)
From Verif Require Import Base.

(* Number of nodes connected by exchanging with |p| partners in each step. *)
Definition node_count (ports : list Z) : nat :=
  fold_right (fun p a => (Z.to_nat (Z.abs p) + 1) * a) 1 ports.

Definition positive (ports : list Z) : Prop := Forall (fun p => (0 < p)%Z) ports.
Definition negative (ports : list Z) : Prop := Forall (fun p => (p < 0)%Z) ports.
Definition nonzero (ports : list Z) : Prop := Forall (fun p => p <> 0%Z) ports.

(* An allreduce port list: reduce-scatter steps (negative), full exchanges, and
   allgather steps that undo the splitting of the reduce-scatter steps. *)
Definition balanced (down mid up : list Z) : Prop :=
  negative down /\ positive mid /\ positive up /\
  node_count up = node_count down /\ down ++ mid ++ up <> [].
