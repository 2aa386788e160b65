(* What a reduce_scatter among the cores of one node has to do.

   Core c contributes the vector [send c]; the vector consists of one block per core,
   of the lengths [counts], one after the other.  When core c returns, its receive
   buffer holds block c of the reduced vector.  The contributions are combined in the
   order of the cores, so the result is the same in every execution even if the
   operation is not associative (floating point). *)
From Verif Require Import Base NodeModel SingleModel.
Local Open Scope nat_scope.

Definition block_start (counts : list Z) (r : nat) : Z := fold_right Z.add 0%Z (firstn r counts).

(* f 0, f 1, ... combined from the left *)
Definition in_order {V} (op : V -> V -> V) (f : nat -> V) (n : nat) : V :=
  fold_left op (map f (seq 1 (n - 1))) (f 0).

(* Core c has come to the end of its first k + 1 executions: of the [times] executions
   of [run] at most the later ones are left. *)
Definition returned {V} (run : nat -> list (nat * micro)) (times : nat) (s : @bstate V) (c k : nat) : Prop :=
  length (brest s c) + length (run (S k)) <= length (run times).

Definition bfinished {V} (n : nat) (s : @bstate V) : Prop := forall c, c < n -> brest s c = [].
Definition bwork {V} (n : nat) (s : @bstate V) : nat := list_sum (map (fun c => length (brest s c)) (seq 0 n)).

(* Admissible: at least one core, as many as fit into an int; blocks may be empty. *)
Definition counts_ok (counts : list Z) : Prop :=
  counts <> [] /\ (Z.of_nat (length counts) < 2 ^ 31)%Z /\ Forall (fun z => (0 <= z)%Z) counts.
