(* Executions of a schedule in which the lines of a node are stored one behind
   the other, in an order that may change from stage to stage. *)
From Verif Require Import Base SchedModel SchedSpec.

(* Line n of node q is at the same place in stage m + 1 as in stage m. *)
Definition kept (alg : nat -> list block) (m q n : nat) : Prop :=
  forall k, k <= n -> frac (lines (nth m (alg q) empty_block) k) = frac (lines (nth (S m) (alg q) empty_block) k).

(* S 0, S 1, ...: the contents of the lines behind the stages 0, 1, ...; stage
   m + 1 finds the contents left by stage m in the lines that are kept, and
   anything in the others. *)
Definition loosely {V} (op : V -> V -> V) (N : nat) (alg : nat -> list block) (count : nat)
  (S : nat -> nat -> nat -> V) : Prop :=
  forall m, m + 1 < count -> exists st,
    (forall q n, q < N -> kept alg m q n -> st q n = S m q n) /\
    (forall q n, q < N -> S (m + 1) q n = stage op N (fun p => nth (m + 1) (alg p) empty_block) st q n).
