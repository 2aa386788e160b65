(* What is required of code executed by several cores per node, as in RawSpec.v
   for one core per node. *)
From Verif Require Import Base RawModel RawSpec MultiModel.

Definition cnever_stuck {V} (op : V -> V -> V) (N c : nat) (prog : nat -> list instr) (m : nat -> @memory V) : Prop :=
  forall s, creach op N c (cstart prog m) s -> (forall k, k < N * c -> cfinished s k) \/ exists t, cstep op N c s t.

(* When any core of a node has finished, the memory of the node is as described by [result]. *)
Definition ccomputes {V} (op : V -> V -> V) (N c : nat) (prog : nat -> list instr) (m : nat -> @memory V)
  (result : nat -> @memory V -> Prop) : Prop :=
  forall s p r, creach op N c (cstart prog m) s -> p < N -> r < c -> cfinished s (p * c + r) -> result p (nmem s p).

Definition cleaves_nothing {V} (op : V -> V -> V) (N c : nat) (prog : nat -> list instr) (m : nat -> @memory V) : Prop :=
  forall s, creach op N c (cstart prog m) s -> (forall k, k < N * c -> cfinished s k) ->
  forall j k, j < N * c -> k < N * c -> cchan s j k = [] /\ csending (cores s k) = [] /\ creceiving (cores s k) = [].

(* The code [cprog] of the cores does what [prog] does with one core per node. *)
Definition as_one_core {V} (op : V -> V -> V) (N c : nat) (prog cprog : nat -> list instr) (m : nat -> @memory V) : Prop :=
  cnever_stuck op N c cprog m /\ cleaves_nothing op N c cprog m /\
  forall result, computes op N prog m result -> ccomputes op N c cprog m result.
