(* What sharing out the messages of the nodes among their cores has to achieve. *)
From Verif Require Import Base SchedModel SchedSpec.

(* [blk p] is the block of node p, [cb] (p * c + r) that of its core r.  Between
   two nodes everything is sent by one core o of the one node, to the core of
   the same number of the other node, which receives it; the lines themselves
   and the reductions stay as they are. *)
Definition shared_out (N c : nat) (blk cb : nat -> block) : Prop :=
  (forall p q, p < N -> q < N -> exists o, o < c /\
     forall r r', r < c -> r' < c ->
       sent_lines cb (p * c + r) (q * c + r') = (if (r =? o) && (r' =? o) then sent_lines blk p q else []) /\
       recv_lines cb (q * c + r') (p * c + r) = (if (r =? o) && (r' =? o) then recv_lines blk q p else [])) /\
  (forall p r, p < N -> r < c ->
     num_lines (cb (p * c + r)) = num_lines (blk p) /\
     forall n, frac (lines (cb (p * c + r)) n) = frac (lines (blk p) n) /\
               reducefrom (lines (cb (p * c + r)) n) = reducefrom (lines (blk p) n) /\
               copyreducefrom (lines (cb (p * c + r)) n) = copyreducefrom (lines (blk p) n)).

(* The nodes, numbered by [num], form groups that differ in one digit (of
   weight w and base g) of the number only, and a message goes from p to q if
   they are in one group and their digits have a distance in S. *)
Definition rotating (N : nat) (num : nat -> nat) (blk : nat -> block) : Prop :=
  exists w g (S : nat -> bool), 0 < w /\ 0 < g /\ N mod (w * g) = 0 /\
  forall p q, p < N -> q < N -> p <> q ->
    (sent_lines blk p q <> [] <->
     num q mod w = num p mod w /\ num q / (w * g) = num p / (w * g) /\
     S ((num p / w mod g + g - num q / w mod g) mod g) = true).
