(* What a collective with a root is required to do. *)
From Verif Require Import Base SchedModel SchedSpec RawModel RawSpec.

(* The user's buffers of a node that receives nothing. *)
Definition unchanged {V} (old new : @memory V) : Prop :=
  (forall j, new (Recvbuf, j) = old (Recvbuf, j)) /\ (forall j, new (Sendbuf, j) = old (Sendbuf, j)).

(* Reduce: the root gets the total of the vectors, the others nothing. *)
Definition reduced_at {V} (op : V -> V -> V) (N root count : nat) (old : nat -> @memory V) (q : nat) (new : @memory V) : Prop :=
  if q =? root then receives_only count (old q) new (fun j => total op (fun p => old p (Sendbuf, j)) N)
  else unchanged (old q) new.

(* Gather: the root gets the parts of all nodes, the others nothing. *)
Definition gathered_at {V} (N root : nat) (counts : nat -> nat) (old : nat -> @memory V) (q : nat) (new : @memory V) : Prop :=
  if q =? root then
    receives_only (first_of counts N) (old q) new (fun j => new (Recvbuf, j)) /\
    forall f i, f < N -> i < counts f -> new (Recvbuf, first_of counts f + i) = old f (Sendbuf, i)
  else unchanged (old q) new.
