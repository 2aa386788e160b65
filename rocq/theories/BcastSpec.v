(* What a broadcast is required to do. *)
From Verif Require Import Base SchedModel SchedSpec RawModel RawSpec RootSpec.

(* A node gets the root's vector of [count] elements, shifted cyclically by [by_]
   elements; nothing else changes. *)
Definition broadcast_by {V} (by_ root count : nat) (old : nat -> @memory V) (q : nat) (new : @memory V) : Prop :=
  if q =? root then unchanged (old q) new
  else receives_only count (old q) new (fun j => old root (Recvbuf, (j + by_) mod count)).

(* Broadcast: the vector of the root at every node. *)
Definition broadcast {V} (root count : nat) (old : nat -> @memory V) (q : nat) (new : @memory V) : Prop :=
  if q =? root then unchanged (old q) new
  else receives_only count (old q) new (fun j => old root (Recvbuf, j)).
