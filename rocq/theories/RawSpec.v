(* What the generated code is required to do. *)
From Verif Require Import Base SchedModel SchedSpec RecursiveModel RecursiveSpec CyclicModel CyclicSpec RawModel.

(* In a stage 1 <= m < blocks, line n of node q holds fragment F q n: the same in all stages. *)
Definition fixed_layout (N : nat) (alg : nat -> list block) (blocks : nat) (F : nat -> nat -> nat) : Prop :=
  forall m q n, 1 <= m < blocks -> q < N -> n < num_lines (nth m (alg q) empty_block) ->
    frac (lines (nth m (alg q) empty_block) n) = F q n.

(* Element i of line n, if the lines hold the fragments F 0, F 1, ..., one behind the other. *)
Fixpoint room (size_of : nat -> nat) (F : nat -> nat) (n : nat) : nat :=
  match n with
  | O => 0
  | S k => room size_of F k + size_of (F k)
  end.
Definition cell (size_of : nat -> nat) (F : nat -> nat) (n i : nat) : loc := (Shm 0, room size_of F n + i).

(* Whatever the nodes did so far: all have finished, or some node can go on. *)
Definition never_stuck {V} (op : V -> V -> V) (N : nat) (prog : nat -> list instr) (m : nat -> @memory V) : Prop :=
  forall s, reach op N (start prog m) s -> (forall p, p < N -> finished s p) \/ exists t, step op N s t.

(* A node that has finished has a memory as described by [result]. *)
Definition computes {V} (op : V -> V -> V) (N : nat) (prog : nat -> list instr) (m : nat -> @memory V)
  (result : nat -> @memory V -> Prop) : Prop :=
  forall s q, reach op N (start prog m) s -> q < N -> finished s q -> result q (mem (procs s q)).

(* When all have finished, no message and no request is left over. *)
Definition leaves_nothing {V} (op : V -> V -> V) (N : nat) (prog : nat -> list instr) (m : nat -> @memory V) : Prop :=
  forall s, reach op N (start prog m) s -> (forall p, p < N -> finished s p) ->
  forall p q, p < N -> q < N -> chan s p q = [] /\ sending (procs s p) = [] /\ receiving (procs s p) = [].

(* n steps *)
Inductive steps {V} (op : V -> V -> V) (N : nat) (s : @system V) : nat -> @system V -> Prop :=
| Steps0 : steps op N s 0 s
| StepsS n t u : steps op N s n t -> step op N t u -> steps op N s (S n) u.

(* The user's buffers after a collective of which [len] elements end up in the
   receive buffer: everything else is unchanged. *)
Definition receives_only {V} (len : nat) (old new : @memory V) (value : nat -> V) : Prop :=
  (forall j, j < len -> new (Recvbuf, j) = value j) /\
  (forall j, len <= j -> new (Recvbuf, j) = old (Recvbuf, j)) /\
  (forall j, new (Sendbuf, j) = old (Sendbuf, j)).

(* The elements of the vector that belong to node f begin at [first_of counts f]. *)
Fixpoint first_of (counts : nat -> nat) (f : nat) : nat :=
  match f with
  | O => 0
  | S k => first_of counts k + counts k
  end.

(* ---------- sequences of calls ---------- *)

(* A collective with the parameters that select the schedule. *)
Inductive call :=
| Allreduce (down mid up : list Z) (count : nat)
| Allgather (ports : list Z) (counts : nat -> nat)
| AllgatherCyclic (ports : list nat) (counts : nat -> nat)
| ReduceScatter (ports : list Z) (counts : nat -> nat).

Definition admissible (N : nat) (c : call) : Prop :=
  match c with
  | Allreduce down mid up _ => balanced down mid up /\ node_count (mid ++ up) = N
  | Allgather ports _ => node_count ports = N
  | AllgatherCyclic ports _ => minimal N ports
  | ReduceScatter ports _ => nonzero ports /\ (last ports 0 < 0)%Z /\ node_count ports = N
  end.

(* The code of the call at node q, with the generated schedule. *)
Definition call_program (N : nat) (c : call) (q : nat) : list instr :=
  match c with
  | Allreduce down mid up count => allreduce_program (generate_recursive false (down ++ mid ++ up) q) count N q
  | Allgather ports counts => allgather_program (generate_recursive true ports q) counts N q
  | AllgatherCyclic ports counts => allgather_program (cyclic_allgather N ports q) counts N q
  | ReduceScatter ports counts => reduce_scatter_program (generate_recursive false ports q) counts N q
  end.

(* Several calls, each after some work of the node. *)
Definition jobs_program (N : nat) (jobs : list ((nat -> list instr) * call)) (q : nat) : list instr :=
  flat_map (fun j => fst j q ++ call_program N (snd j) q) jobs.

(* What the call makes of the memories of the nodes. *)
Definition effect {V} (op : V -> V -> V) (N : nat) (c : call) (old new : nat -> @memory V) : Prop :=
  forall q, q < N ->
  match c with
  | Allreduce _ _ _ count =>
      receives_only count (old q) (new q) (fun j => total op (fun p => old p (Sendbuf, j)) N)
  | Allgather _ counts | AllgatherCyclic _ counts =>
      receives_only (first_of counts N) (old q) (new q) (fun j => new q (Recvbuf, j)) /\
      forall f i, f < N -> i < counts f -> new q (Recvbuf, first_of counts f + i) = old f (Sendbuf, i)
  | ReduceScatter _ counts =>
      receives_only (counts q) (old q) (new q) (fun j => total op (fun p => old p (Sendbuf, first_of counts q + j)) N)
  end.

(* What a node does before a call: copies and reductions in its own memory. *)
Definition own_work (l : list instr) : Prop :=
  Forall (fun i => match i with Memcpy _ _ _ | Reduce_ _ _ _ => True | _ => False end) l.
Definition after_work {V} (op : V -> V -> V) (l : list instr) (m : @memory V) : @memory V :=
  fold_left (fun m i => exec_local op i m) l m.

(* The calls, each after some work of the nodes, one after the other. *)
Fixpoint carried_out {V} (op : V -> V -> V) (N : nat) (jobs : list ((nat -> list instr) * call)) (old new : nat -> @memory V) : Prop :=
  match jobs with
  | [] => forall q a, q < N -> new q a = old q a
  | (work, c) :: r => exists next,
      effect op N c (fun q => after_work op (work q) (old q)) next /\ carried_out op N r next new
  end.
