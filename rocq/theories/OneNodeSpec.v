(* What the settings for the processes of one node have to fulfil. *)
From Verif Require Import Base SchedModel SchedSpec RecursiveModel RecursiveSpec RawModel SocketModel.
Local Open Scope nat_scope.

(* The ports make an allreduce among s sockets; with one socket nothing is exchanged. *)
Definition ports_fit (s : nat) (ports : list Z) : Prop :=
  s = 1 \/ exists down up, ports = down ++ up /\ balanced down [] up /\ node_count up = s.

(* Whatever the order in which the processes go on: when all have finished, the root has the sum. *)
Definition sums_up_at {V} (op : V -> V -> V) (S root : nat) (code : nat -> list sline) (count : nat) : Prop :=
  forall m s, sreach op S (sstart code m) s -> (forall p, p < S -> scode s p = []) ->
  forall j, j < count -> smem s root (Recvbuf, j) = total op (fun q => m q (Sendbuf, j)) S.
