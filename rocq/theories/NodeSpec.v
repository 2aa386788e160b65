(* What the on-node copy-in reduction has to do, without reference to the code.

   A node has n cores; core c owns a send buffer, [send c b] being its byte b
   (more precisely: the cell b, see NodeModel.v).  The buffer consists of parts
   of the lengths [counts], one after the other.  The reduced vector is wanted in
   another order of the parts, [fracs].  Afterwards byte x of the reduced vector
   has to be the reduction, over all cores, of the byte of the send buffers that
   belongs there - every core contributing exactly once. *)
From Verif Require Import Base NodeModel.
From Coq Require Import Permutation.
Local Open Scope nat_scope.

Definition product (l : list nat) : nat := fold_right Nat.mul 1 l.
Definition bytes (counts : list Z) : Z := fold_right Z.add 0%Z counts.

(* the send buffer bytes in the order of the reduced vector *)
Definition part (counts : list Z) (f : nat) : list Z :=
  map (fun i => (bytes (firstn f counts) + Z.of_nat i)%Z) (seq 0 (Z.to_nat (nth f counts 0%Z))).
Definition order (counts : list Z) (fracs : list nat) : list Z := flat_map (part counts) fracs.

(* the reduction of one byte over all cores *)
Definition reduction {V} (op : V -> V -> V) (e : V) (send : nat -> Z -> V) (n : nat) (b : Z) : V :=
  fold_right op e (map (fun c => send c b) (seq 0 n)).

(* Instances of the vector in the shared memory.  A single part of at most 56
   bytes in host memory: one cache line of 64 bytes per instance, the first 8 bytes
   of which hold a flag; otherwise the instances are packed.  The result is
   instance 0. *)
Definition small (p : node_par) : bool :=
  match n_counts p with [z] => (z <=? 56)%Z && negb (n_gpu p) | _ => false end.
Definition cell (p : node_par) (inst : nat) (x : Z) : Z :=
  if small p then (Z.of_nat inst * 64 + 8 + x)%Z else (Z.of_nat inst * bytes (n_counts p) + x)%Z.

Definition count_waits (l : list instr) : nat :=
  length (filter (fun i => match i with Wait _ => true | _ => false end) l).

(* Admissible parameters.  The first factor divides the number of cores; the
   factors multiply to the number of cores, or to more if the vector has less than
   128 bytes (cost_copyin_measurement.c chooses them like this). *)
Record copyin_ok (p : node_par) : Prop := {
  ok_cores : 0 < n_cores p;
  ok_factors : n_factors p <> [] /\ Forall (fun f => 0 < f) (n_factors p);
  ok_first : n_cores p mod hd 1 (n_factors p) = 0;
  ok_product : product (n_factors p) = n_cores p \/
               (n_cores p <= product (n_factors p) /\ (bytes (n_counts p) < 128)%Z);
  ok_counts : Forall (fun z => (0 <= z)%Z) (n_counts p) /\ (0 < bytes (n_counts p))%Z;
  ok_type : (0 < n_type p)%Z /\ (exists k, bytes (n_counts p) = k * n_type p)%Z;
  ok_fracs : Permutation (n_fracs p) (seq 0 (length (n_counts p)))
}.

(* a commutative monoid *)
Record comm_monoid {V} (op : V -> V -> V) (e : V) : Prop := {
  cm_assoc : forall a b c, op a (op b c) = op (op a b) c;
  cm_comm : forall a b, op a b = op b a;
  cm_neutral : forall a, op e a = a
}.

(* If the factors multiply to more than the number of cores, there are instances no
   core copies into; they have to hold the neutral element beforehand (the shared
   memory is filled with zeros, and the operations are sums). *)
Definition idle_neutral {V} (p : node_par) (e : V) (m0 : Z -> V) : Prop :=
  forall i x, n_cores p <= i * hd 1 (n_factors p) -> i < product (tl (n_factors p)) ->
    (0 <= x < bytes (n_counts p))%Z -> m0 (cell p i x) = e.

(* The second method, which pairs the upper cores with lower ones first: factors
   1, 2, ..., 2 with the least product that is not below the number of cores; at
   least two cores; not the layout in cache lines. *)
Record half_ok (p : node_par) : Prop := {
  hf_factors : exists k, n_factors p = 1 :: repeat 2 (S k) /\ 2 ^ k < n_cores p <= 2 ^ S k;
  hf_layout : small p = false;
  hf_counts : Forall (fun z => (0 <= z)%Z) (n_counts p) /\ (0 < bytes (n_counts p))%Z;
  hf_type : (0 < n_type p)%Z /\ (exists k, bytes (n_counts p) = k * n_type p)%Z;
  hf_fracs : Permutation (n_fracs p) (seq 0 (length (n_counts p)))
}.

(* Every core ends, whatever the others do: a state in which no core can go on is
   a state in which all have finished. *)
Definition finished {V} (n : nat) (s : @nstate V) : Prop := forall c, c < n -> rest s c = [].
Definition work {V} (n : nat) (s : @nstate V) : nat := list_sum (map (fun c => length (rest s c)) (seq 0 n)).
