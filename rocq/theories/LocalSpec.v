(* What Allreduce, Reduce and Bcast among the cores of one node have to do, execution
   after execution.  [sent send z k c] is the vector core c passes to execution k. *)
From Verif Require Import Base NodeModel NodeSpec SingleModel SingleSpec LocalModel.
Local Open Scope nat_scope.

Definition sent {V} (send : nat -> Z -> V) (z : Z) (k : nat) : nat -> Z -> V :=
  fun c b => send c (Z.of_nat k * z + b)%Z.
(* Byte y of what core c has received in execution k. *)
Definition received {V} (p : node_par) (s : @bstate V) (k c : nat) (y : Z) : V :=
  bmem s (recv_cell (n_cores p) (bytes (n_counts p)) k c y).

(* One message size, as there is one node; an admissible tree of cores. *)
Definition local_ok (p : node_par) (half : bool) : Prop :=
  (exists z, n_counts p = [z]) /\ (if half then half_ok p else copyin_ok p).

(* The counters of the flags do not pass 2^31 within two executions. *)
Definition waits_in (l : list micro) : nat :=
  length (filter (fun x => match x with MWait _ => true | _ => false end) l).
Definition few_waits (p : node_par) (half : bool) (root : Z) (first : bool) : Prop :=
  (Z.of_nat (2 * waits_in (local_code p half root first 0 0 0) + 1) < 2 ^ 31)%Z.

(* Instances of the tree to which no core belongs hold the neutral element, in both segments. *)
Definition idle {V} (p : node_par) (half : bool) (e : V) (m0 : Z -> V) : Prop :=
  half = false -> forall b, b < 2 -> idle_neutral p e (fun a => m0 (shm_cell b (is_fast p) a)).

(* Two executions do not use the same segment without a barrier in between. *)
Definition separated (first alt : bool) : Prop := first = true \/ alt = true.

(* Messages that do not take the short way through the cache lines. *)
Definition long_message (p : node_par) : Prop := small p = false.
