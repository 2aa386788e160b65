(* What waitany.c has to achieve. *)
From Verif Require Import Base SchedModel RawModel WaitanyModel WaitanySpec WaitPassModel.
Local Open Scope nat_scope.

(* The code with every wait for any message put back to a wait for all. *)
Definition restored (ls : list wline) : list wline :=
  flat_map (fun l => match l with Any n _ => [All n] | Attached => [] | _ => [l] end) ls.

(* All messages arrive, then the reductions are done one after the other: what the code
   does without the pass. *)
Definition arrived (reqs : list request) (payload m : memory) : memory :=
  fold_left (fun m r => if is_send r then m else fun a => if insideb (base r) (size r) a then payload a else m a) reqs m.
Definition plain (reqs : list request) (payload m : memory) : memory :=
  reduce_list (flat_map reds reqs) (arrived reqs payload m).

(* Whatever the order in which the messages arrive and are reported: as without the pass. *)
Definition same_as_waitall (reqs : list request) (neg : bool) : Prop :=
  forall payload m0 tr, possible (length reqs) tr -> forall a,
  mem (exec reqs payload neg tr m0) a = plain reqs payload m0 a.

(* All messages arrive, and are reported in the order in which they were posted. *)
Definition in_order_trace (n : nat) : list event := map Transfer (seq 0 n) ++ map Complete (seq 0 n).
