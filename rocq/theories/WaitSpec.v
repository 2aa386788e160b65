(* Vocabulary of the MPI standard for completion calls. *)
From Verif Require Import Base WaitModel.

(* At least one request of the list is a collective of the library. *)
Definition some_ours (rs : list req) : Prop := exists r, In r rs /\ ours r = true.

Section Spec.
  Context (fin : nat -> nat -> bool).

  (* Request number i is pending when looked at by test number t. *)
  Definition pending (t i : nat) (r : req) : Prop := active r = true /\ fin t i = false.

  (* When all requests are tested in order starting with test number t,
     request i is looked at by test t + i. *)
  Definition all_complete (t : nat) (rs : list req) : Prop :=
    forall i r, nth_error rs i = Some r -> ~ pending (t + i) i r.
  Definition none_complete (t : nat) (rs : list req) : Prop :=
    forall i r, nth_error rs i = Some r -> pending (t + i) i r.

  (* The state after a test of every request: those found finished are inactive. *)
  Definition collected (t i : nat) (r : req) : req :=
    Req (ours r) (active r && negb (fin (t + i) i)).
End Spec.
