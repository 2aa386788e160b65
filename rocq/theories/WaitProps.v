From Verif Require Import Base WaitModel WaitSpec WaitProofs.

(* C08, calls that are right.  In all of them [fin] is an arbitrary completion
   pattern and the list of requests is arbitrary, with at least one request of
   the library in it; otherwise the call is forwarded unchanged. *)

(* MPI_Testall with a status array: the flag is set iff every request is
   complete; all requests found finished are collected, the others untouched. *)
Theorem C08_testall :
  forall (fin : nat -> nat -> bool) (t : nat) (rs : list req), some_ours rs ->
  exists rs' flag, testall fin false t rs = Returned rs' flag /\
    (flag = true <-> all_complete fin t rs) /\
    length rs' = length rs /\
    (forall i r, nth_error rs i = Some r -> nth_error rs' i = Some (collected fin t i r)).
Proof. intros fin t rs H. apply testall_ok, any_ours_iff, H. Qed.
Print Assumptions C08_testall.

(* MPI_Testany: reports a request that is not pending and collects only it, or
   reports nothing, and then all are pending. *)
Theorem C08_testany :
  forall (fin : nat -> nat -> bool) (t : nat) (rs : list req), some_ours rs ->
  exists rs' o, testany fin t rs = Returned rs' o /\
    match o with
    | Some i => exists r, nth_error rs i = Some r /\ ~ pending fin (t + i) i r /\
                  rs' = lset rs i (Req (ours r) false)
    | None => none_complete fin t rs /\ rs' = rs
    end.
Proof. intros fin t rs H. apply testany_ok, any_ours_iff, H. Qed.
Print Assumptions C08_testany.

(* MPI_Waitall: all requests are complete when it returns. *)
Theorem C08_waitall :
  forall (rs : list req), some_ours rs ->
  exists rs', waitall rs = Returned rs' tt /\ length rs' = length rs /\
    forall i r, nth_error rs i = Some r -> nth_error rs' i = Some (Req (ours r) false).
Proof. intros rs H. apply waitall_ok, any_ours_iff, H. Qed.
Print Assumptions C08_waitall.

(* MPI_Waitany: a returned index is not pending and only that request is
   collected ... *)
Theorem C08_waitany :
  forall (fin : nat -> nat -> bool) (fuel t : nat) (rs : list req) (x : outcome nat),
  some_ours rs -> waitany fin fuel t rs = Some x ->
  exists i rs' t' r, x = Returned rs' i /\ t <= t' /\
    nth_error rs i = Some r /\ ~ pending fin t' i r /\ rs' = lset rs i (Req (ours r) false).
Proof. exact waitany_ok. Qed.
Print Assumptions C08_waitany.

(* ... MPI_Waitsome does the same and reports one request ... *)
Theorem C08_waitsome :
  forall (fin : nat -> nat -> bool) (fuel t : nat) (rs : list req) (x : outcome (nat * nat)),
  some_ours rs -> waitsome fin fuel t rs = Some x ->
  exists i rs' t' r, x = Returned rs' (1, i) /\ t <= t' /\
    nth_error rs i = Some r /\ ~ pending fin t' i r /\ rs' = lset rs i (Req (ours r) false).
Proof. exact waitsome_ok. Qed.
Print Assumptions C08_waitsome.

(* ... and both calls return if some request is finished from test t0 on. *)
Theorem C08_waitany_returns :
  forall (fin : nat -> nat -> bool) (rs : list req) (i : nat) (r : req) (t0 : nat),
  nth_error rs i = Some r -> (forall t, t0 <= t -> fin t i = true) ->
  forall d t, t0 <= t + d * length rs ->
  waitany fin (S d) t rs <> None /\ waitsome fin (S d) t rs <> None.
Proof. exact waitany_returns_ok. Qed.
Print Assumptions C08_waitany_returns.

(* The calls are passed on to the MPI library exactly if the list contains no
   request of this library. *)
Theorem C08_forwarded :
  forall (fin : nat -> nat -> bool) (ignore : bool) (fuel t : nat) (rs : list req),
  (~ some_ours rs <-> waitall rs = Forwarded) /\
  (~ some_ours rs <-> testall fin ignore t rs = Forwarded) /\
  (~ some_ours rs <-> testany fin t rs = Forwarded) /\
  (~ some_ours rs <-> testsome fin t rs = Forwarded) /\
  (~ some_ours rs <-> waitany fin fuel t rs = Some Forwarded) /\
  (~ some_ours rs <-> waitsome fin fuel t rs = Some Forwarded).
Proof. exact forwarded_ok. Qed.
Print Assumptions C08_forwarded.

Example C08_example :
  let rs := [Req false true; Req true true; Req true false] in
  let fin := fun t i => (i =? 1) in
  some_ours rs /\ ~ all_complete fin 5 rs /\
  testany fin 5 rs = Returned [Req false true; Req true false; Req true false] (Some 1).
Proof.
  split; [exists (Req true true); simpl; auto|]. split; [|reflexivity].
  intros H. apply (H 0 (Req false true)); [reflexivity|]. split; reflexivity.
Qed.

(* C08 fails for MPI_Testall with MPI_STATUSES_IGNORE: the flag is not set
   exactly when all requests are complete ... *)
Theorem C08_testall_ignore_refuted :
  ~ forall (fin : nat -> nat -> bool) (t : nat) (rs : list req), some_ours rs ->
    exists rs' flag, testall fin true t rs = Returned rs' flag /\
      (flag = true <-> all_complete fin t rs).
Proof. intros H. apply testall_ignore_wrong. intros fin t rs E. apply H, any_ours_iff, E. Qed.
Print Assumptions C08_testall_ignore_refuted.

(* ... it is set whatever the state of the requests. *)
Theorem C08_testall_ignore_always_true_refuted :
  forall (fin : nat -> nat -> bool) (t : nat) (rs : list req), some_ours rs ->
  exists rs', testall fin true t rs = Returned rs' true.
Proof. intros fin t rs H. apply testall_ignore_always_true, any_ours_iff, H. Qed.
Print Assumptions C08_testall_ignore_always_true_refuted.

(* C08 fails for MPI_Testsome: if no request is complete it reports one
   completed request, whose index it does not write. *)
Theorem C08_testsome_refuted :
  forall (fin : nat -> nat -> bool) (t : nat) (rs : list req), some_ours rs ->
  none_complete fin t rs -> testsome fin t rs = Returned rs (1, None).
Proof. intros fin t rs H. apply testsome_wrong, any_ours_iff, H. Qed.
Print Assumptions C08_testsome_refuted.

Example C08_testsome_example :
  let rs := [Req true true; Req true true] in
  some_ours rs /\ none_complete (fun _ _ => false) 0 rs /\
  ~ all_complete (fun _ _ => false) 0 rs.
Proof.
  split; [exists (Req true true); simpl; auto|]. repeat split.
  - destruct i as [|[|i]]; simpl in H; try (injection H as <-; reflexivity). destruct i; discriminate.
  - intros H. apply (H 0 (Req true true)); [reflexivity|]. split; reflexivity.
Qed.

(* C34 fails: once the first request, a collective of the library, is
   complete and collected, MPI_Waitany reports it again and again, whatever
   other requests are active or finished. *)
Theorem C34_waitany_drains_refuted :
  forall (fin : nat -> nat -> bool) (fuel t : nat) (rs : list req), 0 < fuel ->
  waitany fin fuel t (Req true false :: rs) = Some (Returned (Req true false :: rs) 0).
Proof. intros. unfold waitany. simpl any_ours. cbv iota. rewrite waitany_stuck_on_first; auto. Qed.
Print Assumptions C34_waitany_drains_refuted.
