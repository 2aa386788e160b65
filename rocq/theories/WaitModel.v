(* Model of the completion calls of src/mpi/ext_mpi_interface.c:138-281 over
   lists of requests, some created by the library ("ours"), some not. *)
From Verif Require Import Base.

(* A request in the list: does the registry know it (ext_mpi_hash_search >= 0),
   and is it active, i.e. started / posted and not yet completed by a call. *)
Record req := Req { ours : bool; active : bool }.

Section Calls.
  (* [fin t i]: the operation of request number i has finished when the t-th
     test of the execution looks at it. *)
  Context (fin : nat -> nat -> bool).

  (* MPI_Test (213-221): EXT_MPI_Test for our requests (ext_mpi_native.c:249),
     PMPI_Test for others.  An inactive request gives flag = 1 in both cases:
     for ours the execution pointer is NULL, for others by the MPI standard. *)
  Definition mpi_test (t i : nat) (r : req) : req * bool :=
    if active r then
      if fin t i then (Req (ours r) false, true) else (r, false)
    else (r, true).

  (* MPI_Wait (138-146): returns when the operation has finished; the return
     value is MPI_SUCCESS. *)
  Definition mpi_wait (r : req) : req := Req (ours r) false.

  (* is_in_request_array (148-156) *)
  Definition any_ours (rs : list req) : bool := existsb ours rs.

  (* Results; [Forwarded]: the corresponding PMPI call is made with the same
     arguments. *)
  Inductive outcome (A : Type) := Forwarded | Returned (rs : list req) (a : A).

  (* MPI_Waitall (158-179), both branches. *)
  Definition waitall (rs : list req) : outcome unit :=
    if any_ours rs then Returned _ (map mpi_wait rs) tt else Forwarded _.

  (* The loops of MPI_Testall (230-236 and 239-245): test all requests in
     order.  The result is the list of local flags lflag. *)
  Fixpoint test_each (t i : nat) (rs : list req) : list req * list bool :=
    match rs with
    | [] => ([], [])
    | r :: rs' =>
      let (r', f) := mpi_test t i r in
      let (rs'', fs) := test_each (S t) (S i) rs' in (r' :: rs'', f :: fs)
    end.

  (* MPI_Testall (223-248).  With MPI_STATUSES_IGNORE line 235 is
     "if (!lflag) flag=0;", which clears the local pointer, not the result. *)
  Definition testall (ignore : bool) (t : nat) (rs : list req) : outcome bool :=
    if any_ours rs then
      let (rs', fs) := test_each t 0 rs in
      if ignore
      then Returned _ rs' true
      else Returned _ rs' (fold_left (fun flag lflag => if negb lflag then false else flag) fs true)
    else Forwarded _.

  (* The loop of MPI_Testany (256-266) and of one pass of MPI_Waitany
     (187-196): first request whose test gives a flag. *)
  Fixpoint first_flag (t i : nat) (rs : list req) : list req * option nat :=
    match rs with
    | [] => ([], None)
    | r :: rs' =>
      let (r', f) := mpi_test t i r in
      if f then (r' :: rs', Some i)
      else let (rs'', o) := first_flag (S t) (S i) rs' in (r' :: rs'', o)
    end.

  (* MPI_Testany (250-268): flag and index (the index is not written if no
     request is complete). *)
  Definition testany (t : nat) (rs : list req) : outcome (option nat) :=
    if any_ours rs then let (rs', o) := first_flag t 0 rs in Returned _ rs' o
    else Forwarded _.

  (* MPI_Testsome (270-281): outcount and the first entry of the index array;
     [None] = the entry is left unwritten. *)
  Definition testsome (t : nat) (rs : list req) : outcome (nat * option nat) :=
    if any_ours rs then let (rs', o) := first_flag t 0 rs in Returned _ rs' (1, o)
    else Forwarded _.

  (* MPI_Waitany (181-199); [None] = still looping after [fuel] passes. *)
  Fixpoint waitany_loop (fuel t : nat) (rs : list req) : option (list req * nat) :=
    match fuel with
    | O => None
    | S f =>
      match first_flag t 0 rs with
      | (rs', Some i) => Some (rs', i)
      | (rs', None) => waitany_loop f (t + length rs) rs'
      end
    end.
  Definition waitany (fuel t : nat) (rs : list req) : option (outcome nat) :=
    if any_ours rs then
      match waitany_loop fuel t rs with
      | Some (rs', i) => Some (Returned _ rs' i)
      | None => None
      end
    else Some (Forwarded _).

  (* MPI_Waitsome (201-211): outcount and index. *)
  Definition waitsome (fuel t : nat) (rs : list req) : option (outcome (nat * nat)) :=
    if any_ours rs then
      match waitany_loop fuel t rs with
      | Some (rs', i) => Some (Returned _ rs' (1, i))
      | None => None
      end
    else Some (Forwarded _).
End Calls.
Arguments Forwarded {A}.
Arguments Returned {A}.
