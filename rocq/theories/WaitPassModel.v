(* Model of src/core/waitany.c, the pass that replaces the wait for all messages of a
   step by a wait for any of them with the reductions to be done then, and of the
   way the executor reads the result (ext_mpi_native_exec.c:124-158).
   The pass is used if bit_reproducible is 0 (ext_mpi.c:665, 705, 758, 795), for the
   recursive schedules (ext_mpi_native.c:818-824), and only with one process per node
   (waitany.c:19-22).

   Simplifications: lines are values instead of text; no lines of the types ememcp_,
   ereduc_, eirec_, eisen_ (see FinalModel.v).  Line 40 would loop for ever if the code
   did not end with "return"; here it always does. *)
From Verif Require Import Base SchedModel RawModel FinalModel WaitanyModel.
Local Open Scope nat_scope.

(* A line of the code.  [Line i]: i is not Waitall.  [All n]: ewaitall with its number
   of requests; [Any n neg]: ewaitany with its number of requests, and whether the next
   number is -1 instead of 1. *)
Inductive wline := Line (i : instr) | All (n : nat) | Any (n : nat) (neg : bool) | Attached | Return.

(* raw_code.c:104, 206-217: the number of a waitall is that of the messages since the last
   one (num_comm); the code ends with return (reduce_copyout.c). *)
Fixpoint numbered (num_comm : nat) (ls : list instr) : list wline :=
  match ls with
  | [] => [Return]
  | Waitall :: r => All num_comm :: numbered 0 r
  | i :: r => Line i :: numbered (match i with Irecv _ _ _ | Isend _ _ _ => S num_comm | _ => num_comm end) r
  end.

(* 34-47: the first reduction that follows is to the place [last] of a message *)
Fixpoint to_sent (last : option nat) (ls : list wline) : bool :=
  match ls with
  | [] | Return :: _ => false
  | Line (Reduce_ d _ _) :: _ => match last with Some o => o =? snd d | None => false end
  | _ :: r => to_sent last r
  end.

(* 28-74.  [last] is data_irecv_isend.offset (None: -1, line 15). *)
Fixpoint waitany (nwait nattached : nat) (flag2 : bool) (last : option nat) (ls : list wline) : list wline :=
  match ls with
  | [] => []
  | l :: r =>
    let third last := l :: waitany nwait nattached flag2 last r in
    let second := repeat Attached (nwait - nattached) ++ l :: waitany nwait nwait false last r in
    match l with
    | All n =>
      if nattached =? nwait then Any n (to_sent last r) :: waitany n 0 true last r
      else if flag2 then second else third last
    | Line (Memcpy _ _ _) | Line (Irecv _ _ _) | Return => if flag2 then second else third last
    | Line (Isend s _ _) => if flag2 then second else third (Some (snd s))
    | Line (Reduce_ _ _ _) =>
      if flag2 then l :: Attached :: waitany nwait (S nattached) (negb (S nattached =? nwait)) last r
      else third last
    | _ => third last
    end
  end.
Definition waitany_pass (ls : list instr) : list wline := waitany 0 0 false None (numbered 0 ls).

(* no_socket_barriers.c:22-33, which comes later *)
Definition without_barriers (ls : list wline) : list wline :=
  filter (fun l => match l with Line Barrier => false | _ => true end) ls.

(* ext_mpi_native_exec.c:131-158: how the executor reads the lines: [left] is num_wait -
   done.  None: "illegal opcode in exec_waitany" (154-155), or the end of the code.  The
   result are the lines attached to the requests, one list for every request. *)
Fixpoint rows (left : nat) (row : list red) (ls : list wline) : option (list (list red) * list wline) :=
  match left, ls with
  | O, _ => Some ([], ls)
  | S l, Attached :: r =>
    match rows l [] r with Some (rs, r') => Some (row :: rs, r') | None => None end
  | S l, Line (Reduce_ d s n) :: r =>
    rows left (row ++ [{| to := Z.of_nat (snd d); from := Z.of_nat (snd s); len := n |}]) r
  | S l, _ => None
  end.
(* The main loop (ext_mpi_native_exec.c:409: an instruction ATTACHED does nothing there):
   false if exec_waitany gives up somewhere.  [left]: as above, 0 outside exec_waitany. *)
Fixpoint readable (left : nat) (ls : list wline) : bool :=
  match ls with
  | [] => left =? 0
  | Any n _ :: r => if left =? 0 then readable n r else false
  | Attached :: r => readable (left - 1) r
  | Line (Reduce_ _ _ _) :: r => readable left r
  | _ :: r => if left =? 0 then readable 0 r else false
  end.

(* The requests of the first waitany, with what is attached to them, and its sign: the
   messages before it in the order in which they were posted (tag = index). *)
Definition message (i : instr) : list request :=
  match i with
  | Irecv d n _ => [{| is_send := false; base := Z.of_nat (snd d); size := n; reds := [] |}]
  | Isend s n _ => [{| is_send := true; base := Z.of_nat (snd s); size := n; reds := [] |}]
  | _ => []
  end.
Fixpoint with_rows (rs : list request) (rows : list (list red)) : list request :=
  match rs, rows with
  | r :: rs, row :: rows => {| is_send := is_send r; base := base r; size := size r; reds := row |} :: with_rows rs rows
  | _, _ => rs
  end.
Fixpoint first_wait (posted : list request) (ls : list wline) : option (list request * bool) :=
  match ls with
  | Line i :: r => first_wait (posted ++ message i) r
  | Any n neg :: r => match rows n [] r with Some (rs, _) => Some (with_rows posted rs, neg) | None => None end
  | _ => None
  end.
