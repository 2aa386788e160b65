(* Model of the handle table of src/mpi/ext_mpi_native.c:
   get_handle (168-231), EXT_MPI_Start/Test/Progress/Wait/Done_native (233-399)
   and the table updates of init_epilogue (401-553). *)
From Verif Require Import Base.

Section Handles.
  (* [P]: byte code programs, [X]: positions inside a program (non-NULL
     execution pointers), [W]: everything outside the table (memory, MPI).
     [exec w p x mode] is ext_mpi_exec_native (ext_mpi_native_exec.c:205-442)
     on program [p] at position [x] with the given active_wait; position
     [None] is the NULL pointer, i.e. the program returned; the Z is its
     return value.  [entry p] is comm_code + sizeof(header) (line 242). *)
  Context {P X W : Type}.
  Context (exec : W -> P -> X -> Z -> W * option X * Z) (entry : P -> X).

  (* The three arrays comm_code, execution_pointer, active_wait (lines 30-34)
     always have the same size, so they are one array of triples here. *)
  Record cell := Cell { code : option P; ep : option X; aw : Z }.
  Definition cell0 := Cell None None 0.

  (* handle_code_max and the arrays, [None] = NULL pointers. *)
  Record hstate := HState { hmax : nat; arr : option (list cell) }.

  (* ext_mpi_native.c:29-34 *)
  Definition hinit := HState 100 None.

  (* get_handle, 187-189: [None] = read outside the array. *)
  Fixpoint scan (fuel : nat) (l : list cell) (mx h : nat) : option nat :=
    match fuel with
    | O => None
    | S f =>
      let! c := nth_error l h in
      match code c with
      | Some _ => if h <? mx - 2 then scan f l mx (h + 2) else Some h
      | None => Some h
      end
    end.

  (* get_handle, 168-231 (without the malloc failures). *)
  Definition get_handle (s : hstate) : option (hstate * nat) :=
    let l := match arr s with Some l => l | None => repeat cell0 (hmax s) end in
    let! h := scan (S (length l)) l (hmax s) 0 in
    let! c := nth_error l h in
    match hmax s - 2 <=? h, code c with
    | true, Some _ =>
      let mx := hmax s * 2 in
      Some (HState mx (Some (l ++ repeat cell0 (mx - length l))), h + 2)
    | _, _ => Some (HState (hmax s) (Some l), h)
    end.

  Definition rd (s : hstate) (h : nat) : option cell :=
    let! l := arr s in nth_error l h.
  Definition wr (s : hstate) (h : nat) (c : cell) : hstate :=
    HState (hmax s) (match arr s with Some l => Some (lset l h c) | None => None end).

  Definition set_code (c : cell) (x : option P) := Cell x (ep c) (aw c).
  Definition set_ep (c : cell) (x : option X) := Cell (code c) x (aw c).
  Definition set_aw (c : cell) (x : Z) := Cell (code c) (ep c) x.

  (* init_epilogue: the handle and the stores at lines 484, 500, 541; the
     programs it generates are the arguments. *)
  Definition create (s : hstate) (p : P) (alt : option P) : option (hstate * nat) :=
    let! (s, h) := get_handle s in
    let! c := rd s h in
    let s := wr s h (set_code c (Some p)) in
    let! c := rd s (h + 1) in
    Some (wr s (h + 1) (set_code c alt), h).

  (* 233-247.  comm_code[handle] + sizeof on a NULL pointer is undefined. *)
  Definition start (s : hstate) (h : nat) : option hstate :=
    let! c := rd s h in
    let! d := rd s (h + 1) in
    let '(c, d) := match code d with
                   | Some _ => (Cell (code d) (ep d) (aw c), Cell (code c) (ep c) (aw d))
                   | None => (c, d) end in
    let! p := code c in
    Some (wr (wr s (h + 1) d) h (Cell (Some p) (Some (entry p)) 0)).

  (* The guarded call of ext_mpi_exec_native used by Test, Progress, Wait;
     executing with a NULL comm_code is undefined. *)
  Definition run_cell (w : W) (c : cell) : option (W * cell * Z) :=
    match ep c with
    | None => Some (w, c, 0%Z)
    | Some x => let! p := code c in
                let '(w, x, r) := exec w p x (aw c) in
                Some (w, set_ep c x, r)
    end.

  (* 249-256 *)
  Definition test (w : W) (s : hstate) (h : nat) : option (W * hstate * bool) :=
    let! c := rd s h in
    let! (w, c, _) := run_cell w (set_aw c 1) in
    Some (w, wr s h c, match ep c with None => true | Some _ => false end).

  (* 258-267; [hs] are the handles still to be visited. *)
  Fixpoint progress_loop (w : W) (s : hstate) (acc : Z) (hs : list nat)
    : option (W * hstate * Z) :=
    match hs with
    | [] => Some (w, s, acc)
    | h :: hs' =>
      let! c := rd s h in
      let! (w, c, r) := run_cell w c in
      progress_loop w (wr s h c) (acc + r)%Z hs'
    end.
  Definition evens (n : nat) : list nat := map (fun i => 2 * i) (seq 0 (Nat.div2 (n + 1))).
  Definition progress (w : W) (s : hstate) : option (W * hstate * Z) :=
    progress_loop w s 0 (evens (hmax s)).

  (* 269-281 *)
  Definition wait (w : W) (s : hstate) (h : nat) : option (W * hstate) :=
    let! c := rd s h in
    let! (w, c, _) := run_cell w (set_aw c (if (aw c =? 0)%Z then 3 else 2)) in
    Some (w, wr s h (set_aw c 0)).

  (* 283-399: the clean-up of memory and communicators is not modelled, only
     the table. *)
  Definition done (w : W) (s : hstate) (h : nat) : option (W * hstate) :=
    let! (w, s) := wait w s h in
    let! c := rd s h in
    let! _ := code c in            (* header fields are read *)
    let s := wr s h (set_code c None) in
    let! d := rd s (h + 1) in
    let s := wr s (h + 1) (set_code d None) in
    let! l := arr s in
    if forallb (fun c => match code c with None => true | Some _ => false end) l
    then Some (w, HState (hmax s) None)
    else Some (w, s).

  (* The public calls and what they return. *)
  Inductive call :=
  | Create (p : P) (alt : option P) | Start (h : nat) | Test (h : nat)
  | Progress | Wait (h : nat) | Done (h : nat).
  Inductive result := RHandle (h : nat) | RFlag (b : bool) | RInt (r : Z) | RUnit.

  Definition step (w : W) (s : hstate) (c : call) : option (W * hstate * result) :=
    match c with
    | Create p alt => let! (s, h) := create s p alt in Some (w, s, RHandle h)
    | Start h => let! s := start s h in Some (w, s, RUnit)
    | Test h => let! (w, s, b) := test w s h in Some (w, s, RFlag b)
    | Progress => let! (w, s, r) := progress w s in Some (w, s, RInt r)
    | Wait h => let! (w, s) := wait w s h in Some (w, s, RUnit)
    | Done h => let! (w, s) := done w s h in Some (w, s, RUnit)
    end.
End Handles.
Arguments cell : clear implicits.
Arguments hstate : clear implicits.
Arguments call : clear implicits.
