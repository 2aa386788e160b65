(* The executor of the instruction MPIWAITANY.
   src/mpi/ext_mpi_native_exec.c:84-203 (reduce_waitany, exec_waitany).

   Memory is a function from element addresses to integers; the operation is the
   sum.  Simplifications: one element type (so op_reduce, 99-120, disappears); the
   integers do not wrap (wrapping commutes with sums); rounding of floating point
   sums is outside the model.  What the network does is part of the trace: it fills
   a receive buffer (or reads a send buffer) at one moment before the completion of
   the request is reported by MPI_Waitany, and every request is reported once
   (MPI_Waitany sets it to MPI_REQUEST_NULL). *)
From Verif Require Export Base.
Local Open Scope Z_scope.

Definition memory := Z -> Z.

(* 136-147: one OPCODE_REDUCE attached to a request *)
Record red := { to : Z; from : Z; len : nat }.
(* A request of p3, with the reductions attached to it (132-158).  base, size: the
   buffer given to MPI_Irecv or MPI_Isend. *)
Record request := { is_send : bool; base : Z; size : nat; reds : list red }.

Definition inside (b : Z) (l : nat) (a : Z) : Prop := b <= a < b + Z.of_nat l.
Definition insideb (b : Z) (l : nat) (a : Z) : bool := (b <=? a) && (a <? b + Z.of_nat l).

(* 101-103: the loop over the elements, in increasing order *)
Fixpoint reduce_range (p1 p2 : Z) (n : nat) (m : memory) : memory :=
  match n with
  | O => m
  | S n => reduce_range (p1 + 1) (p2 + 1) n (upd Z.eq_dec m p1 (m p1 + m p2))
  end.
(* 91-121: the loop over the reductions; the three arrays are indexed together *)
Fixpoint zip3 (tos froms : list Z) (lens : list nat) : list red :=
  match tos, froms, lens with
  | t :: tos, f :: froms, l :: lens => {| to := t; from := f; len := l |} :: zip3 tos froms lens
  | _, _, _ => []
  end.
Definition reduce_list (rs : list red) (m : memory) : memory :=
  fold_left (fun m r => reduce_range (to r) (from r) (len r) m) rs m.
Definition reduce_waitany (tos froms : list Z) (lens : list nat) (m : memory) : memory :=
  reduce_list (zip3 tos froms lens) m.

(* What happens: the network moves the data of a request, or MPI_Waitany returns
   its index (162, 175). *)
Inductive event := Transfer (i : nat) | Complete (i : nat).

Record state := {
  mem : memory;
  num_waitall : Z;         (* 166-171 *)
  target_index : nat;      (* 172, -1 at the start; read only when not_moved *)
  not_moved : bool;        (* 173 *)
  pointers_temp : list Z;  (* 187-189 *)
  sent : list (nat * list Z) (* what the network read, by request *)
}.
Definition set_mem (s : state) (m : memory) : state :=
  {| mem := m; num_waitall := num_waitall s; target_index := target_index s; not_moved := not_moved s;
     pointers_temp := pointers_temp s; sent := sent s |}.

Section Exec.
  Context (reqs : list request) (payload : memory).
  Definition none : request := {| is_send := true; base := 0; size := 0; reds := [] |}.
  Definition req (i : nat) : request := nth i reqs none.
  (* rows index of the arrays pointers and sizes *)
  Definition tos (i : nat) : list Z := map to (reds (req i)).
  Definition froms (i : nat) : list Z := map from (reds (req i)).
  Definition lens (i : nat) : list nat := map len (reds (req i)).
  (* num_red[i] == 0 *)
  Definition no_red (i : nat) : bool := match reds (req i) with [] => true | _ => false end.

  (* the network *)
  Definition contents (m : memory) (r : request) : list Z :=
    map (fun k => m (base r + Z.of_nat k)) (seq 0 (size r)).
  Definition transfer (i : nat) (s : state) : state :=
    let r := req i in
    if is_send r then
      {| mem := mem s; num_waitall := num_waitall s; target_index := target_index s; not_moved := not_moved s;
         pointers_temp := pointers_temp s; sent := sent s ++ [(i, contents (mem s) r)] |}
    else set_mem s (fun a => if insideb (base r) (size r) a then payload a else mem s a).

  (* 159-164: num_red_max >= 0 *)
  Definition complete_direct (i : nat) (s : state) : state :=
    set_mem s (reduce_waitany (tos i) (froms i) (lens i) (mem s)).

  (* 174-201: num_red_max < 0 *)
  Definition complete_deferred (i : nat) (s : state) : state :=
    let t := target_index s in
    if no_red i then
      let w := num_waitall s - 1 in
      if (w =? 0) && not_moved s then
        {| mem := reduce_waitany (pointers_temp s) (froms t) (lens t) (mem s); num_waitall := w;
           target_index := t; not_moved := false; pointers_temp := pointers_temp s; sent := sent s |}
      else
        {| mem := mem s; num_waitall := w; target_index := t; not_moved := not_moved s;
           pointers_temp := pointers_temp s; sent := sent s |}
    else if negb (num_waitall s =? 0) then
      if negb (not_moved s) then
        {| mem := mem s; num_waitall := num_waitall s; target_index := i; not_moved := true;
           pointers_temp := tos i; sent := sent s |}
      else set_mem s (reduce_waitany (froms t) (froms i) (lens i) (mem s))
    else if negb (not_moved s) then set_mem s (reduce_waitany (tos i) (froms i) (lens i) (mem s))
    else set_mem s (reduce_waitany (froms t) (froms i) (lens i) (mem s)).

  Definition step (deferred : bool) (e : event) (s : state) : state :=
    match e with
    | Transfer i => transfer i s
    | Complete i => if deferred then complete_deferred i s else complete_direct i s
    end.
  (* 166-173; in the direct mode these variables are unused *)
  Definition start (m : memory) : state :=
    {| mem := m; num_waitall := Z.of_nat (length (filter no_red (seq 0 (length reqs))));
       target_index := 0; not_moved := false; pointers_temp := []; sent := [] |}.
  Definition exec (deferred : bool) (tr : list event) (m : memory) : state :=
    fold_left (fun s e => step deferred e s) tr (start m).
End Exec.
