(* Model of the passes that remove socket barriers: src/mpi/clean_barriers.c:18-91
   (run together by all cores of a socket), src/core/no_first_barrier.c:7-33 and
   src/core/no_socket_barriers.c:8-43. *)
From Verif Require Import Base.

(* One line.  [Idle] is enop or "waitany 0" (clean_barriers.c:54-55); the
   contents of the other lines are kept abstract.  A line whose first two
   fields cannot be read at all is not modelled. *)
Inductive ln := Bar | Idle | Op (x : Z).

(* clean_barriers.c:49-60: one core works up to its next barrier; [flag2] is 1
   if nothing was written since the last barrier.  The result is what was
   written, the flag, and what remains behind the barrier (None at the end of
   the program). *)
Fixpoint scan (f : bool) (ls : list ln) : list ln * bool * option (list ln) :=
  match ls with
  | [] => ([], f, None)
  | Bar :: r => ([], f, Some r)
  | Idle :: r => scan f r
  | Op x :: r => let '(o, f', k) := scan false r in (Op x :: o, f', k)
  end.

(* 61-72: at a barrier the flags of all cores are combined (minimum, first along
   the row, then along the column).  If some core stops at a barrier and another
   one does not, MPI_Allreduce never returns: None.  [fuel] bounds the number of
   barriers. *)
Fixpoint clean (fuel : nat) (f : bool) (cores : list (list ln)) : option (list (list ln)) :=
  match fuel with
  | O => None
  | S fuel =>
    let done := map (scan f) cores in
    if forallb (fun d => match snd d with None => true | _ => false end) done
    then Some (map (fun d => fst (fst d)) done)
    else if forallb (fun d => match snd d with None => false | _ => true end) done
    then
      let flag2 := forallb (fun d => snd (fst d)) done in
      match clean fuel true (map (fun d => match snd d with Some r => r | None => [] end) done) with
      | Some rest =>
        Some (map (fun '(d, o) => fst (fst d) ++ (if flag2 then [] else [Bar]) ++ o) (combine done rest))
      | None => None
      end
    else None
  end.

Definition bars (ls : list ln) : nat := length (filter (fun l => match l with Bar => true | _ => false end) ls).
(* flag2 = 0 at the start (20) *)
Definition clean_barriers (cores : list (list ln)) : option (list (list ln)) :=
  clean (S (bars (hd [] cores))) false cores.

(* no_first_barrier.c:15-28 *)
Fixpoint no_first_barrier (ls : list ln) : list ln :=
  match ls with
  | [] => []
  | Bar :: r => r
  | l :: r => l :: no_first_barrier r
  end.

(* no_socket_barriers.c:22-33; refuses to work for more than one core (17-20) *)
Definition no_socket_barriers (cores : nat) (ls : list ln) : option (list ln) :=
  if cores =? 1 then Some (filter (fun l => match l with Bar => false | _ => true end) ls) else None.
