From Verif Require Import Base HandleModel HandleSpec HandleProofs.

(* C03: after any history of calls, creating a collective succeeds and returns
   a handle that no live collective uses; the programs, positions and waiting
   modes of all live collectives stay as they were, also when the table grows. *)
Theorem C03_create_gives_fresh_handle :
  forall (P X W : Type) (exec : W -> P -> X -> Z -> W * option X * Z) (entry : P -> X),
  blocking_completes exec ->
  forall w s a (p : P) (q : option P), history exec entry w s a ->
  exists s' h, create s p q = Some (s', h) /\ colls a h = None /\ colls a (h + 1) = None /\
    forall k, colls a k <> None ->
      k <> h /\ rd s k <> None /\ rd s' k = rd s k /\ rd s' (k + 1) = rd s (k + 1).
Proof. exact @fresh_handles. Qed.
Print Assumptions C03_create_gives_fresh_handle.

(* C03, freeing: only the freed handle is affected. *)
Theorem C03_free_is_isolated :
  forall (P X W : Type) (exec : W -> P -> X -> Z -> W * option X * Z) (entry : P -> X),
  blocking_completes exec ->
  forall w s a h w' s', history exec entry w s a -> colls a h <> None ->
  done exec w s h = Some (w', s') ->
  forall k, colls a k <> None -> k <> h ->
    rd s k <> None /\ rd s' k = rd s k /\ rd s' (k + 1) = rd s (k + 1).
Proof. exact @free_isolated. Qed.
Print Assumptions C03_free_is_isolated.

(* C04: after any history of legal calls, every further legal call is defined
   (no NULL dereference, no access outside the tables), returns what the
   specification allows and has the same effect on the outside world. *)
Theorem C04_lifecycle :
  forall (P X W : Type) (exec : W -> P -> X -> Z -> W * option X * Z) (entry : P -> X),
  blocking_completes exec ->
  forall w s a c, history exec entry w s a -> legal_call a c ->
  exists w' s' r a', step exec entry w s c = Some (w', s', r) /\
                     spec_step exec entry w a c r = Some (w', a').
Proof. exact @lifecycle. Qed.
Print Assumptions C04_lifecycle.

(* A concrete run: programs are numbers, the world is a log of
   (program, position, mode); a non-blocking call advances one position and
   program p has p + 1 positions. *)
Definition toy_exec (w : list (nat * nat * Z)) (p x : nat) (m : Z)
  : list (nat * nat * Z) * option nat * Z :=
  (w ++ [(p, x, m)],
   if ((m =? 2) || (m =? 3))%Z then None else if x <? p then Some (S x) else None, 0%Z).

Fixpoint toy_run w s cs : option (list (nat * nat * Z) * list result) :=
  match cs with
  | [] => Some (w, [])
  | c :: cs' =>
    match step toy_exec (fun _ => 0) w s c with
    | None => None
    | Some (w', s', r) =>
      match toy_run w' s' cs' with
      | None => None
      | Some (w'', rs) => Some (w'', r :: rs)
      end
    end
  end.

Example toy_blocking : blocking_completes toy_exec.
Proof. intros w p x m [-> | ->]; reflexivity. Qed.

(* Two collectives, the second one double-buffered: its runs use program 2,
   then 1, then 2. *)
Example C04_example :
  toy_run [] (@hinit nat nat)
    [Create 1 None; Create 1 (Some 2); Start 2; Start 0; Wait 2; Test 0; Test 0; Start 2;
     Progress; Test 2; Wait 2; Start 2; Done 0; Wait 2; Done 2; Create 5 None]
  = Some ([(2, 0, 3%Z); (1, 0, 1%Z); (1, 1, 1%Z); (1, 0, 0%Z); (1, 1, 1%Z); (2, 0, 3%Z)],
          [RHandle 0; RHandle 2; RUnit; RUnit; RUnit; RFlag false; RFlag true; RUnit;
           RInt 0; RFlag true; RUnit; RUnit; RUnit; RUnit; RUnit; RHandle 0]).
Proof. vm_compute. reflexivity. Qed.

(* C33 fails: the progress call before the first collective was created
   dereferences a NULL pointer. *)
Theorem C33_progress_any_time_refuted :
  forall (P X W : Type) (exec : W -> P -> X -> Z -> W * option X * Z) (entry : P -> X) (w : W),
  step exec entry w (@hinit P X) Progress = None.
Proof. exact @progress_before_init. Qed.
Print Assumptions C33_progress_any_time_refuted.
