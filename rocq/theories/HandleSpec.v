(* What the user of persistent collectives sees: a set of independent objects,
   each with its program(s), the number of times it was started, and the
   position of the run in progress, if any. *)
From Verif Require Import Base HandleModel.

Section Spec.
  Context {P X W : Type}.
  Context (exec : W -> P -> X -> Z -> W * option X * Z) (entry : P -> X).

  Record coll := Coll {
    prog : P;             (* first program *)
    alt : option P;       (* second program of a double-buffered collective *)
    starts : nat;         (* how often it was started *)
    run : option X;       (* run in progress *)
    polled : bool }.      (* tested since the last start or wait *)

  (* A double-buffered collective alternates between its two programs. *)
  Definition nth_program (c : coll) (n : nat) : P :=
    match alt c with
    | Some q => if Nat.odd n then q else prog c
    | None => prog c
    end.
  Definition current (c : coll) : P := nth_program c (starts c).

  Definition advance (w : W) (c : coll) (mode : Z) : W * coll * Z :=
    match run c with
    | None => (w, c, 0%Z)
    | Some x => let '(w, x, r) := exec w (current c) x mode in
                (w, Coll (prog c) (alt c) (starts c) x (polled c), r)
    end.

  (* Live collectives by handle, and a bound on all handles given out. *)
  Record world := World { colls : nat -> option coll; bound : nat }.
  Definition world0 := World (fun _ => None) 0.

  Definition put (a : world) h c := World (upd Nat.eq_dec (colls a) h c) (bound a).

  Fixpoint advance_all (w : W) (a : world) (acc : Z) (hs : list nat) : W * world * Z :=
    match hs with
    | [] => (w, a, acc)
    | h :: hs' =>
      match colls a h with
      | None => advance_all w a acc hs'
      | Some c =>
        let '(w, c', r) := advance w c (if polled c then 1 else 0) in
        advance_all w (put a h (Some c')) (acc + r)%Z hs'
      end
    end.

  (* The calls; [r] is what the call returned.  [None]: the result [r] is not
     allowed, or the call was not legal in this state. *)
  Definition spec_step (w : W) (a : world) (c : call P) (r : result) : option (W * world) :=
    match c, r with
    | Create p q, RHandle h =>
      match colls a h with            (* the handle must not be in use *)
      | Some _ => None
      | None => Some (w, World (upd Nat.eq_dec (colls a) h (Some (Coll p q 0 None false)))
                               (Nat.max (bound a) (S h)))
      end
    | Start h, RUnit =>
      match colls a h with
      | None => None
      | Some c => Some (w, put a h (Some
          (Coll (prog c) (alt c) (S (starts c))
                (Some (entry (nth_program c (S (starts c))))) false)))
      end
    | Test h, RFlag b =>
      match colls a h with
      | None => None
      | Some c =>
        let '(w, c', _) := advance w c 1 in
        if Bool.eqb b (match run c' with None => true | Some _ => false end)
        then Some (w, put a h (Some (Coll (prog c') (alt c') (starts c') (run c') true)))
        else None
      end
    | Progress, RInt r =>
      let '(w, a, r') := advance_all w a 0 (seq 0 (bound a)) in
      if (r =? r')%Z then Some (w, a) else None
    | Wait h, RUnit =>
      match colls a h with
      | None => None
      | Some c =>
        let '(w, c', _) := advance w c (if polled c then 2 else 3) in
        Some (w, put a h (Some (Coll (prog c') (alt c') (starts c') None false)))
      end
    | Done h, RUnit =>
      match colls a h with
      | None => None
      | Some c =>
        let '(w, c', _) := advance w c (if polled c then 2 else 3) in
        Some (w, put a h None)
      end
    | _, _ => None
    end.

  (* Legal use: handles are live, a collective is started only when idle, and
     progress is only called while some collective exists. *)
  Definition legal_call (a : world) (c : call P) : Prop :=
    match c with
    | Create _ _ => True
    | Start h => exists c, colls a h = Some c /\ run c = None
    | Test h | Wait h | Done h => colls a h <> None
    | Progress => exists h, colls a h <> None
    end.
End Spec.
Arguments coll : clear implicits.
Arguments world : clear implicits.

(* States of the implementation and of the specification that go together
   after a history of legal calls. *)
Inductive history {P X W} (exec : W -> P -> X -> Z -> W * option X * Z) (entry : P -> X)
  : W -> hstate P X -> world P X -> Prop :=
| H_init w : history exec entry w (@hinit P X) (@world0 P X)
| H_call w s a c w' s' r a' :
    history exec entry w s a -> legal_call a c ->
    step exec entry w s c = Some (w', s', r) ->
    spec_step exec entry w a c r = Some (w', a') ->
    history exec entry w' s' a'.

(* ext_mpi_exec_native comes back from a blocking call only when the program
   is finished. *)
Definition blocking_completes {P X W} (exec : W -> P -> X -> Z -> W * option X * Z) : Prop :=
  forall w p x m, m = 2%Z \/ m = 3%Z -> snd (fst (exec w p x m)) = None.
