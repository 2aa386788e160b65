(* What a user of the request registry expects: a finite map. *)
From Verif Require Import Base HashModel.

Section Spec.
  Context {K : Type} (keq : forall a b : K, {a = b} + {a <> b}) (null : K).

  Definition rmap := K -> option Z.
  Definition rempty : rmap := fun _ => None.

  Definition answer (m : rmap) (k : K) : Z :=
    match m k with Some v => v | None => (-1)%Z end.

  (* Effect and answer of a call on the map. *)
  Definition spec_op (m : rmap) (o : @hop K) : rmap * Z :=
    match o with
    | HInsert k v => (upd keq m k (Some v), 0%Z)
    | HSearch k => (m, answer m k)
    | HDelete k => (upd keq m k None, answer m k)
    end.

  Fixpoint spec_run (m : rmap) (os : list (@hop K)) : rmap * list Z :=
    match os with
    | [] => (m, [])
    | o :: os' =>
      let (m', r) := spec_op m o in
      let (m'', rs) := spec_run m' os' in (m'', r :: rs)
    end.

  (* A legal history.  MPI hands out non-null requests different from all live
     ones; [live] counts live registrations and [used] registrations so far. *)
  Fixpoint legal (m : rmap) (live used : nat) (os : list (@hop K)) : Prop :=
    match os with
    | [] => True
    | o :: os' =>
      match o with
      | HInsert k v => k <> null /\ m k = None /\ live < 256 /\
                       legal (fst (spec_op m o)) (S live) (S used) os'
      | HSearch k => k <> null /\ (m k <> None \/ used < 256) /\
                     legal m live used os'
      | HDelete k => k <> null /\ (m k <> None \/ used < 256) /\
                     legal (fst (spec_op m o))
                       (match m k with Some _ => live - 1 | None => live end) used os'
      end
    end.

  (* Number of registrations in a history. *)
  Fixpoint inserts (os : list (@hop K)) : nat :=
    match os with
    | [] => 0
    | HInsert _ _ :: os' => S (inserts os')
    | _ :: os' => inserts os'
    end.
End Spec.
