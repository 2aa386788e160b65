(* Well-formed port / group configurations. *)
From Verif Require Import Base.

(* A group: its size g > 0 and its non-empty list of non-zero ports.  In the
   arrays of the library the group size is repeated for every port and the
   last entry is negated. *)
Record group := Group { gsize : Z; gports : list Z }.
Definition group_ok (b : group) : Prop :=
  (0 < gsize b)%Z /\ gports b <> [] /\ Forall (fun p => p <> 0%Z) (gports b).
Definition ports_of (bs : list group) : list Z := flat_map gports bs.
Fixpoint entries_of (g : Z) (ps : list Z) : list Z :=
  match ps with
  | [] => []
  | [_] => [(- g)%Z]
  | _ :: ps' => g :: entries_of g ps'
  end.
Definition groups_of (bs : list group) : list Z := flat_map (fun b => entries_of (gsize b) (gports b)) bs.
