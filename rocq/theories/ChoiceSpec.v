(* What a choice of factors should be. *)
From Verif Require Import Base.
From Coq Require Import Sorted.

(* the positive factors do not increase *)
Definition ordered (f : list Z) : Prop := Sorted (fun a b => (b <= a)%Z) (filter (fun x => (0 <? x)%Z) f).

(* [f] is one of the cheapest of [fs], and cheaper than [limit] *)
Definition cheapest {A} (T : A -> Z) (limit : Z) (fs : list A) (f : A) : Prop :=
  In f fs /\ (T f < limit)%Z /\ forall g, In g fs -> (T f <= T g)%Z.
