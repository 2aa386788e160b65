(* Which factor lists are wanted. *)
From Verif Require Import Base FactorsModel.
Local Open Scope Z_scope.

(* covers n nodes; neither without its last factor, nor with a smaller one *)
Definition minimal (n : Z) (p : list Z) : Prop :=
  exists q d, p = q ++ [d] /\ prod q < n <= prod p /\ prod q * (d - 1) < n /\
  forall x, In x p -> 2 <= x <= FACTOR_MAX.
