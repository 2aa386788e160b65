(* What removing barriers must respect. *)
From Verif Require Import Base BarPassModel.

Definition ops (ls : list ln) : list Z := flat_map (fun l => match l with Op x => [x] | _ => [] end) ls.

(* the i-th instruction of p is before, the j-th one of q behind the n-th barrier
   of its program *)
Definition barriers_before (p : list ln) (i n : nat) : Prop :=
  exists a x b, p = a ++ Op x :: b /\ length (ops a) = i /\ bars a = n.
(* a barrier stands between instruction i of p and instruction j of q *)
Definition separated (p : list ln) (i : nat) (q : list ln) (j : nat) : Prop :=
  exists n m, barriers_before p i n /\ barriers_before q j m /\ n < m.

(* every pair of instructions separated before is separated afterwards *)
Definition order_kept (cores cores' : list (list ln)) : Prop :=
  forall r s p q p' q' i j, nth_error cores r = Some p -> nth_error cores s = Some q ->
  nth_error cores' r = Some p' -> nth_error cores' s = Some q' ->
  separated p i q j -> separated p' i q' j.
