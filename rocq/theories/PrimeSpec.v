(* Elementary number theory used in the statements. *)
From Verif Require Import Base.

Definition is_prime (p : nat) : Prop :=
  2 <= p /\ forall d, Nat.divide d p -> d = 1 \/ d = p.

(* p^k is the exact power of p in n *)
Definition exact_power (p k n : nat) : Prop :=
  Nat.divide (p ^ k) n /\ ~ Nat.divide (p ^ S k) n.

Definition product (l : list nat) : nat := fold_right Nat.mul 1 l.

(* greatest common divisor of a list; 0 is neutral *)
Definition gcd_list (l : list nat) : nat := fold_right Nat.gcd 0 l.

Fixpoint increasing (l : list nat) : Prop :=
  match l with
  | [] => True
  | x :: l' => (forall y, In y l' -> x < y) /\ increasing l'
  end.
Fixpoint non_increasing (l : list nat) : Prop :=
  match l with
  | [] => True
  | x :: l' => (forall y, In y l' -> y <= x) /\ non_increasing l'
  end.
