(* Port lists that fit the number of nodes. *)
From Verif Require Import Base.

Definition spread (ports : list nat) : nat := fold_right (fun p a => (p + 1) * a) 1 ports.

(* The steps reach n nodes, and they would not with one port less in the last
   step. *)
Definition minimal (n : nat) (ports : list nat) : Prop :=
  Forall (fun p => 0 < p) ports /\
  ((ports = [] /\ n = 1) \/
   exists r p, ports = r ++ [p] /\ spread r * p < n <= spread ports).
