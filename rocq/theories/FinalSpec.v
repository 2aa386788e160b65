(* What is required of the placement of the shared memory regions. *)
From Verif Require Import Base RawModel.

(* Region k begins at base k and ends where the next region begins. *)
Definition room_for (base : nat -> nat) (l : loc) (n : nat) : Prop :=
  match fst l with Shm k => base k + snd l + n <= base (S k) | _ => True end.
Definition fits_in (base : nat -> nat) (i : instr) : Prop :=
  match i with
  | Irecv l n _ | Isend l n _ => room_for base l n
  | Memcpy d s n | Reduce_ d s n => room_for base d n /\ room_for base s n
  | _ => True
  end.
Definition laid_out (base : nat -> nat) (prog : list instr) : Prop :=
  base 0 = 0 /\ (forall k, base k <= base (S k)) /\ Forall (fits_in base) prog.
