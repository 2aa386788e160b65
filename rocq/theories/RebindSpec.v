(* Claim C30: positions inside of the user's buffers. *)
From Verif Require Export Base BytecodeModel RebindModel.
Local Open Scope Z_scope.

Definition offset (a : Z) : Z := a mod 2 ^ 28.
Definition segment (a : Z) : Z := a / 2 ^ 28.
Definition user (a : Z) : Prop := segment a = 8 \/ segment a = 9.
Definition buffer_of (k : call) (a : Z) : Z :=
  if segment a =? 8 then k_send k else if segment a =? 9 then k_recv k else nth (Z.to_nat (segment a)) (k_shmem k) 0.
(* d bytes of the compiled vector are k_count bytes of the vector of the call *)
Definition scaled (k : call) (d x : Z) : Z := x / d * k_count k.
Definition place (k : call) (d a : Z) : Z := buffer_of k a + scaled k d (offset a).
(* what is left of n bytes at a in front of the end of the vector *)
Definition room (k : call) (d a n : Z) : Z :=
  if (segment a =? 8) || (segment a =? 9) then Z.max 0 (Z.min n (k_io k - scaled k d (offset a))) else n.

Definition known (k : call) (a : Z) : Prop := user a \/ 0 <= segment a < Z.of_nat (length (k_shmem k)).
(* an operand of n bytes at a, made of whole units *)
Definition operand_ok (k : call) (d a n : Z) : Prop :=
  0 <= a /\ known k a /\ (d | offset a) /\ 0 <= n /\ (d | n).
Definition whole_units (k : call) (d ts : Z) (i : instr) : Prop :=
  match i with
  | Memcpy a b n => operand_ok k d a n /\ operand_ok k d b n
  | Irecv a n _ _ | Isend a n _ _ => operand_ok k d a n
  | Reduce op a b n => size_of_op op = ts /\ operand_ok k d a (n * ts) /\ operand_ok k d b (n * ts)
  | Waitany _ _ _ => False
  | _ => True
  end.
(* the instruction a call executes (without pointers of receivers) *)
Definition moved (k : call) (d ts : Z) (i : instr) : instr :=
  match i with
  | Memcpy a b n => Memcpy (place k d a) (place k d b) (room k d b (room k d a (scaled k d n)))
  | Irecv a n r q => Irecv (place k d a) (room k d a (scaled k d n)) r q
  | Isend a n r q => Isend (place k d a) (room k d a (scaled k d n)) r q
  | Reduce op a b n =>
    Reduce (k_op k) (place k d a) (place k d b) (room k d b (room k d a (scaled k d (n * ts))) / size_of_op (k_op k))
  | i => i
  end.
