(* Claim C09: the lines of an assembler program and the instructions they mean. *)
From Verif Require Export Base BytesModel LineModel LineSpec BytecodeModel.
Local Open Scope Z_scope.

Inductive asm :=
| AReturn | ASet (entry : Z) | AWait (entry : Z) | AWaitall (count : Z) | AWaitany (count reductions place offset : Z) | AAttached
| ANode | ASocket | AMessage (d : irecv_isend) | ACopy (d : memcpy_reduce).
(* how the passes write them *)
Definition asm_cells (a : asm) : list cell :=
  match a with
  | AReturn => [Str 25] | ASet n => [Str 2; Num n] | AWait n => [Str 3; Num n]
  | AWaitall n => [Str 16; Num n; Str 21; Num 0] | AWaitany n r p o => [Str 17; Num n; Num r; Str p; Num o] | AAttached => [Str 18]
  | ANode => [Str 0] | ASocket => [Str 1]
  | AMessage d => write_irecv_isend d | ACopy d => write_memcpy_reduce d
  end.
(* places of an operand *)
Definition base_of (e : env) (buffer_type number : Z) : Z :=
  if buffer_type =? 19 then sendbuf e else if buffer_type =? 20 then recvbuf e
  else match shmem e with Some s => nth (Z.to_nat number) s 0 | None => 0 end.
Definition address (e : env) (buffer_type number offset : Z) : Z := (base_of e buffer_type number + offset) mod 2 ^ 64.
Definition type_size (op : Z) : Z := if (op =? 1) || (op =? 2) then 8 else if (op =? 3) || (op =? 4) then 4 else 1.
(* the instructions of a line *)
Definition meaning (e : env) (a : asm) : list instr :=
  match a with
  | AReturn => [Return]
  | ASet n => if num_cores e =? 1 then [] else [AtomicSet n]
  | AWait n => if num_cores e =? 1 then [] else [AtomicWait n]
  | AWaitall n => if n =? 0 then [] else [Waitall n (locmem e mod 2 ^ 64)]
  | AWaitany n r _ _ => [Waitany n r (locmem e mod 2 ^ 64)]
  | AAttached => [Attached]
  | ANode => [NodeBarrier]
  | ASocket => if num_cores e =? 1 then [] else [SocketBarrier]
  | AMessage d =>
    let a := address e (i_buffer_type d) (i_buffer_number d) (i_offset d) in
    let r := nth (Z.to_nat (i_partner d)) (global_ranks e) 0 in
    let q := (locmem e + size_request e * i_tag d) mod 2 ^ 64 in
    [if i_type d =? eisend then Isend a (i_size d) r q else Irecv a (i_size d) r q]
  | ACopy d =>
    let a1 := address e (c_buffer_type1 d) (c_buffer_number1 d) (c_offset1 d) in
    let a2 := address e (c_buffer_type2 d) (c_buffer_number2 d) (c_offset2 d) in
    if (c_type d =? ememcpy) || (c_type d =? esmemcpy) then [Memcpy a1 a2 (c_size d)]
    else [Reduce (reduction_op e) a1 a2 (Z.quot (c_size d) (type_size (reduction_op e)))]
  end.

Definition env_ok (e : env) : Prop :=
  is_char (reduction_op e) /\ (12 <= header_size e)%nat /\ Forall is_int (global_ranks e).
Definition in_shmem (e : env) (buffer_type number : Z) : Prop :=
  buffer_type = 19 \/ buffer_type = 20 \/
  buffer_type = 22 /\ match shmem e with Some s => 0 <= number < Z.of_nat (length s) | None => True end.
Definition asm_ok (e : env) (a : asm) : Prop :=
  match a with
  | AReturn | AAttached | ANode | ASocket => True
  | ASet n | AWait n | AWaitall n => is_int n
  | AWaitany n r p o => is_int n /\ is_int r /\ 0 <= p < 30 /\ is_int o
  | AMessage d => irecv_isend_ok d /\ i_is_offset d = 0 /\ (i_type d = eisend \/ i_type d = eirecv) /\ in_shmem e (i_buffer_type d) (i_buffer_number d) /\
                  0 <= i_partner d < Z.of_nat (length (global_ranks e))
  | ACopy d => memcpy_reduce_ok d /\ c_is_offset1 d = 0 /\ c_is_offset2 d = 0 /\ (c_type d = ememcpy \/ c_type d = ereduce \/ c_type d = esreduce \/ c_type d = esmemcpy) /\
               in_shmem e (c_buffer_type1 d) (c_buffer_number1 d) /\ in_shmem e (c_buffer_type2 d) (c_buffer_number2 d)
  end.
(* Two sets of arguments that differ in addresses only: the dry run knows no
   addresses of requests, the second copy of a blocking collective has its own. *)
Definition same_shape (e0 e : env) : Prop :=
  num_cores e0 = num_cores e /\ header_size e0 = header_size e /\
  length (comm_row e0) = length (comm_row e) /\ length (comm_column e0) = length (comm_column e).
(* A program ends with its only RETURN; after a waitany come reductions, until as
   many attached as messages (pending). *)
Fixpoint well_formed (pending : Z) (l : list instr) : Prop :=
  match l with
  | [] => False
  | i :: l =>
    if 0 <? pending then
      match i with Reduce _ _ _ _ => well_formed pending l | Attached => well_formed (pending - 1) l | _ => False end
    else match i with Return => l = [] | Waitany n _ _ => well_formed n l | _ => well_formed 0 l end
  end.
Definition stream (p : list asm) : bytes := flat_map (fun a => line_bytes (asm_cells a)) p ++ eof_bytes.
