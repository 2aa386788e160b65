(* The generator of byte code and the decoder of the executor.
   src/core/byte_code.c:286-675 (ext_mpi_generate_byte_code, without GPU_ENABLED and
   NCCL_ENABLED), include/core/constants.h (opcodes, code_put_xxx, code_get_xxx),
   src/mpi/ext_mpi_native_exec.c:125-158 and 205-443 (what the executor fetches).
   Simplifications: of struct header_byte_code only size_to_return and the two
   barrier counters are modelled, the other bytes of the header keep what was there;
   the communicators copied behind the code are byte strings; pointers are integers
   modulo 2^64; stores need no alignment.  Indices outside of shmem and global_ranks
   and exit() are None. *)
From Verif Require Export Base BytesModel LineModel.
Local Open Scope Z_scope.

(* include/core/read_write.h, enum eassembler_type *)
Definition enode_barrier := 0. Definition esocket_barrier := 1. Definition eset_socket_barrier := 2.
Definition ewait_socket_barrier := 3. Definition ewaitall := 16. Definition ewaitany := 17. Definition eattached := 18.
Definition esendbufp := 19. Definition erecvbufp := 20. Definition elocmemp := 21. Definition ereturn := 25.

(* include/core/constants.h *)
Definition OPCODE_RETURN := 0. Definition OPCODE_MEMCPY := 1. Definition OPCODE_MPIIRECV := 2. Definition OPCODE_MPIISEND := 3.
Definition OPCODE_MPIWAITALL := 4. Definition OPCODE_SOCKETBARRIER := 5. Definition OPCODE_NODEBARRIER := 6.
Definition OPCODE_SOCKETBARRIER_ATOMIC_SET := 7. Definition OPCODE_SOCKETBARRIER_ATOMIC_WAIT := 8. Definition OPCODE_REDUCE := 9.
Definition OPCODE_MPIWAITANY := 14. Definition OPCODE_ATTACHED := 15.
Definition OPCODE_REDUCE_SUM_CHAR := 0. Definition OPCODE_REDUCE_SUM_DOUBLE := 1. Definition OPCODE_REDUCE_SUM_LONG_INT := 2.
Definition OPCODE_REDUCE_SUM_FLOAT := 3. Definition OPCODE_REDUCE_SUM_INT := 4.

(* The arguments of ext_mpi_generate_byte_code.  shmem: None is NULL. *)
Record env := {
  num_cores : Z; sendbuf : Z; recvbuf : Z; shmem : option (list Z); locmem : Z; reduction_op : Z;
  global_ranks : list Z; size_request : Z;
  header_size : nat; comm_row : bytes; comm_column : bytes }.

(* ----- memory and instruction pointer ----- *)
Definition memory := Z -> Z.
Fixpoint store_bytes (m : memory) (a : Z) (b : bytes) : memory :=
  match b with [] => m | x :: b => store_bytes (upd Z.eq_dec m a x) (a + 1) b end.
(* code_put_char, code_put_int, code_put_pointer *)
Inductive put := PutChar (v : Z) | PutInt (v : Z) | PutPointer (v : Z).
Definition put_bytes (p : put) : bytes :=
  match p with PutChar v => put_char v | PutInt v => put_int v | PutPointer v => put_pointer v end.
Definition do_put (isdryrun : bool) (s : memory * Z) (p : put) : memory * Z :=
  ((if isdryrun then fst s else store_bytes (fst s) (snd s) (put_bytes p)),
   snd s + match p with PutChar _ => 1 | PutInt _ => 4 | PutPointer _ => 8 end).

(* ----- one line, 376-641 ----- *)
Definition index (l : list Z) (i : Z) : option Z := if 0 <=? i then nth_error l (Z.to_nat i) else None.
(* 483-494 and the like *)
Definition position (e : env) (buffer_type number offset : Z) : option Z :=
  if buffer_type =? esendbufp then Some (sendbuf e + offset)
  else if buffer_type =? erecvbufp then Some (recvbuf e + offset)
  else match shmem e with
       | Some s => match index s number with Some b => Some (b + offset) | None => None end
       | None => Some offset
       end.
(* 559-572; C division *)
Definition elements (op size : Z) : Z :=
  if op =? OPCODE_REDUCE_SUM_DOUBLE then Z.quot size 8
  else if op =? OPCODE_REDUCE_SUM_LONG_INT then Z.quot size 8
  else if op =? OPCODE_REDUCE_SUM_FLOAT then Z.quot size 4
  else if op =? OPCODE_REDUCE_SUM_INT then Z.quot size 4
  else size.
(* the local variables that survive from line to line *)
Record vars := { v_s1 : Z; v_s2 : Z; v_i1 : Z; v_i2 : Z; v_i3 : Z; v_msg : irecv_isend; v_copy : memcpy_reduce }.
Definition sv_s1 x v := {| v_s1 := x; v_s2 := v_s2 v; v_i1 := v_i1 v; v_i2 := v_i2 v; v_i3 := v_i3 v; v_msg := v_msg v; v_copy := v_copy v |}.
Definition sv_s2 x v := {| v_s1 := v_s1 v; v_s2 := x; v_i1 := v_i1 v; v_i2 := v_i2 v; v_i3 := v_i3 v; v_msg := v_msg v; v_copy := v_copy v |}.
Definition sv_i1 x v := {| v_s1 := v_s1 v; v_s2 := v_s2 v; v_i1 := x; v_i2 := v_i2 v; v_i3 := v_i3 v; v_msg := v_msg v; v_copy := v_copy v |}.
Definition sv_i2 x v := {| v_s1 := v_s1 v; v_s2 := v_s2 v; v_i1 := v_i1 v; v_i2 := x; v_i3 := v_i3 v; v_msg := v_msg v; v_copy := v_copy v |}.
Definition sv_i3 x v := {| v_s1 := v_s1 v; v_s2 := v_s2 v; v_i1 := v_i1 v; v_i2 := v_i2 v; v_i3 := x; v_msg := v_msg v; v_copy := v_copy v |}.
Definition sv_msg x v := {| v_s1 := v_s1 v; v_s2 := v_s2 v; v_i1 := v_i1 v; v_i2 := v_i2 v; v_i3 := v_i3 v; v_msg := x; v_copy := v_copy v |}.
Definition sv_copy x v := {| v_s1 := v_s1 v; v_s2 := v_s2 v; v_i1 := v_i1 v; v_i2 := v_i2 v; v_i3 := v_i3 v; v_msg := v_msg v; v_copy := x |}.

(* 400-417, 430-448, 503-505, 506-522: lines that need no further reading *)
Definition simple_puts (e : env) (s1 i1 : Z) : list put :=
  if s1 =? ereturn then [PutChar OPCODE_RETURN]
  else if s1 =? eset_socket_barrier then
    if negb (num_cores e =? 1) then [PutChar OPCODE_SOCKETBARRIER_ATOMIC_SET; PutInt i1] else []
  else if s1 =? ewait_socket_barrier then
    if negb (num_cores e =? 1) then [PutChar OPCODE_SOCKETBARRIER_ATOMIC_WAIT; PutInt i1] else []
  else if s1 =? ewaitall then
    if negb (i1 =? 0) then [PutChar OPCODE_MPIWAITALL; PutInt i1; PutPointer (locmem e)] else []
  else if s1 =? eattached then [PutChar OPCODE_ATTACHED]
  else if s1 =? enode_barrier then [PutChar OPCODE_NODEBARRIER]
  else if s1 =? esocket_barrier then
    if negb (num_cores e =? 1) then [PutChar OPCODE_SOCKETBARRIER] else []
  else [].
(* 462-502 *)
Definition message_puts (e : env) (d : irecv_isend) : option (list put) :=
  match position e (i_buffer_type d) (i_buffer_number d) (i_offset d), index (global_ranks e) (i_partner d) with
  | Some p, Some r =>
    Some [PutChar (if i_type d =? eisend then OPCODE_MPIISEND else OPCODE_MPIIRECV); PutPointer p; PutInt (i_size d); PutInt r;
          PutPointer (locmem e + size_request e * i_tag d)]
  | _, _ => None
  end.
(* 538-601 *)
Definition copy_puts (e : env) (d : memcpy_reduce) : option (list put) :=
  match position e (c_buffer_type1 d) (c_buffer_number1 d) (c_offset1 d), position e (c_buffer_type2 d) (c_buffer_number2 d) (c_offset2 d) with
  | Some p1, Some p2 =>
    Some (if (c_type d =? ememcpy) || (c_type d =? esmemcpy) then [PutChar OPCODE_MEMCPY; PutPointer p1; PutPointer p2; PutInt (c_size d)]
          else [PutChar OPCODE_REDUCE; PutChar (reduction_op e); PutPointer p1; PutPointer p2; PutInt (elements (reduction_op e) (c_size d))])
  | _, _ => None
  end.
(* 376-641.  The ifs exclude each other: the reading functions store the type of the
   line into estring1 again (proved in BytecodeProofs for the lines of the claim). *)
Definition gen_line (e : env) (b : buffer) (v : vars) : option (list put * vars) :=
  let (_, v) := scan (txt "sd") [sv_s1; sv_i1] b v in
  if v_s1 v =? ewaitany then
    let (_, v) := scan (txt "sddsd") [sv_s1; sv_i1; sv_i2; sv_s2; sv_i3] b v in
    Some ([PutChar OPCODE_MPIWAITANY; PutInt (v_i1 v); PutInt (v_i2 v); PutPointer (locmem e)], v)
  else if (v_s1 v =? eisend) || (v_s1 v =? eirecv) then
    match read_irecv_isend b (v_msg v) with
    | Some (_, d) => match message_puts e d with Some ps => Some (ps, sv_msg d v) | None => None end
    | None => None
    end
  else if (v_s1 v =? ememcpy) || (v_s1 v =? ereduce) || (v_s1 v =? esreduce) || (v_s1 v =? esmemcpy) then
    match read_memcpy_reduce b (v_copy v) with
    | Some (_, d) => match copy_puts e d with Some ps => Some (ps, sv_copy d v) | None => None end
    | None => None
    end
  else Some (simple_puts e (v_s1 v) (v_i1 v), v).

(* 374-642: the lines of the stream *)
Fixpoint gen_lines (fuel : nat) (isdryrun : bool) (e : env) (b : bytes) (v : vars) (s : memory * Z) : option (memory * Z) :=
  match fuel with
  | O => None
  | S fuel =>
    match read_line_bin b with
    | Some (i, l, r) =>
      if i <=? 0 then Some s
      else match gen_line e (line_buffer l) v with
           | Some (ps, v) => gen_lines fuel isdryrun e r v (fold_left (do_put isdryrun) ps s)
           | None => None
           end
    | None => None
    end
  end.
(* 322, 346: in the dry run the header is a zeroed variable *)
Definition null_locmem (e : env) : env :=
  {| num_cores := num_cores e; sendbuf := sendbuf e; recvbuf := recvbuf e; shmem := shmem e; locmem := 0; reduction_op := reduction_op e;
     global_ranks := global_ranks e; size_request := size_request e; header_size := header_size e; comm_row := comm_row e; comm_column := comm_column e |}.
(* 325-334: barrier counters (at 4 and 8 of the header); 650-670 *)
Definition generate (fuel : nat) (isdryrun : bool) (e : env) (b : bytes) (v : vars) (code_out : Z) (m : memory) : option (memory * Z) :=
  let e := if isdryrun then null_locmem e else e in
  let m := if isdryrun then m else store_bytes (store_bytes m (code_out + 4) (put_int 1)) (code_out + 8) (put_int 1) in
  match gen_lines fuel isdryrun e b v (m, code_out + Z.of_nat (header_size e)) with
  | Some (m, ip) =>
    let m := if isdryrun then m else store_bytes m code_out (put_int (ip - code_out)) in
    let m := if isdryrun then m else store_bytes m ip (comm_row e) in
    let ip := ip + Z.of_nat (length (comm_row e)) in
    let m := if isdryrun then m else store_bytes m ip (comm_column e) in
    let ip := ip + Z.of_nat (length (comm_column e)) in
    Some (m, ip - code_out)
  | None => None
  end.

(* ----- the decoder ----- *)
(* code_get_char, code_get_int, code_get_pointer *)
Fixpoint load (k : nat) (m : memory) (a : Z) : Z :=
  match k with O => 0 | S k => m a + 256 * load k m (a + 1) end.
Definition load_char (m : memory) (a : Z) : Z := signed 1 (load 1 m a).
Definition load_int (m : memory) (a : Z) : Z := signed 4 (load 4 m a).
Definition load_pointer (m : memory) (a : Z) : Z := load 8 m a.

Inductive instr :=
| Return
| Memcpy (dest src size : Z)
| Irecv (buf size rank request : Z)
| Isend (buf size rank request : Z)
| Waitall (count requests : Z)
| Waitany (count reductions requests : Z)
| Attached
| SocketBarrier
| NodeBarrier
| AtomicSet (entry : Z)
| AtomicWait (entry : Z)
| Reduce (op dest src count : Z).

(* ext_mpi_native_exec.c:205-443: one instruction and where the next one starts.
   None: illegal opcode, exit(1). *)
Definition fetch (m : memory) (ip : Z) : option (instr * Z) :=
  let op := load_char m ip in
  let ip := ip + 1 in
  if op =? OPCODE_RETURN then Some (Return, ip)
  else if op =? OPCODE_MEMCPY then Some (Memcpy (load_pointer m ip) (load_pointer m (ip + 8)) (load_int m (ip + 16)), ip + 20)
  else if op =? OPCODE_MPIIRECV then Some (Irecv (load_pointer m ip) (load_int m (ip + 8)) (load_int m (ip + 12)) (load_pointer m (ip + 16)), ip + 24)
  else if op =? OPCODE_MPIISEND then Some (Isend (load_pointer m ip) (load_int m (ip + 8)) (load_int m (ip + 12)) (load_pointer m (ip + 16)), ip + 24)
  else if op =? OPCODE_MPIWAITALL then Some (Waitall (load_int m ip) (load_pointer m (ip + 4)), ip + 12)
  else if op =? OPCODE_MPIWAITANY then Some (Waitany (load_int m ip) (load_int m (ip + 4)) (load_pointer m (ip + 8)), ip + 16)
  else if op =? OPCODE_SOCKETBARRIER then Some (SocketBarrier, ip)
  else if op =? OPCODE_NODEBARRIER then Some (NodeBarrier, ip)
  else if op =? OPCODE_SOCKETBARRIER_ATOMIC_SET then Some (AtomicSet (load_int m ip), ip + 4)
  else if op =? OPCODE_SOCKETBARRIER_ATOMIC_WAIT then Some (AtomicWait (load_int m ip), ip + 4)
  else if op =? OPCODE_REDUCE then
    Some (Reduce (load_char m ip) (load_pointer m (ip + 1)) (load_pointer m (ip + 9)) (load_int m (ip + 17)), ip + 21)
  else if op =? OPCODE_ATTACHED then Some (Attached, ip)
  else None.
(* The loop 221-437; exec_waitany (132-158) takes reductions until it has seen
   enough ATTACHED (pending) and stops the program at everything else. *)
Fixpoint decode (fuel : nat) (m : memory) (ip : Z) (pending : Z) : option (list instr) :=
  match fuel with
  | O => None
  | S fuel =>
    match fetch m ip with
    | Some (i, ip) =>
      if 0 <? pending then
        match i with
        | Reduce _ _ _ _ => match decode fuel m ip pending with Some l => Some (i :: l) | None => None end
        | Attached => match decode fuel m ip (pending - 1) with Some l => Some (i :: l) | None => None end
        | _ => None
        end
      else
        match i with
        | Return => Some [i]
        | Waitany n _ _ => match decode fuel m ip n with Some l => Some (i :: l) | None => None end
        | _ => match decode fuel m ip 0 with Some l => Some (i :: l) | None => None end
        end
    | None => None
    end
  end.
