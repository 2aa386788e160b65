(* Programs compiled once and executed with other buffers and counts (blocking
   collectives).  src/mpi/ext_mpi_native_exec.c:456-491 (normalize_address,
   recalculate_address_io), 576-725 (ext_mpi_normalize_blocking), 728-877
   (ext_mpi_exec_blocking), 879-990 (ext_mpi_exec_padding);
   src/mpi/ext_mpi_native_blocking.c:115-134, 198-252, 330-430.  Without GPU_ENABLED
   and NCCL_ENABLED.
   Simplifications: the program is the list of decoded instructions (claim C09
   relates it to the bytes; the functions modelled here replace operands in place by
   operands of the same width); integers do not overflow; the user's buffers lie at
   addresses (integers). *)
From Verif Require Export Base BytecodeModel.
Local Open Scope Z_scope.

Definition seg : Z := 2 ^ 28.  (* & 0xFFFFFFF, >> 28 *)
(* SEND_PTR_CPU >> 28, RECV_PTR_CPU >> 28 *)
Definition SEND : Z := 8.
Definition RECV : Z := 9.

(* 456-460 *)
Definition normalize_address (count a : Z) : Z := (a mod seg) / count + (a / seg) * seg.

(* the arguments of ext_mpi_exec_blocking that matter *)
Record call := { k_send : Z; k_recv : Z; k_shmem : list Z; k_count : Z; k_io : Z; k_op : Z }.
(* 462-491 *)
Definition clip (buf io p size : Z) : Z :=
  if buf + io <? p + size then (if buf + io - p <? 0 then 0 else buf + io - p) else size.
Definition recalculate_address_io (k : call) (a size : Z) : option (Z * Z) :=
  let i := a / seg in
  let off := (a mod seg) * k_count k in
  if i =? SEND then Some (off + k_send k, clip (k_send k) (k_io k) (off + k_send k) size)
  else if i =? RECV then Some (off + k_recv k, clip (k_recv k) (k_io k) (off + k_recv k) size)
  else match index (k_shmem k) i with Some b => Some (off + b, size) | None => None end.

(* sizeof of the operand type of a reduction; 1 for the others *)
Definition size_of_op (op : Z) : Z :=
  if op =? OPCODE_REDUCE_SUM_DOUBLE then 8 else if op =? OPCODE_REDUCE_SUM_LONG_INT then 8
  else if op =? OPCODE_REDUCE_SUM_FLOAT then 4 else if op =? OPCODE_REDUCE_SUM_INT then 4 else 1.

(* 576-725: operands replaced.  None: exit(9) at WAITANY, division by zero. *)
Definition normalize_instr (count : Z) (i : instr) : option instr :=
  match i with
  | Memcpy a b n => Some (Memcpy (normalize_address count a) (normalize_address count b) (Z.quot n count))
  | Irecv a n r q => Some (Irecv (normalize_address count a) (Z.quot n count) r q)
  | Isend a n r q => Some (Isend (normalize_address count a) (Z.quot n count) r q)
  | Reduce op a b n =>
    let c := Z.quot count (size_of_op op) in
    if c =? 0 then None else Some (Reduce op (normalize_address count a) (normalize_address count b) (Z.quot n c))
  | Waitany _ _ _ => None
  | _ => Some i
  end.
Fixpoint normalize_blocking (count : Z) (p : list instr) : option (list instr) :=
  match p with
  | [] => Some []
  | i :: p => match normalize_instr count i, normalize_blocking count p with
              | Some i, Some p => Some (i :: p)
              | _, _ => None
              end
  end.

(* 728-877: what is handed to memcpy, MPI and the reduction loops.  pointers: the
   array send_pointers from the current index on (0: NULL); None: no array. *)
Definition pointer_list := option (nat -> Z).
Definition rebind (k : call) (sp : pointer_list) (at_ : nat) (i : instr) : option (instr * nat) :=
  match i with
  | Memcpy a b n =>
    match recalculate_address_io k a (n * k_count k) with
    | Some (p1, n) => match recalculate_address_io k b n with Some (p2, n) => Some (Memcpy p1 p2 n, at_) | None => None end
    | None => None
    end
  | Irecv a n r q =>
    match recalculate_address_io k a (n * k_count k) with Some (p1, n) => Some (Irecv p1 n r q, at_) | None => None end
  | Isend a n r q =>
    match recalculate_address_io k a (n * k_count k) with
    | Some (p1, n) =>
      match sp with
      | Some f => if f at_ =? 0 then Some (Isend p1 n r q, at_)
                  else match recalculate_address_io k (f at_) n with Some (_, n) => Some (Isend p1 n r q, S at_) | None => None end
      | None => Some (Isend p1 n r q, at_)
      end
    | None => None
    end
  | Reduce op a b n =>
    match recalculate_address_io k a (n * k_count k) with
    | Some (p1, n) => match recalculate_address_io k b n with
                      | Some (p2, n) => Some (Reduce (k_op k) p1 p2 (Z.quot n (size_of_op (k_op k))), at_)
                      | None => None end
    | None => None
    end
  | Waitany _ _ _ => None
  | _ => Some (i, at_)
  end.
Fixpoint exec_blocking (k : call) (sp : pointer_list) (at_ : nat) (p : list instr) : option (list instr) :=
  match p with
  | [] => Some []
  | i :: p => match rebind k sp at_ i with
              | Some (i, at_) => match exec_blocking k sp at_ p with Some p => Some (i :: p) | None => None end
              | None => None
              end
  end.

(* 879-903 with shmem = NULL: positions of operands *)
Definition padding_address (send recv a : Z) : Z :=
  if a / seg =? SEND then a - send else if a / seg =? RECV then a - recv else a.
Definition positive (x : Z) : list Z := if 0 <? x then [x] else [].
(* 905-990: the numbers collected from one instruction *)
Definition padding_numbers (i : instr) : list Z :=
  let pos := fun a => positive (padding_address (SEND * seg) (RECV * seg) a) in
  match i with
  | Memcpy a b n => positive n ++ pos a ++ pos b
  | Irecv a n _ _ | Isend a n _ _ => positive n ++ pos a
  | Reduce _ a b n => n :: pos a ++ pos b
  | _ => []
  end.

(* ext_mpi_native_blocking.c:201-207: elements compiled for a size class; note how
   % and / associate in the first condition *)
Definition compiled_count (mpi_size num_cores count : Z) : Z :=
  let nodes := mpi_size / num_cores in
  let j := nodes * count in
  let j := if (nodes <? count) && (count mod mpi_size / num_cores =? 0) then count else j in
  if (count <? nodes) && (nodes mod count =? 0) then nodes else j.
(* 217, 350: the factor an allreduce call passes *)
Definition allreduce_factor (j padding count type_size : Z) : Z := (Z.quot (count - 1) (j / padding) + 1) * type_size.

(* 349: the size class of a call; sizes in bytes, in the order of the classes *)
Fixpoint select_class (sizes : list Z) (ccount : Z) (i : nat) : nat :=
  match sizes with
  | s :: ((_ :: _) as rest) => if s <? ccount then select_class rest ccount (S i) else i
  | _ => i
  end.
(* 228-230, 251, 373: reduce_scatter_block and allgather are normalised by the
   number of cores and scaled by the count of the call; the callers
   (ext_mpi_interface.c:405, 422) pass bytes *)
Definition reduce_scatter_factor (num_cores recvcount : Z) : Z := recvcount / num_cores.
Definition allgather_factor (sendcount : Z) : Z := sendcount.

(* ----- 607-655: the address of the receive buffer is sent to the sender of the
   message.  MPI reads the variable p1 at some time between the call of MPI_Isend and
   the end of PMPI_Waitall; assignments: the values of p1 in the order of the
   assignments, one or two for every instruction. ----- *)
Definition p1_values (count : Z) (i : instr) : list Z :=
  match i with
  | Memcpy a _ _ | Irecv a _ _ _ | Isend a _ _ _ | Reduce _ a _ _ => [a; normalize_address count a]
  | Waitall _ q => [q]
  | _ => []
  end.
(* the values MPI may deliver for the receive instruction at position at_ *)
Fixpoint until_wait (p : list instr) : list instr :=
  match p with [] => [] | Waitall n q :: _ => [Waitall n q] | i :: p => i :: until_wait p end.
Definition deliverable (count : Z) (p : list instr) (at_ : nat) (v : Z) : Prop :=
  match nth_error p at_ with
  | Some (Irecv a _ _ _) => v = normalize_address count a \/ In v (flat_map (p1_values count) (until_wait (skipn (S at_) p)))
  | _ => False
  end.
