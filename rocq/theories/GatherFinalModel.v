(* Model of the passes behind raw_code.c for allgather, for one process per node:
   those of FinalModel.v, src/core/use_recvbuf.c and src/core/swap_copyin.c, in
   the order of src/mpi/ext_mpi_native.c:1085-1133.  Simplifications as there. *)
From Verif Require Import Base SchedModel RawModel FinalModel.

(* ---------- src/core/use_recvbuf.c ---------- *)
(* 17-35: buffer_out_size, the end of what is copied into the receive buffer *)
Fixpoint copied_out (size : nat) (ls : list instr) : nat :=
  match ls with
  | [] => size
  | Memcpy d _ n :: r =>
    copied_out (if is_recvbuf d && (size <? snd d + n) then snd d + n else size) r
  | _ :: r => copied_out size r
  end.
(* 44-51, 61-62 *)
Definition recv_place (total : nat) (l : loc) (n : nat) : loc :=
  if is_shm l && (snd l + n <=? total) then (Recvbuf, snd l) else l.
(* 36-75, where in_place is not set *)
Definition recv_line (total : nat) (i : instr) : list instr :=
  match i with
  | Memcpy d s n => if is_recvbuf d then [] else [Memcpy (recv_place total d n) (recv_place total s n) n]
  | Reduce_ d s n => if is_recvbuf d then [] else [Reduce_ (recv_place total d n) (recv_place total s n) n]
  | Irecv d n q => [Irecv (recv_place total d n) n q]
  | Isend s n q => [Isend (recv_place total s n) n q]
  | _ => [i]
  end.
Definition use_recvbuf (ls : list instr) : list instr := flat_map (recv_line (copied_out 0 ls)) ls.

(* ---------- src/core/swap_copyin.c ---------- *)
(* 33-39: a line is taken as a send from the begin of the send buffer.  A line of
   another type keeps its type, but its operands are not set: None. *)
Definition from_sendbuf (i : instr) : option instr :=
  match i with
  | Isend _ n q => Some (Isend (Sendbuf, 0) n q)
  | Irecv _ n q => Some (Irecv (Sendbuf, 0) n q)
  | _ => None
  end.
Fixpoint all_some {A} (l : list (option A)) : option (list A) :=
  match l with
  | [] => Some []
  | x :: r => match x, all_some r with Some a, Some s => Some (a :: s) | _, _ => None end
  end.
(* 13-49; [k] is abs(num_ports[0]).  None: see above, or the code is too short
   (the lines that were not read are not initialised). *)
Definition swap_copyin (k : nat) (ls : list instr) : option (list instr) :=
  match ls with
  | [] => None
  | i :: r =>
    if length r <? 2 * k then None
    else match all_some (map from_sendbuf (firstn k (skipn k r))) with
         | Some sends => Some (firstn k r ++ sends ++ i :: skipn (2 * k) r)
         | None => None
         end
  end.

(* ---------- all passes ---------- *)
Definition gather_passes (base : nat -> nat) (alt : bool) (ls : list instr) : list instr :=
  let ls := optimise_buffers2 (optimise_buffers (map (flat_instr base) ls)) in
  let ls := use_recvbuf (merge (parallel_memcpy ls)) in
  no_socket_barriers (clean_barriers (if alt then no_first_barrier ls else ls)).
(* allgather with the recursive schedule *)
Definition allgather_final (ports : list Z) (alg : list block) (base : nat -> nat) (alt : bool) (mcounts : nat -> nat) (num_nodes node : nat) : option (list instr) :=
  swap_copyin (Z.abs_nat (hd 0%Z ports)) (gather_passes base alt (allgather_program alg mcounts num_nodes node)).
