(* Model of the final code of a reduce to a root, for one process per node and a
   recursive schedule: the code of RootModel.v with the lines eirec_ and eisen_,
   which raw_code.c writes for the communication that is struck out
   (raw_code.c:105-120, 189-203), and the passes of FinalModel.v, which treat
   these lines like eirecv and eisend (no_offset.c:25-26, optimise_buffers.c:51,
   optimise_buffers2.c:49 and 98, use_sendbuf_recvbuf.c:63).  They are not
   translated into byte code.  Here eirec_ and eisen_ with partner q are Irecv
   and Isend with partner num_nodes + q. *)
From Verif Require Import Base SchedModel RawModel RootModel FinalModel.

Section Raw.
  Context (size_of : nat -> nat) (num_nodes node : nat).

  (* raw_code.c:74-121 *)
  Fixpoint receives3 (b : block) (os : list nat) (c : nat) : list instr * nat :=
    match os with
    | [] => ([], c)
    | o :: r =>
      let q := from_node num_nodes node o in
      let size := kind_size size_of node b q true in
      let size_s := kind_size size_of node b q false in
      let '(code, c') := receives3 b r (c + used size + used size_s) in
      ((if size =? 0 then [] else [Irecv (Shm c, 0) size q]) ++
       (if size_s =? 0 then [] else [Irecv (Shm (c + used size), 0) size_s (num_nodes + q)]) ++ code, c')
    end.
  (* 122-208 *)
  Fixpoint sends3 (b : block) (os : list nat) (c : nat) : list instr :=
    match os with
    | [] => []
    | o :: r =>
      let q := to_node num_nodes node o in
      let '(code, add, adds) := pack_lines2 size_of node b q c (seq 0 (num_lines b)) 0 0 in
      code ++
      (if add =? 0 then [] else [Barrier; Isend (Shm c, 0) add q]) ++
      (if adds =? 0 then [] else [Barrier; Isend (Shm (c + used add), 0) adds (num_nodes + q)]) ++
      sends3 b r (c + used add + used adds)
    end.
  (* 69-208 *)
  Definition post_code3 (b : block) (first : bool) : list instr :=
    let os := seq 0 num_nodes in
    let '(recv, c) := receives3 b os 1 in
    (if first then [] else [Barrier]) ++ recv ++ sends3 b os c.
  (* 69-330 *)
  Fixpoint blocks_code3 (bs : list block) (first : bool) : list instr :=
    match bs with
    | [] => [Barrier]
    | b :: r => (post_code3 b first ++ Waitall :: after_code2 size_of num_nodes node b) ++ blocks_code3 r false
    end.
End Raw.

(* src/mpi/ext_mpi_native.c:736-790; as reduce_program of RootModel.v *)
Definition reduce_lines (alg : list block) (count num_nodes root node : nat) : list instr :=
  let mcounts := split_count count num_nodes in
  copyin_reduce num_nodes mcounts (hd empty_block alg) ++
  blocks_code3 (mmsizes mcounts num_nodes) num_nodes node (tl alg) true ++
  (if node =? root then copyout_all mcounts (last alg empty_block) count else []).
(* what is translated into byte code *)
Definition executed (num_nodes : nat) (ls : list instr) : list instr :=
  filter (fun i => match i with Irecv _ _ q | Isend _ _ q => q <? num_nodes | _ => true end) ls.
(* ext_mpi_native.c:799-858; root > -10 *)
Definition reduce_final (alg : list block) (base : nat -> nat) (alt : bool) (count num_nodes root node : nat) : list instr :=
  executed num_nodes (final_code base alt count true (reduce_lines alg count num_nodes root node)).
