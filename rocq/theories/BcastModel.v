(* Model of the pass that adapts an allreduce schedule to a broadcast,
   src/mpi/forward_interpreter.c, and of the program of EXT_MPI_Bcast for one
   process per node (see RawModel.v for the simplifications).

   The pass finds out, from the first block to the last one, which lines hold
   data of the root, and strikes out the other communication (a partner q becomes
   -10 - q) and the other reductions. *)
From Verif Require Import Base SchedModel RawModel RootModel.

Definition is_nil {A} (l : list A) : bool := match l with [] => true | _ => false end.

Section Forward.
  Context (N root : nat) (b : nat -> block).

  (* 54-72: the lines of block 0 that the root fills; 65-68 for the other nodes *)
  Definition origin : nat -> nat -> nat := fun q j =>
    if (q =? root) && existsb is_user (recvfrom (lines (b q) j)) then 2 else 0.
  Definition opened (q : nat) : block :=
    Block (num_lines (b q)) (fun j => let l := lines (b q) j in
      if negb (q =? root) && existsb is_user (recvfrom l)
      then Line (frac l) (sendto l) [] (reducefrom l) (copyreducefrom l) else l).
  (* 106-112: [carried]; 113-119 *)
  Definition outputs (v : nat -> nat -> nat) : nat -> nat -> nat := fun q j =>
    match sendto (lines (b q) j) with
    | e :: _ => if is_user e then 1 else v q j
    | [] => v q j
    end.

  (* 121-144: a node tells the partners of a line whether it holds data; the
     messages between two nodes arrive in the order in which they were sent.
     The checks for logical errors are not modelled: a node is not its own
     partner, and all partners are nodes. *)
  Definition spoken (v : table) (p q : nat) : list nat :=
    flat_map (fun j => map (fun _ => at_ v p j) (filter (is_node q) (sendto (lines (b p) j))))
             (seq 0 (num_lines (b p))).
  Definition listening (q p : nat) : list nat :=
    flat_map (fun j => map (fun _ => j) (filter (is_node p) (recvfrom (lines (b q) j))))
             (seq 0 (num_lines (b q))).
  (* recv_values[j][p] at node q *)
  Definition heard (v : table) (q p j : nat) : nat :=
    fold_left (fun a x => if fst x =? j then snd x else a) (combine (listening q p) (spoken v p q)) 0.
  (* 145-158 *)
  Definition informed (v : table) : nat -> nat -> nat := fun q j =>
    let l := lines (b q) j in
    fold_left (fun a e =>
      if (0 <=? fst e)%Z && negb (is_node q e) then
        if negb (heard v q (partner_of e) j =? 0) then 2
        else if is_nil (reducefrom l) && is_nil (copyreducefrom l) then 0 else a
      else a) (recvfrom l) (at_ v q j).

  (* 160-183: [v] are the values behind line 159.  The loop 177-181 changes
     nothing, since no entry is left that is not negative. *)
  Definition strike_nodes (es : list (Z * nat)) : list (Z * nat) :=
    map (fun e => if (0 <=? fst e)%Z then strike e else e) es.
  Definition dropped (v : table) : nat -> nat -> nat := fun q j =>
    if (at_ v q j <? 2) && negb (is_nil (recvfrom (lines (b q) j))) then 0 else at_ v q j.

  (* 184-230 for line j of one node, whose values are [v]: the new value of the
     line and its new lists reducefrom and copyreducefrom.  The loops 194-202 and
     216-224, which start again behind every deleted entry, are filters. *)
  Definition settle_line (l : line) (j : nat) (v : nat -> nat) : nat * (list nat * list nat) :=
    let known r := negb (v r =? 0) in
    let '(value, red, cred) :=
      if v j =? 0 then
        let '(red, cred) := if negb (is_nil (reducefrom l)) && is_nil (copyreducefrom l)
                            then ([], reducefrom l) else (reducefrom l, copyreducefrom l) in
        if is_nil cred then (0, red, cred)
        else let cred := filter known cred in (if is_nil cred then 0 else 1, red, cred)
      else (v j, reducefrom l, copyreducefrom l) in
    let value := if is_nil cred then value else 1 in
    let known' r := negb (upd Nat.eq_dec v j value r =? 0) in
    (value, (if value =? 0 then red else filter known' red, cred)).
  (* the values of one node after the lines below k *)
  Definition settled (bq : block) (v : nat -> nat) (k : nat) : nat -> nat :=
    fold_left (fun v j => upd Nat.eq_dec v j (fst (settle_line (lines bq j) j v))) (seq 0 k) v.

  (* The adapted line: [v2] are the values behind line 159, [v3] behind line 183. *)
  Definition forward_line (v2 v3 : table) (q j : nat) : line :=
    let l := lines (b q) j in
    let '(red, cred) := snd (settle_line l j (settled (b q) (at_ v3 q) j)) in
    Line (frac l) (if at_ v2 q j =? 0 then strike_nodes (sendto l) else sendto l)
         (if at_ v2 q j <? 2 then strike_nodes (recvfrom l) else recvfrom l) red cred.
  Definition forward_block (v2 v3 : table) (q : nat) : block :=
    Block (num_lines (b q)) (forward_line v2 v3 q).
End Forward.

Section Adapt.
  Context (N root : nat) (alg : nat -> list block) (count : nat).
  Local Notation tab := (tab N alg).
  (* block i; block 0 as lines 58-72 leave it *)
  Definition from_block (i q : nat) : block :=
    if i =? 0 then opened root (block_at alg 0) q else block_at alg i q.

  (* The values of block i behind the lines 119, 159, 183 and 230. *)
  Fixpoint marks (i : nat) : table * table * table * table :=
    let b := from_block i in
    let v1 := tab i (outputs b
                (match i with
                 | O => origin root (block_at alg 0)
                 | S i' => carried (snd (marks i'))
                 end)) in
    let v2 := if middle_block count i then tab i (informed b v1) else v1 in
    let v3 := tab i (dropped b v2) in
    let v4 := tab i (fun q => settled (b q) (at_ v3 q) (num_lines (b q))) in
    (v1, v2, v3, v4).
  (* ext_mpi_generate_forward_interpreter *)
  Definition forward : nat -> list block := fun q =>
    map (fun i => let '(_, v2, v3, _) := marks i in forward_block (from_block i) v2 v3 q) (seq 0 count).
End Adapt.

(* reduce_copyin.c:486-512: only the root copies in, from fragment [node] on.  For
   a broadcast the user has a single buffer, which ext_mpi_native.c:894-897 passes
   as sendbuf and as recvbuf; it is Recvbuf here. *)
Fixpoint copyin_from (mcounts : nat -> nat) (num_nodes node : nat) (is : list nat) (add : nat) : list instr :=
  match is with
  | [] => []
  | i :: r =>
    let j := (num_nodes + i + node) mod num_nodes in
    Memcpy (Shm 0, add) (Recvbuf, moffset mcounts j) (mcounts j) :: copyin_from mcounts num_nodes node r (add + mcounts j)
  end.
Definition copyin_root (mcounts : nat -> nat) (num_nodes root node : nat) : list instr :=
  Barrier :: (if node =? root then copyin_from mcounts num_nodes node (seq 0 num_nodes) 0 else []) ++ [Barrier].

(* EXT_MPI_Bcast_init_native, ext_mpi_native.c:736-790 and 887-898, with node_size
   = 1; [alg] is the adapted schedule of this node.  All nodes but the root copy the
   result out (reduce_copyout.c:132-139). *)
Definition bcast_program (alg : list block) (count num_nodes root node : nat) : list instr :=
  let mcounts := split_count count num_nodes in
  copyin_root mcounts num_nodes root node ++
  between2 alg (mmsizes mcounts num_nodes) num_nodes node ++
  (if node =? root then [] else copyout_all mcounts (last alg empty_block) count).
