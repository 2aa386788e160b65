(* Model of the pass that adapts a schedule to a root,
   src/mpi/backward_interpreter.c, and of the code that src/core/raw_code.c
   generates from its result, for one process per node (see RawModel.v for the
   simplifications).

   The pass finds out, from the last block to the first one, which lines are
   needed for the result at the root, and strikes out the other communication: a
   partner q becomes -10 - q. *)
From Verif Require Import Base SchedModel RawModel.

(* An entry struck out, with q as the partner (raw_code.c:84, 150, 227). *)
Definition struck (q : nat) (e : Z * nat) : bool := (- fst e - 10 =? Z.of_nat q)%Z.
Definition strike (e : Z * nat) : Z * nat := ((-10 - fst e)%Z, snd e).

(* ---------- backward_interpreter.c ---------- *)

(* values[i] of all nodes, for one block i: 0 for a line that is not needed *)
Definition table := list (list nat).
Definition at_ (t : table) (q j : nat) : nat := nth j (nth q t []) 0.
Definition tabulate (N : nat) (size : nat -> nat) (f : nat -> nat -> nat) : table :=
  map (fun q => map (f q) (seq 0 (size q))) (seq 0 N).

Section Backward.
  Context (N root : nat) (b : nat -> block).

  (* 54-61: the lines that the root hands over to the user *)
  Definition wanted : nat -> nat -> nat := fun q j =>
    if (q =? root) && existsb is_user (sendto (lines (b q) j)) then 2 else 0.
  (* 93-101: a line needed in the next block, 0 for the lines that it does not have *)
  Definition carried (next : table) : nat -> nat -> nat := fun q j =>
    if at_ next q j =? 0 then 0 else 1.

  (* 108-121, with the lines from the last to the first.  The assignment
     values[i - 1][j] = 0 of line 119 changes nothing, as values[i - 1] is still
     0 everywhere. *)
  Definition mark_line (l : line) (j : nat) (v : nat -> nat) : nat -> nat :=
    if v j =? 0 then v
    else fold_left (fun v r => if v r =? 0 then upd Nat.eq_dec v r 1 else v) (reducefrom l ++ copyreducefrom l) v.
  Definition marked (v : nat -> nat -> nat) : nat -> nat -> nat := fun q =>
    fold_left (fun v j => mark_line (lines (b q) j) j v) (rev (seq 0 (num_lines (b q)))) (v q).

  (* 122-149: a node tells every partner it receives from whether it needs the
     line; the messages between two nodes arrive in the order in which they
     were sent.  The checks for logical errors are not modelled: a node is not
     its own partner, and all partners are nodes. *)
  Definition told (v : table) (q p : nat) : list nat :=
    flat_map (fun j => map (fun _ => at_ v q j) (filter (is_node p) (recvfrom (lines (b q) j))))
             (rev (seq 0 (num_lines (b q)))).
  Definition asked (p q : nat) : list nat :=
    flat_map (fun j => map (fun _ => j) (filter (is_node q) (sendto (lines (b p) j))))
             (rev (seq 0 (num_lines (b p)))).
  (* recv_values[j][q] at node p *)
  Definition answer (v : table) (p q j : nat) : nat :=
    fold_left (fun a x => if fst x =? j then snd x else a) (combine (asked p q) (told v q p)) 0.
  Definition partner_of (e : Z * nat) : nat := Z.to_nat (fst e).

  (* 150-171 *)
  Definition sent_needed (v : table) : nat -> nat -> nat := fun p j =>
    if existsb (fun e => negb (answer v p (partner_of e) j =? 0)) (sendto (lines (b p) j)) then 2 else at_ v p j.
  Definition prune_sends (v : table) (p j : nat) : list (Z * nat) :=
    map (fun e => if answer v p (partner_of e) j =? 0 then strike e else e) (sendto (lines (b p) j)).

  (* 122, 150: the messages of the first and the last block are not touched;
     [v1] are the values before, [v2] behind line 171 *)
  Definition prune_line (middle : bool) (v1 v2 : table) (q j : nat) : line :=
    let l := lines (b q) j in
    let sends := if middle then prune_sends v1 q j else sendto l in
    (* 194-222 *)
    if at_ v2 q j =? 0 then Line (frac l) sends (map strike (recvfrom l)) [] []
    else Line (frac l) sends (recvfrom l) (reducefrom l) (copyreducefrom l).
  Definition prune_block (middle : bool) (v1 v2 : table) (q : nat) : block :=
    Block (num_lines (b q)) (prune_line middle v1 v2 q).
End Backward.

Section Prune.
  Context (N root : nat) (alg : nat -> list block) (count : nat).
  Definition block_at (i q : nat) : block := nth i (alg q) empty_block.
  Definition tab (i : nat) : (nat -> nat -> nat) -> table := tabulate N (fun q => num_lines (block_at i q)).

  (* The values of block count - 1 - k, behind line 121 and behind line 171. *)
  Fixpoint levels (k : nat) : table * table :=
    match k with
    | O =>
      let v := tab (count - 1) (marked (block_at (count - 1)) (wanted root (block_at (count - 1)))) in
      (v, v)
    | S k' =>
      let i := count - 1 - k in
      let v := tab i (marked (block_at i) (carried (snd (levels k')))) in
      (v, if 0 <? i then tab i (sent_needed (block_at i) v) else v)
    end.
  Definition middle_block (i : nat) : bool := (0 <? i) && (i <? count - 1).
  (* ext_mpi_generate_backward_interpreter *)
  Definition backward : nat -> list block := fun q =>
    map (fun i => let '(v1, v2) := levels (count - 1 - i) in
                  prune_block (block_at i) (middle_block i) v1 v2 q) (seq 0 count).
End Prune.

(* ---------- raw_code.c, with entries that are struck out ---------- *)
Section Raw.
  Context (size_of : nat -> nat) (num_nodes node : nat).
  Local Notation line_size := (line_size size_of).
  Local Notation line_start := (line_start size_of).

  (* 78-88: the first entry of the line with partner q decides *)
  Definition recv_kind (b : block) (q n : nat) : option bool :=
    if q =? node then None
    else option_map (is_node q) (find (fun e => is_node q e || struck q e) (recvfrom (lines b n))).
  (* size and size_s, 76-89 *)
  Definition kind_size (b : block) (q : nat) (kind : bool) : nat :=
    fold_left (fun a n => match recv_kind b q n with
                          | Some k => if Bool.eqb k kind then a + line_size b n else a
                          | None => a
                          end) (seq 0 (num_lines b)) 0.

  (* 74-121: an own buffer number for what is received and for what is not; the
     line eirec_ is not translated into byte code *)
  Definition used (n : nat) : nat := if n =? 0 then 0 else 1.
  Fixpoint receives2 (b : block) (os : list nat) (c : nat) : list instr * nat :=
    match os with
    | [] => ([], c)
    | o :: r =>
      let q := from_node num_nodes node o in
      let size := kind_size b q true in
      let size_s := kind_size b q false in
      let '(code, c') := receives2 b r (c + used size + used size_s) in
      ((if size =? 0 then [] else [Irecv (Shm c, 0) size q]) ++ code, c')
    end.

  (* 126-173: both kinds are copied to the same buffer, each from position 0 on *)
  Fixpoint pack_entries2 (b : block) (q n c : nat) (es : list (Z * nat)) (add adds : nat) : list instr * nat * nat :=
    match es with
    | [] => ([], add, adds)
    | e :: r =>
      let size := line_size b n in
      let one k := if size =? 0 then [] else [Memcpy (Shm c, k) (Shm 0, line_start b n) size] in
      if is_node q e && negb (q =? node) then
        let '(code, add', adds') := pack_entries2 b q n c r (add + size) adds in (one add ++ code, add', adds')
      else if struck q e && negb (q =? node) then
        let '(code, add', adds') := pack_entries2 b q n c r add (adds + size) in (one adds ++ code, add', adds')
      else pack_entries2 b q n c r add adds
    end.
  Fixpoint pack_lines2 (b : block) (q c : nat) (ns : list nat) (add adds : nat) : list instr * nat * nat :=
    match ns with
    | [] => ([], add, adds)
    | n :: r =>
      let '(code1, add1, adds1) := pack_entries2 b q n c (sendto (lines b n)) add adds in
      let '(code2, add2, adds2) := pack_lines2 b q c r add1 adds1 in
      (code1 ++ code2, add2, adds2)
    end.
  (* 122-208; the line eisen_ is not translated into byte code *)
  Fixpoint sends2 (b : block) (os : list nat) (c : nat) : list instr :=
    match os with
    | [] => []
    | o :: r =>
      let q := to_node num_nodes node o in
      let '(code, add, adds) := pack_lines2 b q c (seq 0 (num_lines b)) 0 0 in
      code ++
      (if add =? 0 then [] else [Barrier; Isend (Shm c, 0) add q]) ++
      (if adds =? 0 then [] else [Barrier]) ++
      sends2 b r (c + used add + used adds)
    end.

  (* 222-239: both kinds together *)
  Definition any_from (b : block) (q n : nat) : bool :=
    existsb (fun e => is_node q e || struck q e) (recvfrom (lines b n)) && negb (q =? node).
  Definition any_size (b : block) (q : nat) : nat :=
    fold_left (fun a n => if any_from b q n then a + line_size b n else a) (seq 0 (num_lines b)) 0.
  Fixpoint any_start (b : block) (q : nat) (ns : list nat) (j : nat) : nat :=
    match ns with
    | [] => j
    | n :: r => if any_from b q n then j else any_start b q r (j + line_size b n)
    end.
  Definition last_any (b : block) (q : nat) : nat :=
    fold_left (fun k n => if any_from b q n then n else k) (seq 0 (num_lines b)) 0.
  (* 219-267 *)
  Fixpoint unpacks2 (b : block) (os : list nat) (c : nat) : list instr :=
    match os with
    | [] => []
    | o :: r =>
      let q := from_node num_nodes node o in
      let size := any_size b q in
      if size =? 0 then unpacks2 b r c
      else
        let d := (Shm 0, any_start b q (seq 0 (num_lines b)) 0) in
        (match recvfrom (lines b (last_any b q)) with
         | e :: _ => if is_node node e || struck node e then Reduce_ d (Shm c, 0) size else Memcpy d (Shm c, 0) size
         | [] => Memcpy d (Shm c, 0) size
         end) :: unpacks2 b r (S c)
    end.

  Definition post_code2 (b : block) (first : bool) : list instr :=
    let os := seq 0 num_nodes in
    let '(recv, c) := receives2 b os 1 in
    (if first then [] else [Barrier]) ++ recv ++ sends2 b os c.
  Definition after_code2 (b : block) : list instr :=
    Barrier :: unpacks2 b (seq 0 num_nodes) 1 ++ Barrier :: reduces size_of b ++ copyreduces size_of b.
  Fixpoint blocks_code2 (bs : list block) (first : bool) : list instr :=
    match bs with
    | [] => [Barrier]
    | b :: r => (post_code2 b first ++ Waitall :: after_code2 b) ++ blocks_code2 r false
    end.
End Raw.

(* ---------- the programs of the collectives with a root ---------- *)
(* src/mpi/ext_mpi_native.c:736-790 and 1040-1087 with node_size = 1; [alg] is
   the schedule of this node, already adapted.  Only the root copies the result
   out (reduce_copyout.c:132-139). *)
Section Programs.
  Context (alg : list block).
  Definition between2 (size_of : nat -> nat) (num_nodes node : nat) : list instr :=
    blocks_code2 size_of num_nodes node (tl alg) true.
  Definition reduce_program (count num_nodes root node : nat) : list instr :=
    let mcounts := split_count count num_nodes in
    copyin_reduce num_nodes mcounts (hd empty_block alg) ++
    between2 (mmsizes mcounts num_nodes) num_nodes node ++
    (if node =? root then copyout_all mcounts (last alg empty_block) count else []).
  Definition gather_program (mcounts : nat -> nat) (num_nodes root node : nat) : list instr :=
    copyin_gather mcounts (hd empty_block alg) (mcounts node) ++
    between2 (mmsizes mcounts num_nodes) num_nodes node ++
    (if node =? root then copyout_all mcounts (last alg empty_block) (moffset mcounts num_nodes) else []).
End Programs.

(* Reduce when every node has [rows] cores and the root is given as a rank, seen
   from node [q] as a whole: the backward interpreter compares the ROOT parameter
   with the number of the node (backward_interpreter.c:56-57), the copy-out compares
   it with the rank, which is on node root / rows (reduce_copyout.c:131-139,
   ext_mpi_native.c:609 and 677-678).  A node stands for all its cores: what it
   contributes is the sum over its cores (their common copy-in is C38-C40), and
   "copies the result out" means that one of its cores does. *)
Definition reduce_by_rank (alg : nat -> list block) (blocks count num_nodes rows root node : nat) : list instr :=
  reduce_program (backward num_nodes root alg blocks node) count num_nodes (root / rows) node.
