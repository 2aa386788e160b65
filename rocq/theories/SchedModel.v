(* The schedule data structure (struct data_algorithm, include/read_write.h)
   and its meaning, as given to it by src/core/raw_code.c:68-330, which turns
   one block (stage) into sends, receives, copies and reductions. *)
From Verif Require Import Base.

(* struct data_algorithm_line (include/read_write.h).  Lists replace the
   (max, array) pairs; a node number is an integer because -1 stands for the
   user's buffer. *)
Record line := Line {
  frac : nat;
  sendto : list (Z * nat);          (* sendto_node, sendto_line *)
  recvfrom : list (Z * nat);        (* recvfrom_node, recvfrom_line *)
  reducefrom : list nat;
  copyreducefrom : list nat }.

(* struct data_algorithm_block *)
Record block := Block { num_lines : nat; lines : nat -> line }.

(* memset(.., 0, ..) followed by .frac = f, as in every generator
   (e.g. src/core/allreduce_recursive.c:33-36) *)
Definition blank (f : nat) : line := Line f [] [] [] [].

(* One assignment of a generator to a field (max and arrays) of a line. *)
Inductive field :=
| Send (v : list (Z * nat)) | Recv (v : list (Z * nat))
| Reduce (v : list nat) | CopyReduce (v : list nat).
Definition set_field (f : field) (l : line) : line :=
  match f with
  | Send v => Line (frac l) v (recvfrom l) (reducefrom l) (copyreducefrom l)
  | Recv v => Line (frac l) (sendto l) v (reducefrom l) (copyreducefrom l)
  | Reduce v => Line (frac l) (sendto l) (recvfrom l) v (copyreducefrom l)
  | CopyReduce v => Line (frac l) (sendto l) (recvfrom l) (reducefrom l) v
  end.
(* Assignments of a generator to the lines of a block, in program order. *)
Definition write := (nat * field)%type.
Definition apply_write (b : nat -> line) (w : write) : nat -> line :=
  fun x => if x =? fst w then set_field (snd w) (b x) else b x.
Definition apply_writes (b : nat -> line) (ws : list write) : nat -> line :=
  fold_left apply_write ws b.

Section Exec.
  Context {V : Type} (op : V -> V -> V).
  (* N nodes (one socket per node: node_size = 1, so the entries -10-q of
     raw_code.c:84,150,227 do not occur); [blk q] is the block of node q for
     the current stage; a state gives the content of every line of every node.
     A line is one abstract value; the code moves mmsizes(frac) bytes for it. *)
  Context (N : nat) (blk : nat -> block).
  Definition state := nat -> nat -> V.

  Definition is_node (q : nat) (e : Z * nat) : bool := (fst e =? Z.of_nat q)%Z.

  (* Lines of p packed into the message to q <> p: in line order, once per
     matching entry of sendto (raw_code.c:122-175). *)
  Definition sent_lines (p q : nat) : list nat :=
    flat_map (fun n => map (fun _ => n) (filter (is_node q) (sendto (lines (blk p) n))))
             (seq 0 (num_lines (blk p))).
  (* Packed before anything of this stage is overwritten. *)
  Definition message (st : state) (p q : nat) : list V := map (st p) (sent_lines p q).

  (* Lines of q receiving from p <> q, in line order (raw_code.c:76-92, 224-237). *)
  Definition recv_lines (q p : nat) : list nat :=
    filter (fun n => existsb (is_node p) (recvfrom (lines (blk q) n))) (seq 0 (num_lines (blk q))).

  (* raw_code.c:250-251: the last receiving line receives from q itself first *)
  Definition reduces_into (q : nat) (rl : list nat) : bool :=
    match recvfrom (lines (blk q) (last rl 0)) with
    | e :: _ => is_node q e
    | [] => false
    end.

  (* Unpacking of the message from p with a single copy (or reduction) that
     starts at the first receiving line (raw_code.c:219-267). *)
  Definition unpack (st : state) (q : nat) (mem : nat -> V) (p : nat) : nat -> V :=
    if p =? q then mem else
    let rl := recv_lines q p in
    match rl with
    | [] => mem
    | first :: _ => fun n =>
      if (first <=? n) && (n <? first + length rl) then
        if reduces_into q rl then
          nth (n - first) (map (op (mem n)) (message st p q)) (mem n)
        else nth (n - first) (message st p q) (mem n)
      else mem n
    end.
  (* loop over o, with q = (num_nodes + node - o) % num_nodes *)
  Definition received (st : state) (q : nat) : nat -> V :=
    fold_left (unpack st q) (map (fun o => (N + q - o) mod N) (seq 0 N)) (st q).

  (* Reductions inside the node (raw_code.c:269-295), in line order. *)
  Definition reduce_line (q : nat) (mem : nat -> V) (n : nat) : nat -> V :=
    fold_left (fun m r => upd Nat.eq_dec m n (op (m n) (m r))) (reducefrom (lines (blk q) n)) mem.
  Definition reduced (q : nat) (mem : nat -> V) : nat -> V :=
    fold_left (reduce_line q) (seq 0 (num_lines (blk q))) mem.

  (* A copy followed by reductions (raw_code.c:296-330). *)
  Definition copyreduce_line (q : nat) (mem : nat -> V) (n : nat) : nat -> V :=
    match copyreducefrom (lines (blk q) n) with
    | [] => mem
    | r0 :: rs => fold_left (fun m r => upd Nat.eq_dec m n (op (m n) (m r))) rs (upd Nat.eq_dec mem n (mem r0))
    end.
  Definition copyreduced (q : nat) (mem : nat -> V) : nat -> V :=
    fold_left (copyreduce_line q) (seq 0 (num_lines (blk q))) mem.

  (* One stage, all nodes in lock step (each node waits for its messages,
     raw_code.c:211, so the result does not depend on their relative speed). *)
  Definition stage (st : state) : state :=
    fun q => copyreduced q (reduced q (received st q)).
End Exec.

(* raw_code.c:68: the blocks 1, 2, ... are executed; [alg q] is the schedule
   generated for node q, [count] the number of its blocks. *)
Definition empty_block : block := Block 0 (fun _ => blank 0).
Definition stages_of (alg : nat -> list block) (count : nat) : list (nat -> block) :=
  map (fun m q => nth m (alg q) empty_block) (seq 1 (count - 1)).
Definition run {V} (op : V -> V -> V) (N : nat) (stages : list (nat -> block))
  (st : nat -> nat -> V) : nat -> nat -> V :=
  fold_left (fun s blk => stage op N blk s) stages st.

(* Block 0 says which line is filled with which fragment of the user's data: a
   line with an entry recvfrom_node = -1 gets fragment frac
   (src/core/reduce_copyin.c:91-93, 561-576).  The allreduce variant, 91, goes
   through all lines until the user's data is exhausted; in the first blocks
   modelled here these are the lines with recvfrom_node = -1. *)
Definition is_user (e : Z * nat) : bool := (fst e =? -1)%Z.
Definition input_line (b : block) (n : nat) : option nat :=
  if existsb is_user (recvfrom (lines b n)) then Some (frac (lines b n)) else None.
(* The last block says which line is which fragment of the result: a line with
   an entry sendto_node = -1 is fragment frac (src/core/reduce_copyout.c:141-153). *)
Definition output_line (b : block) (n : nat) : option nat :=
  if existsb is_user (sendto (lines b n)) then Some (frac (lines b n)) else None.
