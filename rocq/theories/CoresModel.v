(* Model of src/core/raw_code_tasks_node.c: the messages between the nodes are
   shared out among the cores of a node.  Simplifications: ints are exact;
   reading and writing the buffers (18-64, 227-229) and errors are left out;
   rank_perm is a list of num_nodes numbers, seq 0 num_nodes if there is none
   (29-37). *)
From Verif Require Import Base SchedModel PermModel.
Local Open Scope Z_scope.

(* 69-80: entries removed for a rooted collective are put back *)
Definition restored (e : Z) : Z := if e <=? -10 then -10 - e else e.

Section Cores.
  (* num_nodes, rank_perm, node = parameters->socket, node_size and node_rank *)
  Context (N : nat) (perm : list nat) (node : nat) (cores core : nat).
  Definition zz (n : nat) : Z := Z.of_nat n.
  (* rank_perm[x], rank_back_perm[x]: 41-43 *)
  Definition pm (x : Z) : Z := zz (nth (Z.to_nat x) perm 0%nat).
  Definition bk (x : Z) : Z := zz (nth (Z.to_nat x) (back_perm perm) 0%nat).

  (* 84-88, 144-146 and 100-104, 172-174: index of a partner in nodes_recv and
     nodes_send.  The entries <= -10 of 90-96 and 108-114 do not occur any more. *)
  Definition recv_index (x : Z) : Z := Z.rem (pm x - pm (zz node) + zz N) (zz N).
  Definition send_index (x : Z) : Z := Z.rem (- pm x + pm (zz node) + zz N) (zz N).

  (* the partners of a block: all entries that are nodes *)
  Definition partners (entries : line -> list (Z * nat)) (b : block) : list Z :=
    filter (fun x => 0 <=? x)
      (flat_map (fun n => map (fun e => restored (fst e)) (entries (lines b n))) (seq 0 (num_lines b))).
  (* 66-68, 81-116: the indices that are not -1 any more *)
  Definition marked (index : Z -> Z) (entries : line -> list (Z * nat)) (b : block) (d : nat) : bool :=
    existsb (fun x => index x =? zz d) (partners entries b).
  (* k of 117-128 and 129-140 for index d > 0: the marked indices in between *)
  Definition turn (mark : nat -> bool) (d : nat) : nat := length (filter mark (seq 1 (d - 1))).
  (* nodes_recv[d] and nodes_send[d] after 117-140 *)
  Definition slot (mark : nat -> bool) (d : nat) : Z :=
    if (d =? 0)%nat then (if mark 0%nat then 0 else -1) * zz cores
    else if mark d then
      if negb (turn mark d mod cores =? core)%nat then - zz d * zz cores - 10
      else zz d * zz cores
    else -1.

  (* 143-165 and 171-192; [sign] is +1 for recvfrom and -1 for sendto *)
  Definition rank_of (sign l : Z) : Z :=
    if 0 <=? l then
      let x := Z.rem (sign * l + pm (zz node) * zz cores + zz N * zz cores) (zz N * zz cores) + zz core in
      bk (Z.quot x (zz cores)) * zz cores + Z.rem x (zz cores)
    else
      - (bk (Z.quot (Z.rem (sign * (- l - 10) + pm (zz node) * zz cores + zz N * zz cores) (zz N * zz cores)) (zz cores)) * zz cores)
      - 10 - zz core.
  Definition share (sign : Z) (index : Z -> Z) (mark : nat -> bool) (e : Z) : Z :=
    let x := restored e in
    if 0 <=? x then rank_of sign (slot mark (Z.to_nat (index x))) else x.

  (* 166-168, 193-195 and 197-224: removed entries disappear, unless the line
     would have none left; then one remains, to the core itself.  [old] are the
     entries before, [new] after sharing out; None stands for 2000000000. *)
  Definition own_rank : Z := zz (node * cores + core).
  Fixpoint remaining (l : list (option (Z * nat))) (line : nat) : list (Z * nat) :=
    match l with
    | [] => []
    | [None] => [(own_rank, line)]
    | None :: r => remaining r line
    | Some e :: r => e :: flat_map (fun o => match o with Some e => [e] | None => [] end) r
    end.
  Definition shared (sign : Z) (index : Z -> Z) (mark : nat -> bool) (es : list (Z * nat)) : list (option (Z * nat)) :=
    map (fun e => if fst e <=? -10 then None else Some (share sign index mark (fst e), snd e)) es.

  (* 197-211: recvfrom_line moves with recvfrom_node, and is the line itself in
     the last case; 212-224: sendto_line does not move *)
  Definition recv_share (b : block) (j : nat) (es : list (Z * nat)) : list (Z * nat) :=
    remaining (shared 1 recv_index (marked recv_index recvfrom b) es) j.
  Definition send_share (b : block) (es : list (Z * nat)) : list (Z * nat) :=
    combine (map fst (remaining (shared (-1) send_index (marked send_index sendto b) es) 0)) (map snd es).

  (* one block, 65-226 *)
  Definition tasks_node (b : block) : block :=
    Block (num_lines b) (fun j =>
      let l := lines b j in
      Line (frac l) (send_share b (sendto l)) (recv_share b j (recvfrom l)) (reducefrom l) (copyreducefrom l)).
End Cores.
