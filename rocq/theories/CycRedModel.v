(* Model of the cyclic-shift reduce_scatter and allreduce: allreduce_core,
   src/core/allreduce_single.c:184-364, with get_size_level1b (96-124),
   get_lines_used (8-36) and delete_lines (38-94).
   num_ports is a list of negative numbers followed by a list of positive
   numbers (the loop 206 runs as long as a port is negative, the loop 251 until
   the end); [down] and [up] are their absolute values. *)
From Verif Require Import Base SchedModel.

(* (size - 1) / (|port| + 1) + 1: 102, 115, 206, 214 *)
Definition shrink (s p : nat) : nat := (s - 1) / (p + 1) + 1.

(* first block, 192-203 *)
Definition cr_first (N task : nat) : block :=
  Block N (fun l => Line ((l + task) mod N) [] [((-1)%Z, l)] [] []).

(* A stage of the reducing part, 207-234; s = size_level1b, g = gbstep.  Line
   n = i * j + l of the loops 213-233 is sent if i > 0; then a line is appended
   for what is received, from index s on, in the order of the loops. *)
Definition cr_send (N s g p task : nat) (prev : block) : block :=
  let j := shrink s p in
  Block (s + (s - j)) (fun n =>
    if n <? s then
      Line (frac (lines prev n))
           (if n <? j then [] else [(Z.of_nat ((task + g * (n / j)) mod N), n mod j)]) [] [] []
    else
      let line := j + (n - s) in
      Line (frac (lines prev (line mod j))) []
           [(Z.rem (Z.of_nat N + Z.of_nat task - Z.of_nat g * Z.of_nat (line / j)) (Z.of_nat N), line)] [] []).
(* the reductions behind it, 235-250 *)
Definition cr_add (s : nat) (b : block) : block :=
  Block (num_lines b) (fun n =>
    Line (frac (lines b n)) [] []
         (if n <? s then filter (fun m => frac (lines b n) =? frac (lines b m)) (seq s (num_lines b - s)) else []) []).
(* The loop 206-252.  size_level1b of a step (207, 100-103: ret = 1) is N
   shrunk by the ports before; gbstep is shrunk in 206, for the first time
   before the first step. *)
Fixpoint cr_down (N s g : nat) (ports : list nat) (task : nat) (prev : block) : list block :=
  match ports with
  | [] => []
  | p :: r =>
    let x := cr_send N s (shrink g p) p task prev in
    let y := cr_add s x in
    x :: y :: cr_down N (shrink s p) (shrink g p) r task y
  end.

(* A stage of the spreading part, 256-310; s0 and s1 are the results of
   get_size_level1b with flag 0 and 1, g = gbstep.  The values 3, 1, 2, -k-1
   stored in frac by 261-275 select the cases of 276-310.  nat subtraction: the
   differences are only compared with line >= 0. *)
Definition cr_spread (N s0 s1 g p task : nat) (prev : block) : block :=
  let l := s1 - s0 in
  let to sends line := map (fun i => (Z.rem (Z.of_nat N + Z.of_nat task - (Z.of_nat i + 1) * Z.of_nat g) (Z.of_nat N),
                                      line + s0 * (i + 1))) (seq 0 sends) in
  Block s1 (fun line =>
    if line <? s0 then
      Line (frac (lines prev line))
           (if (s1 - s0 * p <=? line) && (line <? l) then to (p - 1) line
            else if l <=? line then [] else to p line) [] [] []
    else
      let k := (line - s0) / s0 in
      (* 300-302: the lines with the same k begin at s0 * (k + 1) *)
      let j := (line - s0) mod s0 in
      Line ((frac (lines prev j) + N + (k + 1) * g) mod N) []
           [(Z.of_nat ((N + task + (k + 1) * g) mod N), j)] [] []).
(* the reductions behind it, 311-331: the closest line above with the same
   fragment that is not received from the same node; the loop 317 over the
   fragments visits every line once, since all fragments are below N *)
Definition from_of (b : block) (n : nat) : option Z :=
  match recvfrom (lines b n) with [e] => Some (fst e) | _ => None end.
Definition cr_collect (b : block) : block :=
  Block (num_lines b) (fun n =>
    Line (frac (lines b n)) [] []
         match from_of b n with
         | None => []
         | Some q =>
           match find (fun j => (frac (lines b j) =? frac (lines b n)) &&
                                match from_of b j with Some q' => negb (q =? q')%Z | None => true end)
                      (rev (seq 0 n)) with
           | Some j => [j]
           | None => []
           end
         end []).
(* The loop 255-333.  get_size_level1b multiplies the size s after the
   reducing part by the product of the ports plus one before this step (flag 0)
   or up to this step, at most N (flag 1: the products 105 and 109-111 run over
   the same ports); gbstep is the former product. *)
Fixpoint cr_up (N s g : nat) (ports : list nat) (task : nat) (prev : block) : list block :=
  match ports with
  | [] => []
  | p :: r =>
    let x := cr_spread N (s * g) (s * (if N <? g * (p + 1) then N else g * (p + 1))) g p task prev in
    let y := cr_collect x in
    x :: y :: cr_up N s (g * (p + 1)) r task y
  end.

(* last block, 337-353: the last line of every fragment *)
Definition cr_last (NL : nat) (prev : block) : block :=
  Block NL (fun n =>
    let f := frac (lines prev n) in
    Line f (if existsb (fun m => frac (lines prev m) =? f) (seq (n + 1) (NL - (n + 1))) then [] else [((-1)%Z, f)]) [] [] []).

(* get_lines_used, 20-31, for one line of a block; only lines below the number
   of lines of the last block are ever marked *)
Definition cr_mark (b : block) (u : nat -> bool) (n : nat) : nat -> bool :=
  if u n then fold_left (fun u r => upd Nat.eq_dec u r true)
                (firstn 1 (reducefrom (lines b n)) ++ firstn 1 (map snd (recvfrom (lines b n)))) u
  else u.
(* one round of the while loop, 17-34, through the blocks but the last one *)
Definition cr_pass (bs : list block) (u : nat -> bool) : nat -> bool :=
  fold_left (fun u b => fold_left (cr_mark b) (rev (seq 0 (num_lines b))) u) (rev bs) u.
(* The while loop: until nothing changes.  Every round but the last one marks a
   line, so as many rounds as lines and one more are enough. *)
Fixpoint cr_closure (fuel NL : nat) (bs : list block) (u : nat -> bool) : nat -> bool :=
  match fuel with
  | O => u
  | S k => let u' := cr_pass bs u in
           if forallb (fun n => Bool.eqb (u n) (u' n)) (seq 0 NL) then u else cr_closure k NL bs u'
  end.
Definition cr_used (bs : list block) (final : block) : nat -> bool :=
  cr_closure (S (num_lines final)) (num_lines final) bs
    (fun n => (n <? num_lines final) && (length (sendto (lines final n)) =? 1)).

(* delete_lines, 42-92, for one block: sends to lines that are not used are
   dropped, except in the last block; then the lines not used are removed one
   after the other, and indices of lines behind are decremented every time,
   here at once: by the number of lines removed before it. *)
Definition cr_place (u : nat -> bool) (r : nat) : nat := length (filter u (seq 0 r)).
Definition cr_keep (u : nat -> bool) (last : bool) (b : block) : block :=
  let us := filter u (seq 0 (num_lines b)) in
  Block (length us) (fun r =>
    let l := lines b (nth r us 0) in
    Line (frac l)
         (map (fun e => (fst e, if (0 <=? fst e)%Z then cr_place u (snd e) else snd e))
              (if last then sendto l else filter (fun e => u (snd e)) (sendto l)))
         (map (fun e => (fst e, cr_place u (snd e))) (recvfrom l))
         (map (cr_place u) (reducefrom l))
         (copyreducefrom l)).

(* allreduce_core *)
Definition cyclic_reduce (N : nat) (down up : list nat) (task : nat) : list block :=
  let first := cr_first N task in
  let ds := cr_down N N N down task first in
  let s := fold_left shrink down N in
  let middle := last ds first in
  match up with
  | [] => first :: ds ++ [cr_last s middle]       (* 335 *)
  | _ :: _ =>
    let us := cr_up N s 1 up task middle in
    let final := cr_last (num_lines (last us middle)) (last us middle) in
    let u := cr_used us final in
    first :: ds ++ map (cr_keep u false) us ++ [cr_keep u true final]
  end.
