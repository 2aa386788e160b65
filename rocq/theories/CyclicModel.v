(* Model of the cyclic-shift allgather, src/core/allreduce_single.c:126-182.
   Ports are nat: for an allgather they are positive. *)
From Verif Require Import Base SchedModel.

(* first block, 131-140 *)
Definition cy_first (task : nat) : block :=
  Block 1 (fun _ => Line task [] [((-1)%Z, 0)] [] []).

(* one line of a stage, 146-166; NL and P are the numbers of lines of this and
   the previous block.  nat subtraction: negative C values of l and of
   NL - p * P are compared with line >= 0 only, where 0 does as well. *)
Definition cy_line (n NL P g p task k : nat) : line :=
  let fr := (task + k) mod n in
  let l := if NL - g <? g then NL - g else g in
  if k <? l then
    let sends := if NL - p * P <=? k then p - 1 else p in
    Line fr (map (fun i => (Z.rem (Z.of_nat task + Z.of_nat n - (Z.of_nat i + 1) * Z.of_nat g) (Z.of_nat n), k))
                 (seq 0 sends)) [] [] []
  else if g <=? k then
    Line fr [] [(Z.of_nat ((task + n + k / g * g) mod n), k mod g)] [] []
  else blank fr.

(* 142-143 *)
Definition cy_lines (n P p : nat) : nat := if n <? P * (p + 1) then n else P * (p + 1).

(* the loop 141-168; returns also the number of lines of the last stage *)
Fixpoint cy_stages (n P g : nat) (ports : list nat) (task : nat) : list block * nat :=
  match ports with
  | [] => ([], P)
  | p :: r =>
    let NL := cy_lines n P p in
    let '(bs, last) := cy_stages n NL (g * (p + 1)) r task in
    (Block NL (cy_line n NL P g p task) :: bs, last)
  end.

(* last block, 169-180: frac is (task + line) % n in every stage (165), and
   task in the first block (134), where there is only line 0 and task < n *)
Definition cy_last (n NL task : nat) : block :=
  Block NL (fun line => Line ((task + line) mod n) [((-1)%Z, (task + line) mod n)] [] [] []).

Definition cyclic_allgather (n : nat) (ports : list nat) (task : nat) : list block :=
  let '(bs, last) := cy_stages n 1 1 ports task in
  cy_first task :: bs ++ [cy_last n last task].
