(* Model of the schedule generators of src/core/allreduce_recursive.c.
   Ports are Z (num_ports without the terminating 0); sizes are nat. *)
From Verif Require Import Base SchedModel.

(* abs(num_ports[step]); where the code has num_ports[step] without abs the
   port is positive (assumed in the theorems) *)
Definition width (p : Z) : nat := Z.to_nat (Z.abs p).
Definition zn (n : nat) : Z := Z.of_nat n.

(* ---------- allgather_core (8-75) ---------- *)

(* 13-16, also 82-85 and 101-102 *)
Definition ports_product (ports : list Z) : nat :=
  fold_left (fun a p => a * (width p + 1)) ports 1.

(* first block, 17-29: line [task] holds the node's own fragment *)
Definition ag_first (lb task : nat) : block :=
  Block lb (apply_writes blank
    (flat_map (fun line => if line =? task then [(line, Recv [((-1)%Z, 0)])] else []) (seq 0 lb))).

(* 51-55, 122-126, 133-137, 427-431: the index i of the partner.  [big] and
   [small] are gbstep_next and gbstep (allgather) or gbstep and gbstep_next
   (reduce_scatter).  nat subtraction: line and task lie in the same group of
   size big, so that the C differences are not negative either, except
   possibly for the final -1 of the second branch, where the remainder is not
   0 because line / small <> task / small. *)
Definition partner_index (big small line task : nat) : nat :=
  if task / small <? line / small
  then (big + line / small - task / small - 1) mod big
  else (big + line / small - task / small) mod big - 1.

(* (task + small * (i + 1)) % big + task / big * big: 44, 56, 127, 138, 148, ... *)
Definition partner (big small task i : nat) : nat :=
  (task + small * (i + 1)) mod big + task / big * big.

(* assignments of one exchange stage, 37-59; [off] is the offset of the lines
   (0 here, lines_base in allreduce_core 413-435) *)
Definition ag_writes (off gbstep p task : nat) : list write :=
  let gbstep_next := gbstep * (p + 1) in
  flat_map (fun line =>
      if line / gbstep =? task / gbstep then
        [(line + off, Send (map (fun i => (zn (partner gbstep_next gbstep task i), line)) (seq 0 p)))]
      else
        let i := partner_index gbstep_next gbstep line task in
        [(line + off, Recv [(zn (partner gbstep_next gbstep task i), line)])])
    (seq (task / gbstep_next * gbstep_next) gbstep_next).

Definition ag_block (lb gbstep p task : nat) : block :=
  Block lb (apply_writes blank (ag_writes 0 gbstep p task)).

(* the loop 30-61 *)
Fixpoint ag_stages (lb gbstep : nat) (ports : list Z) (task : nat) : list block :=
  match ports with
  | [] => []
  | p :: r => ag_block lb gbstep (width p) task :: ag_stages lb (gbstep * (width p + 1)) r task
  end.

(* last block, 62-73 *)
Definition ag_last (lb : nat) : block :=
  Block lb (apply_writes blank (map (fun line => (line, Send [((-1)%Z, line)])) (seq 0 lb))).

Definition allgather_core (ports : list Z) (task : nat) : list block :=
  let lb := ports_product ports in
  ag_first lb task :: ag_stages lb 1 ports task ++ [ag_last lb].

(* ---------- reduce_scatter_core (77-220) ---------- *)

(* first block, 86-100 (and 233-247 in allreduce_core) *)
Definition rs_first (lb : nat) : block :=
  Block (2 * lb) (apply_writes (fun x => blank (x mod lb))
    (map (fun line => (line, Recv [((-1)%Z, line)])) (seq 0 lb))).

(* one stage, 103-200 (and 249-346 in allreduce_core).  [first]: step == 0;
   [last]: last_round.  gbstep is the large group, gbstep_next the small one. *)
Definition rs_writes (lb gbstep p : nat) (first last : bool) (task : nat) : list write :=
  let gbstep_next := gbstep / (p + 1) in
  flat_map (fun line =>
    if negb (line / gbstep_next =? task / gbstep_next) then
      let i := partner_index gbstep gbstep_next line task in
      [(line + (if first then 0 else 2 * lb),
        Send [(zn (partner gbstep gbstep_next task i), line)])]
    else if negb last then
      if negb first then
        map (fun i => (line + (3 + i) * lb,
               Recv [(zn (partner gbstep gbstep_next task i), line)])) (seq 0 p)
        ++ [(line + 2 * lb, Reduce (map (fun i => line + (3 + i) * lb) (seq 0 p)))]
      else
        map (fun i => (line + (2 + i) * lb,
               Recv [(zn (partner gbstep gbstep_next task i), line)])) (seq 0 p)
        ++ [(line + 2 * lb, Reduce (line :: map (fun i => line + (2 + i) * lb) (seq 1 (p - 1))))]
    else
      [(line + lb, Recv [(zn (partner gbstep gbstep_next task (p - 1)), line)])]
      ++ map (fun i => (line + (3 + i) * lb,
               Recv [(zn (partner gbstep gbstep_next task i), line)])) (seq 0 (p - 1))
      ++ [(line + lb, Reduce
            (if negb first
             then map (fun i => line + (2 + i) * lb) (seq 0 p)
             else line :: map (fun i => line + (2 + i) * lb) (seq 1 (p - 1))))])
    (seq (task / gbstep * gbstep) gbstep).

Definition rs_block (lb gbstep p : nat) (first last : bool) (task : nat) : block :=
  Block ((if last then 2 + p else 3 + p) * lb)
        (apply_writes (fun x => blank (x mod lb)) (rs_writes lb gbstep p first last task)).

(* the loop 103-201 *)
Fixpoint rs_stages (lb gbstep : nat) (first : bool) (ports : list Z) (task : nat) : list block :=
  match ports with
  | [] => []
  | p :: r =>
    rs_block lb gbstep (width p) first (match r with [] => true | _ => false end) task
    :: rs_stages lb (gbstep / (width p + 1)) false r task
  end.

(* last block, 202-218 *)
Definition rs_last (lb task : nat) : block :=
  Block (2 * lb) (apply_writes (fun x => blank (x mod lb))
    (flat_map (fun line => if line - (2 * lb) / 2 =? task
                           then [(line, Send [((-1)%Z, line - lb)])] else [])
              (seq lb lb))).

Definition reduce_scatter_core (ports : list Z) (task : nat) : list block :=
  let lb := ports_product ports in
  rs_first lb :: rs_stages lb lb true ports task ++ [rs_last lb task].

(* ---------- allreduce_core (222-453) ---------- *)

(* 227-232: only the positive ports count *)
Definition positive_product (ports : list Z) : nat :=
  fold_left (fun a p => if (0 <? p)%Z then a * (width p + 1) else a) ports 1.

(* the reduce-scatter loop over the negative ports, 248-347; returns the blocks,
   gbstep after the loop, whether step is still 0, and the remaining ports *)
Fixpoint ar_down (lb gbstep : nat) (first : bool) (ports : list Z) (task : nat)
  : list block * nat * bool * list Z :=
  match ports with
  | p :: r =>
    if (p <? 0)%Z then
      let last := match r with [] => true | q :: _ => (0 <=? q)%Z end in
      let '(bs, g, f, rest) := ar_down lb (gbstep / (width p + 1)) false r task in
      (rs_block lb gbstep (width p) first last task :: bs, g, f, rest)
    else ([], gbstep, first, ports)
  | [] => ([], gbstep, first, [])
  end.

(* one exchange stage of the middle part, 350-404 *)
Definition mid_writes (lb middle gbstep p : nat) (first : bool) (task : nat) : list write :=
  let gbstep_next := gbstep * (p + 1) in
  flat_map (fun line =>
    if first then
      [(line, Send (map (fun i => (zn (partner gbstep_next gbstep task i), line)) (seq 0 p)));
       (line + lb, Reduce (map (fun i => if i =? 0 then line else line + (i + 1) * lb) (seq 0 p)))]
      ++ map (fun i => (line + (i + 1) * lb,
                Recv [(zn (partner gbstep_next gbstep task i), line)])) (seq 0 p)
    else
      [(line + lb, Send (map (fun i => (zn (partner gbstep_next gbstep task i), line)) (seq 0 p)));
       (line + lb, Reduce (map (fun i => line + (i + 2) * lb) (seq 0 p)))]
      ++ map (fun i => (line + (i + 2) * lb,
                Recv [(zn (partner gbstep_next gbstep task i), line)])) (seq 0 p))
    (seq (task / middle * middle) middle).
Definition mid_block (lb middle gbstep p : nat) (first : bool) (task : nat) : block :=
  Block ((if first then p + 1 else p + 2) * lb)
        (apply_writes (fun x => blank (x mod lb)) (mid_writes lb middle gbstep p first task)).

(* the loop 349-405; should the ports run out before gbstep reaches
   gbstep_middle, the C loop goes on reading num_ports; the model stops *)
Fixpoint ar_middle (lb middle gbstep : nat) (first : bool) (ports : list Z) (task : nat)
  : list block * nat * list Z :=
  match ports with
  | p :: r =>
    if gbstep <? middle then
      let '(bs, g, rest) := ar_middle lb middle (gbstep * (width p + 1)) false r task in
      (mid_block lb middle gbstep (width p) first task :: bs, g, rest)
    else ([], gbstep, ports)
  | [] => ([], gbstep, [])
  end.

(* the allgather loop 406-437, on the lines of the second group *)
Definition up_block (lb gbstep p task : nat) : block :=
  Block (2 * lb) (apply_writes (fun x => blank (x mod lb)) (ag_writes lb gbstep p task)).
Fixpoint ar_up (lb gbstep : nat) (ports : list Z) (task : nat) : list block :=
  match ports with
  | [] => []
  | p :: r => up_block lb gbstep (width p) task :: ar_up lb (gbstep * (width p + 1)) r task
  end.

(* last block, 438-451 *)
Definition ar_last (lb : nat) : block :=
  Block (2 * lb) (apply_writes (fun x => blank (x mod lb))
    (map (fun line => (line, Send [((-1)%Z, line mod lb)])) (seq lb lb))).

Definition allreduce_core (ports : list Z) (task : nat) : list block :=
  let lb := positive_product ports in
  let '(down, middle, first, rest) := ar_down lb lb true ports task in
  let '(mid, gbstep, rest') := ar_middle lb middle 1 first rest task in
  rs_first lb :: down ++ mid ++ ar_up lb gbstep rest' task ++ [ar_last lb].

(* ext_mpi_generate_allreduce_recursive (466-476): the choice of the generator *)
Definition generate_recursive (allgather : bool) (ports : list Z) (task : nat) : list block :=
  if allgather then allgather_core ports task
  else if (last ports 0 <? 0)%Z then reduce_scatter_core ports task
  else allreduce_core ports task.
