(* Model of src/core/parallel_memcpy.c:8-142: copies and reductions inside the
   shared memory are split among the cores of a socket. *)
From Verif Require Import Base.
Local Open Scope Z_scope.

(* A copy or reduce line.  [cp_split] tells whether the type is one of ememcpy,
   ememcp_, ereduce, ereduc_ and both buffers are eshmemo (98-100); buffer and
   offset numbers are not looked at by the pass and left out. *)
Record copy := Copy { cp_split : bool; cp_off1 : Z; cp_off2 : Z; cp_size : Z }.
Inductive ln :=
| Cpy (c : copy)
| Bar          (* esocket_barrier *)
| Oth.         (* any other line *)

(* data_memcpy_reduce.offset1 (it survives lines that are no copies, as
   ext_mpi_read_memcpy_reduce only sets the type then), and offset1 and size of
   data_memcpy_reduce_old *)
Record st := St { cur : Z; old_off : Z; old_size : Z }.
Definition st0 : st := St (-1) (-1) (-1).     (* 15-17 *)

Definition read (cur : Z) (l : ln) : Z := match l with Cpy c => cp_off1 c | _ => cur end.

(* 64-91: the largest size of the following copies with the same destination *)
Fixpoint look (old d mx : Z) (ls : list ln) : Z :=
  match ls with
  | [] => mx
  | Bar :: _ => mx
  | Oth :: r => if old =? d then look old d mx r else mx
  | Cpy c :: r =>
    if old =? cp_off1 c
    then look old (cp_off1 c) (if cp_split c && (mx <? cp_size c) then cp_size c else mx) r
    else mx
  end.

(* 47-93 *)
Definition regroup (s : st) (l : ln) (rest : list ln) : st :=
  let d := read (cur s) l in
  match l with
  | Bar => St d d (look d d 0 rest)
  | _ => if old_off s =? d then St d (old_off s) (old_size s)
         else St d d (look d d 0 (l :: rest))
  end.

(* 100-117: first element and number of elements of the part of core [rank] out
   of [ns], elements of [ts] bytes, [group] the size of the group *)
Definition part (ns ts rank group size : Z) : Z * Z :=
  if rank <? ns then
    let n := Z.quot group ts in
    let add := Z.quot n ns * rank in
    let i := Z.quot n ns in
    let '(add, i) := if rank <? Z.rem n ns then (add + rank, i + 1) else (add + Z.rem n ns, i) in
    if size <? add * ts then (add, 0)
    else if size <? (add + i) * ts then (add, Z.quot size ts - add) else (add, i)
  else (0, 0).

(* 94-139: the lines written for one input line *)
Definition step (ns ts rank : Z) (s : st) (l : ln) (rest : list ln) : st * list ln :=
  let s := regroup s l rest in
  match l with
  | Cpy c =>
    if cp_split c then
      let '(add, i) := part ns ts rank (old_size s) (cp_size c) in
      (St (cur s + add * ts) (old_off s) (old_size s),
       if i * ts =? 0 then [] else [Cpy (Copy true (cp_off1 c + add * ts) (cp_off2 c + add * ts) (i * ts))])
    else (s, [l])
  | _ => (s, [l])
  end.
Fixpoint exec (ns ts rank : Z) (s : st) (ls : list ln) : list (list ln) :=
  match ls with
  | [] => []
  | l :: rest => let '(s', o) := step ns ts rank s l rest in o :: exec ns ts rank s' rest
  end.
Definition parallel (ns ts rank : Z) (ls : list ln) : list (list ln) := exec ns ts rank st0 ls.
