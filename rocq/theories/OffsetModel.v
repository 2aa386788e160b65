(* Model of the layout of the scratch buffers: src/core/buffer_offset.c:8-119
   computes it, src/core/no_offset.c:7-69 applies it. *)
From Verif Require Import Base.
Local Open Scope Z_scope.

(* types of copy and reduce lines (enum eassembler_type, include/core/read_write.h) *)
Inductive mtype := memcpy | reduce | memcp_ | reduc_ | smemcpy | smemcp_ | sreduce | sreduc_.

(* is_offset, offset_number and offset of one operand; the buffer kind is kept
   in [a_shmem] (eshmemo or something else), which neither pass looks at *)
Record addr := Addr { a_shmem : bool; a_is : bool; a_num : Z; a_off : Z }.
Inductive instr :=
| Mem (t : mtype) (d s : addr) (size : Z)   (* struct line_memcpy_reduce *)
| Msg (a : addr) (size : Z)                 (* struct line_irecv_isend *)
| Rest.                                     (* any other line *)

(* 24-37: the largest buffer number, at least 0 *)
Definition max_step (m : Z) (i : instr) : Z :=
  match i with
  | Mem _ d s _ =>
    let m := if a_is d && (m <? a_num d) then a_num d else m in
    if a_is s && (m <? a_num s) then a_num s else m
  | _ => m end.
Definition max_num (l : list instr) : Z := fold_left max_step l 0.

(* 56-68: the extent of every numbered buffer and of the accesses without number *)
Definition touch (st : (Z -> Z) * Z) (a : addr) (size : Z) : (Z -> Z) * Z :=
  let '(ext, mx) := st in
  if a_is a && (0 <=? a_num a) && (ext (a_num a) <? a_off a + size)
  then (upd Z.eq_dec ext (a_num a) (a_off a + size), mx)
  else if negb (a_is a) && (mx <? a_off a + size) then (ext, a_off a + size)
  else (ext, mx).
Definition extent_step (st : (Z -> Z) * Z) (i : instr) : (Z -> Z) * Z :=
  match i with
  | Mem _ d s size => touch (touch st d size) s size
  | _ => st end.
Definition extents (l : list instr) : (Z -> Z) * Z := fold_left extent_step l (fun _ => 0, 0).

Definition CACHE_LINE : Z := 64.

(* 77-84: start of buffer i *)
Fixpoint offset2 (ext : Z -> Z) (i : nat) : Z :=
  match i with
  | O => 0
  | S j => offset2 ext j + (if CACHE_LINE <=? ext (Z.of_nat j) then ext (Z.of_nat j) else CACHE_LINE)
  end.

(* buffer_offset_max, 38 *)
Definition num_buffers (l : list instr) : nat := Z.to_nat (max_num l + 2).

(* 85-88: the last entry becomes the end of everything.  The conversion to int
   (97-101) fails if the value does not fit; that case is not modelled. *)
Definition total (l : list instr) : Z :=
  let '(ext, mx) := extents l in
  let e := offset2 ext (num_buffers l - 1) in
  let e := if e <? mx then mx else e in
  (Z.quot e CACHE_LINE + 1) * CACHE_LINE.

(* parameters->shmem_buffer_offset[i] *)
Definition buffer_offset (l : list instr) (i : Z) : Z :=
  if i =? Z.of_nat (num_buffers l) - 1 then total l else offset2 (fst (extents l)) (Z.to_nat i).

(* no_offset.c:29-36 and 43-58; shmem_max is [total] (17) *)
Definition rebase (l : list instr) (a : addr) : addr :=
  if a_is a then
    Addr (a_shmem a) false (a_num a)
         (a_off a + (if 0 <=? a_num a then buffer_offset l (a_num a) else total l))
  else a.
(* no_offset.c:25-64; esreduc_ is not in the list of types (38-41) *)
Definition rebase_instr (l : list instr) (i : instr) : instr :=
  match i with
  | Mem sreduc_ d s size => i
  | Mem t d s size => Mem t (rebase l d) (rebase l s) size
  | Msg a size => Msg (rebase l a) size
  | Rest => Rest
  end.
Definition no_offset (l : list instr) : list instr := map (rebase_instr l) l.
