(* Model of src/core/raw_code_merge.c:8-97: neighbouring copies are replaced by
   one bigger copy. *)
From Verif Require Import Base.
Local Open Scope Z_scope.

Inductive ctype := memcpy | reduce | memcp_ | reduc_.
Definition ctype_eq (a b : ctype) : {a = b} + {a <> b}. Proof. decide equality. Defined.
(* buffer_type, buffer_number, offset_number of one operand *)
Record buf := Buf { b_kind : Z; b_num : Z; b_onum : Z }.
(* struct line_memcpy_reduce *)
Record copy := Copy { c_type : ctype; c_buf1 : buf; c_off1 : Z; c_buf2 : buf; c_off2 : Z; c_size : Z }.
Inductive ln := Cpy (c : copy) | Oth (x : Z).   (* Oth: any other line, also ememcpy_ etc. *)

(* the comparisons shared by 31-34 and 53-56: types and numbers, not the kinds
   of the buffers *)
Definition alike (c n : copy) : bool :=
  (if ctype_eq (c_type c) (c_type n) then true else false) &&
  (b_onum (c_buf1 c) =? b_onum (c_buf1 n)) && (b_onum (c_buf2 c) =? b_onum (c_buf2 n)) &&
  (b_num (c_buf1 c) =? b_num (c_buf1 n)) && (b_num (c_buf2 c) =? b_num (c_buf2 n)).
Definition resize (c : copy) (o1 o2 size : Z) : copy := Copy (c_type c) (c_buf1 c) o1 (c_buf2 c) o2 size.

(* 31-47: following copies are appended; the result and what remains *)
Fixpoint forward (c : copy) (ls : list ln) : copy * list ln :=
  match ls with
  | Cpy n :: r =>
    if alike c n && (c_off1 c + c_size c =? c_off1 n) && (c_off2 c + c_size c =? c_off2 n) &&
       negb (c_off1 c =? c_off2 n)
    then forward (resize c (c_off1 c) (c_off2 c) (c_size c + c_size n)) r
    else (c, ls)
  | _ => (c, ls)
  end.
(* 53-70: following copies are put in front; [c] keeps its offsets while its
   size grows, the offsets of the last line taken are returned too *)
Fixpoint backward (c : copy) (o1 o2 : Z) (ls : list ln) : copy * (Z * Z) * list ln :=
  match ls with
  | Cpy n :: r =>
    if alike c n && (c_off1 c - c_size c =? c_off1 n) && (c_off2 c - c_size c =? c_off2 n)
    then backward (resize c (c_off1 c) (c_off2 c) (c_size c + c_size n)) (c_off1 n) (c_off2 n) r
    else (c, (o1, o2), ls)
  | _ => (c, (o1, o2), ls)
  end.

(* one line of the input gives one line of the output, and what remains (24-87);
   "something was taken" (flag = 0) is seen from what remains *)
Definition merge_step (c : copy) (ls : list ln) : copy * list ln :=
  let '(f, rest) := forward c ls in
  if (length rest =? length ls)%nat
  then let '(b, (o1, o2), rest) := backward c (c_off1 c) (c_off2 c) ls in (resize b o1 o2 (c_size b), rest)
  else (f, rest).
Fixpoint merge_aux (fuel : nat) (ls : list ln) : list ln :=
  match fuel, ls with
  | S fuel, Cpy c :: r => let '(c', rest) := merge_step c r in Cpy c' :: merge_aux fuel rest
  | S fuel, l :: r => l :: merge_aux fuel r
  | _, _ => []
  end.
Definition merge (ls : list ln) : list ln := merge_aux (length ls) ls.
