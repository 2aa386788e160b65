(* Accesses to shared memory. *)
From Verif Require Import Base OffsetModel.
Local Open Scope Z_scope.

(* operand a with size bytes of a copy or reduce line of l *)
Definition accessed (l : list instr) (a : addr) (size : Z) : Prop :=
  exists t d s, In (Mem t d s size) l /\ (a = d \/ a = s).
Definition non_negative (l : list instr) : Prop :=
  forall a size, accessed l a size -> 0 <= a_off a /\ 0 <= size.
Definition numbered (a : addr) : Prop := a_is a = true /\ 0 <= a_num a.

(* [x, x+n) and [y, y+m) have no byte in common *)
Definition apart (x n y m : Z) : Prop := x + n <= y \/ y + m <= x.

(* some copy or reduce line reaches at least as far into the buffer of a *)
Definition reached (l : list instr) (a : addr) (n : Z) : Prop :=
  numbered a /\ 0 <= a_off a /\
  exists b m, accessed l b m /\ numbered b /\ a_num b = a_num a /\ a_off a + n <= a_off b + m.
