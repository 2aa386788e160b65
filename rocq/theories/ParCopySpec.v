(* What splitting copies among cores has to achieve. *)
From Verif Require Import Base ParCopyModel.
Local Open Scope Z_scope.

(* core [rank] moves byte [b] of line [k] of [ls] *)
Definition moves (ns ts rank : Z) (ls : list ln) (k : nat) (b : Z) : Prop :=
  exists c c', nth_error ls k = Some (Cpy c) /\ nth_error (parallel ns ts rank ls) k = Some [Cpy c'] /\
  cp_off1 c' - cp_off1 c = cp_off2 c' - cp_off2 c /\
  cp_off1 c' <= cp_off1 c + b < cp_off1 c' + cp_size c'.

(* sizes are whole numbers of elements, offsets not negative *)
Definition elementwise (ts : Z) (ls : list ln) : Prop :=
  forall c, In (Cpy c) ls -> 0 <= cp_off1 c /\ 0 <= cp_size c /\ (ts | cp_size c).

(* lines j..k are copies to the same destination *)
Definition same_run (ls : list ln) (j k : nat) : Prop :=
  exists o, forall i, (j <= i <= k)%nat -> exists c, nth_error ls i = Some (Cpy c) /\ cp_off1 c = o.

(* no two copies to the same destination have other lines, but no barrier and
   no copy, between them *)
Definition unbroken (ls : list ln) : Prop :=
  forall j k c c', (j < k)%nat -> nth_error ls j = Some (Cpy c) -> nth_error ls k = Some (Cpy c') ->
  cp_off1 c = cp_off1 c' -> (forall i, (j < i < k)%nat -> nth_error ls i = Some Oth) -> k = S j.
