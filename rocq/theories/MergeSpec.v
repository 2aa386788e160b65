(* What copies do to memory. *)
From Verif Require Import Base MergeModel.
Local Open Scope Z_scope.

Definition buf_eq (a b : buf) : {a = b} + {a <> b}. Proof. decide equality; apply Z.eq_dec. Defined.

Section Memory.
  Context {V : Type} (op : V -> V -> V) (other : Z -> (buf -> Z -> V) -> buf -> Z -> V).
  Definition mem := buf -> Z -> V.
  Definition same (m m' : mem) : Prop := forall b a, m b a = m' b a.

  Definition is_copy (t : ctype) : bool := match t with memcpy | memcp_ => true | _ => false end.
  Definition do_copy (c : copy) (m : mem) : mem := fun b a =>
    if buf_eq b (c_buf1 c) then
      if (c_off1 c <=? a) && (a <? c_off1 c + c_size c) then
        let x := m (c_buf2 c) (a - c_off1 c + c_off2 c) in
        if is_copy (c_type c) then x else op (m b a) x
      else m b a
    else m b a.
  Definition do_line (l : ln) (m : mem) : mem := match l with Cpy c => do_copy c m | Oth x => other x m end.
  Fixpoint run (ls : list ln) (m : mem) : mem := match ls with [] => m | l :: r => run r (do_line l m) end.
End Memory.

(* source and destination do not overlap *)
Definition valid (l : ln) : Prop :=
  match l with
  | Cpy c => 0 <= c_size c /\
    (c_buf1 c <> c_buf2 c \/ c_off1 c + c_size c <= c_off2 c \/ c_off2 c + c_size c <= c_off1 c)
  | Oth _ => True
  end.

(* neighbours that agree in types and numbers agree in the kinds of buffers, and
   are equally long if the second lies directly before the first *)
Definition neighbours (c n : copy) : Prop :=
  alike c n = true ->
  (c_buf1 c = c_buf1 n /\ c_buf2 c = c_buf2 n) /\
  (c_off1 c - c_size c = c_off1 n -> c_off2 c - c_size c = c_off2 n -> c_size c = c_size n).
Fixpoint regular (ls : list ln) : Prop :=
  match ls with
  | Cpy c :: r => match r with Cpy n :: _ => neighbours c n | _ => True end /\ regular r
  | _ :: r => regular r
  | [] => True
  end.
Definition sized (ls : list ln) : Prop := forall c, In (Cpy c) ls -> 0 <= c_size c.
