(* Model of the group functions of src/core/allreduce.c:10-143 and of
   revise_partners, 145-160.  The zero-terminated arrays num_ports and groups
   are lists without the zero. *)
From Verif Require Import Base SchedModel.
Local Open Scope Z_scope.

Record params := Params { p_ports : list Z; p_groups : list Z; p_sockets : Z }.

(* loops 24-25 and 33-34: leading negative entries of num_ports *)
Fixpoint leading (l : list Z) : nat :=
  match l with x :: r => if x <? 0 then S (leading r) else 0%nat | [] => 0%nat end.
Definition negatives (l : list Z) : list Z := filter (fun x => x <? 0) l.

(* case -1, 23-30 *)
Definition groups_down (P : params) : nat :=
  length (negatives (firstn (leading (p_ports P)) (p_groups P))).
(* case 1, 42-51: over the group entries from the last; [/=] truncates *)
Fixpoint up_count (fac : Z) (l : list Z) : nat :=
  match l with
  | [] => 0%nat
  | x :: r => if x <? 0 then
                let fac := Z.quot fac (Z.abs x) in
                if 1 <=? fac then S (up_count fac r) else 0%nat
              else up_count fac r
  end.
(* case 1, 32-51.  num_ports and groups have the same length. *)
Definition groups_up (P : params) : nat :=
  up_count (fold_right Z.mul 1 (map Z.abs (negatives (firstn (leading (p_ports P)) (p_groups P)))))
           (rev (p_groups P)).
(* case 0, 14-20 *)
Definition groups_middle (P : params) : Z :=
  Z.of_nat (length (negatives (p_groups P))) - Z.of_nat (groups_down P) - Z.of_nat (groups_up P).

(* 67-69: go behind the next entry that is not positive *)
Fixpoint skip (l : list (Z * Z)) : list (Z * Z) :=
  match l with [] => [] | e :: r => if 0 <? snd e then skip r else r end.
(* 93-99: the entries up to and including the first not positive *)
Fixpoint one_group (l : list (Z * Z)) : list (Z * Z) :=
  match l with [] => [] | e :: r => if 0 <? snd e then e :: one_group r else [e] end.
(* 87-92, on the reversed list: leave the entry, pass positive ones *)
Fixpoint back (l : list (Z * Z)) : list (Z * Z) :=
  match l with [] => [] | e :: r => if 0 <? snd e then back r else e :: r end.
Definition back_step (l : list (Z * Z)) : list (Z * Z) := back (tl l).

(* get_num_ports_group, 55-102; None: arrays left unchanged (58, 75, 83).  The
   result is the list of (num_ports, group) entries written.  In the case
   step > 0 the C code reads groups[-1] if the group is the first one; the
   model then stops at the beginning. *)
Definition ports_group (P : params) (step : Z) : option (list (Z * Z)) :=
  let es := combine (p_ports P) (p_groups P) in
  if match p_ports P with [] => true | _ => false end then None
  else if step =? 0 then
    if groups_middle P <=? 0 then Some [(2147483647, -1)]
    else Some (one_group (Nat.iter (groups_down P) skip es))
  else if step <? 0 then
    if Z.of_nat (groups_down P) <? - step then None
    else Some (one_group (Nat.iter (groups_down P - Z.to_nat (- step)) skip es))
  else
    if Z.of_nat (groups_up P) <? step then None
    else
      let before := Nat.iter (groups_up P - Z.to_nat step + 1) back_step (rev es) in
      Some (one_group (skipn (length before) es)).

(* abs(group[0]) after the call; u: what the array contained before *)
Definition group_size (P : params) (step u : Z) : Z :=
  match ports_group P step with
  | Some (e :: _) => Z.abs (snd e)
  | _ => u
  end.

(* the loop 110-117 of socket_local, same as 130-137 of socket_global: the
   final j and abs(group[0]); u0: indeterminate initial content *)
Definition split_at (P : params) (step u0 : Z) : Z * Z :=
  fold_left (fun '(j, u) i =>
               let g := group_size P (if step <=? 0 then - Z.of_nat i else Z.of_nat i) u in
               (Z.quot j g, g))
            (seq 0 (S (Z.to_nat (Z.abs step)))) (p_sockets P, u0).

(* socket_local, 106-124: the result and the two components *)
Definition socket_local (P : params) (u0 s step : Z) : Z * (Z * Z) :=
  let '(j, g) := split_at P step u0 in
  (Z.rem (Z.quot s j) g, (Z.rem s j, Z.quot (Z.quot s j) g)).

(* socket_global, 126-143; negative numbers are kept (140-141) *)
Definition socket_global (P : params) (u0 l step : Z) (c : Z * Z) : Z :=
  let '(j, g) := split_at P step u0 in
  if 0 <=? l then (l + g * snd c) * j + fst c else l.

(* revise_partners, 145-160, on one line; the frac is a nat here, so that the
   test socket_local >= 0 is true for it *)
Definition revise_line (P : params) (u0 step : Z) (c : Z * Z) (ln : line) : line :=
  let m := map (fun e : Z * nat => (socket_global P u0 (fst e) step c, snd e)) in
  Line (if step =? 0 then Z.to_nat (socket_global P u0 (Z.of_nat (frac ln)) step c) else frac ln)
       (m (sendto ln)) (m (recvfrom ln)) (reducefrom ln) (copyreducefrom ln).
Definition revise_block (P : params) (u0 step : Z) (c : Z * Z) (b : block) : block :=
  Block (num_lines b) (fun n => revise_line P u0 step c (lines b n)).
