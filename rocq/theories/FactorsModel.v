(* Model of the enumeration of candidate factor lists,
   src/core/recursive_factors.c:135-212. *)
From Verif Require Import Base.
Local Open Scope Z_scope.

Definition FACTOR_MAX : Z := 13.

(* for (j = 0, k = 1; k < num_nodes; k *= 2, j++); (137) *)
Fixpoint log_aux (fuel : nat) (n k : Z) : nat :=
  match fuel with
  | O => O
  | S fuel => if k <? n then S (log_aux fuel n (k * 2)) else O
  end.
Definition digits (n : Z) : nat := log_aux (Z.to_nat n) n 1.

(* The factors in use: for (l = 0, k = 1; k < num_nodes; k *= numbers[l], l++);
   (157, 168, 194) *)
Fixpoint used (n k : Z) (numbers : list Z) : list Z :=
  match numbers with
  | d :: r => if k <? n then d :: used n (k * d) r else []
  | [] => []
  end.
Definition prod (l : list Z) : Z := fold_right Z.mul 1 l.

(* 141-156: count up like an odometer, digits from 2 to FACTOR_MAX.  The C loop
   starts at the last digit; this is the same from the first one.  Also returns
   the first index changed; None on overflow (ret = 0). *)
Fixpoint incr (ds : list Z) : option (list Z * nat) :=
  match ds with
  | [] => None
  | d :: r =>
    match incr r with
    | Some (r', m) => Some (d :: r', S m)
    | None => if FACTOR_MAX <? d + 1 then None else Some (d + 1 :: map (fun _ => 2) r, O)
    end
  end.

(* 135-164; [m] is the smallest index changed so far *)
Fixpoint next_number (fuel : nat) (n : Z) (m : nat) (ds : list Z) : option (list Z) :=
  match fuel with
  | O => None
  | S fuel =>
    match incr ds with
    | None => None
    | Some (ds, i) =>
      let m := Nat.min i m in
      let p := used n 1 ds in
      let k := Z.quot (prod p) (last p 1) in
      if (length p <=? m)%nat || (n <=? k * (last p 1 - 1))
      then next_number fuel n m ds else Some ds
    end
  end.

(* 166-178, for num_nodes > 1 (for one node numbers_new[-1] is accessed); the
   search loop for the last factor ends at the latest at num_nodes *)
Fixpoint last_factor (fuel : nat) (n k d : Z) : Z :=
  match fuel with
  | O => d
  | S fuel => if d * k <? n then last_factor fuel n k (d + 1) else d
  end.
Definition correct_number (n : Z) (numbers : list Z) : list Z :=
  let p := used n 1 numbers in
  let k := Z.quot (prod p) (last p 1) in
  removelast p ++ [last_factor (Z.to_nat n) n k 2].

(* 196-208: the lists made of one candidate: all factors, preceded by the last l
   of them, reversed and negative *)
Definition variant (p : list Z) (l : nat) : list Z := map Z.opp (firstn l (rev p)) ++ p.
Definition variants (allgather : bool) (p : list Z) : list (list Z) :=
  map (variant p) (seq 0 (if allgather then 1 else length p + 1)).

(* 193-211.  The limit on the number of lists (lines_max) is not modelled.
   [count] bounds the number of candidates, which is at most the number of
   states of the odometer. *)
Definition states (n : Z) : nat := Z.to_nat (12 ^ Z.of_nat (digits n)).
Fixpoint enum (count : nat) (n : Z) (ds : list Z) : list (list Z) :=
  match count with
  | O => []
  | S count =>
    used n 1 ds :: match next_number (states n) n (Z.to_nat n + 1) ds with
                   | Some ds' => enum count n ds'
                   | None => []
                   end
  end.
Definition candidates (n : Z) : list (list Z) :=
  enum (states n) n (correct_number n (repeat 2 (Z.to_nat n))).
Definition factor_lists (allgather : bool) (n : Z) : list (list Z) :=
  flat_map (variants allgather) (candidates n).
