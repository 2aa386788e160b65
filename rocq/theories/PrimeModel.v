(* Model of src/core/prime_factors.c and src/mpi/padding_factor.c.
   Numbers are nat (all callers pass positive sizes; int overflow not modelled). *)
From Verif Require Import Base.

(* prime_rost (prime_factors.c:6-18): sieve.  The array of size max_number is a
   function; the loop "for (j = 2; i * j < max_number; j++)" is a fold over
   j = 2 .. max_number + 1 guarded by its condition, which is monotone in j. *)
Definition cross_out (max i : nat) (primes : nat -> bool) : nat -> bool :=
  fold_left (fun (p : nat -> bool) j => if i * j <? max then upd Nat.eq_dec p (i * j) false else p) (seq 2 max) primes.
Definition prime_rost (max : nat) : nat -> bool :=
  fold_left (fun (p : nat -> bool) i => if p i then cross_out max i p else p)
            (seq 2 (max - 2)) (fun _ => true).

(* The list of primes filled in by lines 33-38 (the same loop in 25-29 only counts them). *)
Definition primes_upto (number : nat) : list nat :=
  filter (prime_rost (number + 1)) (seq 2 (number + 1 - 2)).

(* The while loop of lines 43-46: how often p divides j.  [fuel] bounds the
   iterations; j halves at least each time, so [fuel] = j is enough (p >= 2, j > 0). *)
Fixpoint count_loop (fuel j p : nat) : nat :=
  match fuel with
  | O => 0
  | S f => if j mod p =? 0 then S (count_loop f (j / p) p) else 0
  end.
Definition multiplicity (n p : nat) : nat := count_loop n n p.

(* ext_mpi_prime_factor_decomposition (20-52) for number > 0: (prime, count). *)
Definition decomposition (number : nat) : list (nat * nat) :=
  map (fun p => (p, multiplicity number p)) (primes_upto number).
(* the same for number < 0 (23-31): only the number of primes up to |number| *)
Definition decomposition_size (number : nat) : nat := length (primes_upto number).

(* ext_mpi_plain_prime_factors (54-65), without the terminating 0. *)
Definition plain_prime_factors (number : nat) : list nat :=
  flat_map (fun '(p, c) => repeat p c) (decomposition number).

(* ext_mpi_prime_factor_padding (97-130) with prime_factor_decomposition_array
   (67-95).  The loop 116-120 takes the minimum of the counts. *)
Definition list_max (l : list nat) : nat :=
  fold_left (fun m x => if m <? x then x else m) l 0.
Definition list_min1 (x : nat) (l : list nat) : nat :=
  fold_left (fun m y => if y <? m then y else m) l x.
Definition prime_factor_padding (numbers : list nat) : nat :=
  match numbers with
  | [] => 1
  | n0 :: rest =>
    fold_left (fun ret p =>
        fold_left (fun r _ => r * p)
          (seq 0 (list_min1 (multiplicity n0 p) (map (fun n => multiplicity n p) rest))) ret)
      (primes_upto (list_max numbers)) 1
  end.

(* ext_mpi_padding_factor (padding_factor.c:6-22): every rank contributes its
   decomposition, filled up with (0,0) to the maximal length over all ranks;
   the element-wise minimum of all ranks' arrays is formed by MPI_Allreduce
   (in effect over primes and counts separately), then multiplied out. *)
Definition min2 (a b : nat * nat) : nat * nat :=
  (Nat.min (fst a) (fst b), Nat.min (snd a) (snd b)).
Fixpoint zip_min (l m : list (nat * nat)) : list (nat * nat) :=
  match l, m with
  | a :: l', b :: m' => min2 a b :: zip_min l' m'
  | _, _ => []
  end.
Definition filled (max_factor number : nat) : list (nat * nat) :=
  decomposition number ++ repeat (0, 0) (max_factor - decomposition_size number).
Definition padding_factor (numbers : list nat) : nat :=
  let max_factor := list_max (map decomposition_size numbers) in
  match map (filled max_factor) numbers with
  | [] => 1
  | f0 :: fs =>
    fold_left (fun ret '(p, c) => fold_left (fun r _ => r * p) (seq 0 c) ret)
              (fold_left zip_min fs f0) 1
  end.

(* ext_mpi_greatest_common_divisor (170-187).  The two local arrays are lists;
   [cancel_inner] is the loop over j for one i. *)
Fixpoint cancel_inner (x : nat) (l2 : list nat) : nat * list nat :=
  match l2 with
  | [] => (x, [])
  | y :: l =>
    if x =? y then let (x', l') := cancel_inner 1 l in (x', 1 :: l')
    else let (x', l') := cancel_inner x l in (x', y :: l')
  end.
Fixpoint cancel (l1 l2 : list nat) : list nat * list nat :=
  match l1 with
  | [] => ([], l2)
  | x :: l => let (x', l2') := cancel_inner x l2 in
              let (l', l2'') := cancel l l2' in (x' :: l', l2'')
  end.
Definition greatest_common_divisor (d1 d2 : nat) : nat :=
  fold_left Nat.mul (fst (cancel (plain_prime_factors d1) (plain_prime_factors d2))) d2.

(* qsort with factors_minimum_compare(_reverse) (132-138): any sorting
   algorithm gives the same list of ints; insertion sort is used. *)
Fixpoint insert (le : nat -> nat -> bool) (x : nat) (l : list nat) : list nat :=
  match l with
  | [] => [x]
  | y :: l' => if le x y then x :: l else y :: insert le x l'
  end.
Definition sort_up (l : list nat) : list nat := fold_right (insert Nat.leb) [] l.
Definition sort_down (l : list nat) : list nat := fold_right (insert (fun a b => b <=? a)) [] l.

(* ext_mpi_factors_minimum (140-155): the list of the first factors_max entries. *)
Fixpoint combine_loop (fuel factor_min : nat) (l : list nat) : list nat :=
  match fuel, l with
  | S f, a :: b :: l' =>
    if a <? factor_min then combine_loop f factor_min (sort_up (a * b :: l')) else l
  | _, _ => l
  end.
Definition factors_minimum (number factor_min : nat) : list nat :=
  let l := plain_prime_factors number in
  let l' := combine_loop (length l) factor_min l in
  match l' with
  | _ :: _ :: _ => sort_down l'
  | _ => l'
  end.

(* ext_mpi_factor_sqrt (157-168).  "factors[0] < sqrt(number)" is modelled
   exactly by f * f < number (double sqrt is exact enough for ints).  The
   empty list stands for number = 1, where entry 0 is the terminating 0. *)
Fixpoint sqrt_loop (number : nat) (a : nat) (l : list nat) : nat :=
  match l with
  | [] => a
  | b :: l' => if a * a <? number then sqrt_loop number (a * b) l' else a
  end.
Definition factor_sqrt (number : nat) : nat :=
  match plain_prime_factors number with
  | [] => 0
  | a :: l => sqrt_loop number a l
  end.
