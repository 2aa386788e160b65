(* Text formatting used all over the code generators: sprintf("%d") and
   sscanf("%d") of the C library.  Strings are lists of characters without the
   terminating 0. *)
From Coq Require Export Ascii.
From Coq Require String.
Export String.StringSyntax.
From Verif Require Import Base.
Open Scope char_scope.
Open Scope list_scope.
Open Scope nat_scope.

Definition text := list ascii.
Definition txt (s : String.string) : text := String.list_ascii_of_string s.
Delimit Scope string_scope with string.
Arguments txt s%string.

Definition digit_char (d : Z) : ascii := ascii_of_nat (48 + Z.to_nat d).
Definition is_digit (c : ascii) : bool := (48 <=? nat_of_ascii c) && (nat_of_ascii c <=? 57).
Definition digit_val (c : ascii) : Z := Z.of_nat (nat_of_ascii c) - 48.

(* decimal digits of n >= 0; enough fuel: n < 2 ^ fuel *)
Fixpoint digits (fuel : nat) (n : Z) : text :=
  match fuel with
  | O => [digit_char n]
  | S f => if (n <? 10)%Z then [digit_char n]
           else digits f (n / 10) ++ [digit_char (n mod 10)]
  end.
Definition print_nat (n : Z) : text := digits (S (Z.to_nat (Z.log2 n))) n.
(* sprintf "%d" *)
Definition print_int (z : Z) : text :=
  if (z <? 0)%Z then "-" :: print_nat (- z) else print_nat z.

Definition is_space (c : ascii) : bool :=
  (c =? " ")%char || ((9 <=? nat_of_ascii c) && (nat_of_ascii c <=? 13)).
Fixpoint skip_while (p : ascii -> bool) (s : text) : text :=
  match s with
  | c :: r => if p c then skip_while p r else s
  | [] => []
  end.
(* the longest prefix without a character satisfying p, and the rest *)
Fixpoint break (p : ascii -> bool) (s : text) : text * text :=
  match s with
  | c :: r => if p c then ([], s) else let (a, b) := break p r in (c :: a, b)
  | [] => ([], [])
  end.

Fixpoint scan_digits (acc : Z) (s : text) : Z * text :=
  match s with
  | c :: r => if is_digit c then scan_digits (10 * acc + digit_val c) r else (acc, s)
  | [] => (acc, [])
  end.
(* sscanf "%d": skips white space, optional sign, at least one digit (otherwise
   nothing is stored: None); int overflow not modelled. *)
Definition scan_unsigned (s : text) : option (Z * text) :=
  match s with
  | c :: _ => if is_digit c then Some (scan_digits 0 s) else None
  | [] => None
  end.
Definition scan_int (s : text) : option (Z * text) :=
  match skip_while is_space s with
  | "-" :: r => match scan_unsigned r with Some (n, t) => Some (- n, t)%Z | None => None end
  | "+" :: r => scan_unsigned r
  | r => scan_unsigned r
  end.
