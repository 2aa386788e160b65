(* Numbers in memory: memcpy from and to int, enum and pointer variables.  A byte is
   an integer 0..255; little endian, two's complement, int and enum of 4 bytes,
   pointers of 8 (the platforms of the library: x86-64, aarch64). *)
From Verif Require Export Base.
Local Open Scope Z_scope.

Definition bytes := list Z.
Fixpoint put_le (k : nat) (v : Z) : bytes :=
  match k with O => [] | S k => v mod 256 :: put_le k (v / 256) end.
Fixpoint get_le (k : nat) (b : bytes) : option (Z * bytes) :=
  match k with
  | O => Some (0, b)
  | S k => match b with
           | x :: b => match get_le k b with Some (v, r) => Some (x + 256 * v, r) | None => None end
           | [] => None
           end
  end.
Definition signed (k : nat) (u : Z) : Z := if u <? 2 ^ (8 * Z.of_nat k - 1) then u else u - 2 ^ (8 * Z.of_nat k).
Definition put_int (v : Z) : bytes := put_le 4 v.
Definition get_int (b : bytes) : option (Z * bytes) :=
  match get_le 4 b with Some (u, r) => Some (signed 4 u, r) | None => None end.
Definition put_pointer (v : Z) : bytes := put_le 8 v.
Definition get_pointer (b : bytes) : option (Z * bytes) := get_le 8 b.
(* (signed) char *)
Definition put_char (v : Z) : bytes := put_le 1 v.
Definition get_char (b : bytes) : option (Z * bytes) :=
  match get_le 1 b with Some (u, r) => Some (signed 1 u, r) | None => None end.

Definition is_int (v : Z) : Prop := - 2 ^ 31 <= v < 2 ^ 31.
Definition is_char (v : Z) : Prop := - 128 <= v < 128.
Definition is_pointer (v : Z) : Prop := 0 <= v < 2 ^ 64.

(* arrays of int *)
Definition put_ints (l : list Z) : bytes := flat_map put_int l.
Fixpoint get_ints (n : nat) (b : bytes) : option (list Z * bytes) :=
  match n with
  | O => Some ([], b)
  | S n => match get_int b with
           | Some (x, b) => match get_ints n b with Some (l, r) => Some (x :: l, r) | None => None end
           | None => None
           end
  end.
