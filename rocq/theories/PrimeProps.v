From Verif Require Import Base PrimeModel PrimeSpec PrimeProofs.

(* C14 *)
Theorem C14_prime_factor_decomposition :
  forall n, 0 < n ->
  (forall p, In p (map fst (decomposition n)) <-> is_prime p /\ p <= n) /\
  increasing (map fst (decomposition n)) /\
  (forall p c, In (p, c) (decomposition n) -> exact_power p c n) /\
  product (map (fun '(p, c) => p ^ c) (decomposition n)) = n.
Proof. exact decomposition_props. Qed.
Print Assumptions C14_prime_factor_decomposition.

Theorem C14_plain_prime_factors :
  forall n, 0 < n ->
  product (plain_prime_factors n) = n /\ (forall p, In p (plain_prime_factors n) -> is_prime p).
Proof. exact plain_ok. Qed.
Print Assumptions C14_plain_prime_factors.

Example C14_example : decomposition 12 = [(2, 2); (3, 1); (5, 0); (7, 0); (11, 0)] /\
  plain_prime_factors 60 = [2; 2; 3; 5].
Proof. split; vm_compute; reflexivity. Qed.

(* C15: the local and the collective padding factor *)
Theorem C15_padding_is_gcd :
  forall l, l <> [] -> (forall n, In n l -> 0 < n) -> prime_factor_padding l = gcd_list l.
Proof. exact padding_is_gcd. Qed.
Print Assumptions C15_padding_is_gcd.

Theorem C15_collective_padding_is_gcd :
  forall l, l <> [] -> (forall n, In n l -> 0 < n) -> padding_factor l = gcd_list l.
Proof. exact padding_factor_is_gcd. Qed.
Print Assumptions C15_collective_padding_is_gcd.

Example C15_example : gcd_list [12; 18; 30] = 6 /\ padding_factor [12; 18; 30] = 6 /\
  prime_factor_padding [12; 18; 30] = 6.
Proof. split; [|split]; vm_compute; reflexivity. Qed.

(* C16: it is the least common multiple, and so wrong unless both are equal. *)
Theorem C16_is_lcm_refuted :
  forall a b, 0 < a -> 0 < b -> greatest_common_divisor a b = Nat.lcm a b.
Proof. exact gcd_function_is_lcm. Qed.
Print Assumptions C16_is_lcm_refuted.

Theorem C16_right_only_if_equal_refuted :
  forall a b, 0 < a -> 0 < b -> (greatest_common_divisor a b = Nat.gcd a b <-> a = b).
Proof. exact gcd_function_right_iff. Qed.
Print Assumptions C16_right_only_if_equal_refuted.

Example C16_example : greatest_common_divisor 4 6 = 12 /\ Nat.gcd 4 6 = 2.
Proof. split; vm_compute; reflexivity. Qed.

(* C35: factorisation into factors of at least a given size *)
Theorem C35_factors_minimum :
  forall number mn, 2 <= number ->
  let r := factors_minimum number mn in
  product r = number /\ non_increasing r /\ r <> [] /\ (length r = 1 \/ forall x, In x r -> mn <= x).
Proof. exact factors_minimum_ok. Qed.
Print Assumptions C35_factors_minimum.

Theorem C35_factor_sqrt :
  forall number, 2 <= number ->
  Nat.divide (factor_sqrt number) number /\ number <= factor_sqrt number * factor_sqrt number.
Proof. exact factor_sqrt_ok. Qed.
Print Assumptions C35_factor_sqrt.

Example C35_example : factors_minimum 60 4 = [12; 5] /\ factor_sqrt 60 = 12.
Proof. split; vm_compute; reflexivity. Qed.

(* For a single node the square-root factor is 0, not a divisor; the caller
   (src/core/cost_estimation.c:341) uses it as a number of ports. *)
Theorem C35_factor_sqrt_of_one_refuted : ~ Nat.divide (factor_sqrt 1) 1.
Proof. intros H. apply divide_le in H; [|constructor]. vm_compute in H. lia. Qed.
Print Assumptions C35_factor_sqrt_of_one_refuted.
