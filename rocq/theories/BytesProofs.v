From Verif Require Import Base BytesModel.
Local Open Scope Z_scope.
Local Ltac Zify.zify_post_hook ::= idtac.

Lemma put_le_length k : forall v, length (put_le k v) = k.
Proof. induction k; intros; cbn; congruence. Qed.
Lemma get_put_le k : forall v r, get_le k (put_le k v ++ r) = Some (v mod 2 ^ (8 * Z.of_nat k), r).
Proof.
  induction k as [|k IH]; intros v r; cbn [put_le get_le app].
  - rewrite Z.mod_1_r. reflexivity.
  - rewrite IH. f_equal. f_equal.
    replace (8 * Z.of_nat (S k)) with (8 + 8 * Z.of_nat k) by lia. rewrite Z.pow_add_r by lia.
    change (2 ^ 8) with 256. rewrite Z.rem_mul_r by lia. reflexivity.
Qed.
Lemma signed_mod k v : (1 <= k)%nat -> - 2 ^ (8 * Z.of_nat k - 1) <= v < 2 ^ (8 * Z.of_nat k - 1) ->
  signed k (v mod 2 ^ (8 * Z.of_nat k)) = v.
Proof.
  intros Hk Hv. unfold signed. set (h := 2 ^ (8 * Z.of_nat k - 1)) in *.
  assert (E : 2 ^ (8 * Z.of_nat k) = 2 * h).
  { unfold h. rewrite <- Z.pow_succ_r by lia. f_equal. lia. }
  rewrite E. destruct (Z_lt_le_dec v 0) as [N|N].
  - replace (v mod (2 * h)) with (v + 2 * h); [destruct (Z.ltb_spec (v + 2 * h) h); lia|].
    apply (Z.mod_unique v (2 * h) (-1)); lia.
  - rewrite Z.mod_small by lia. destruct (Z.ltb_spec v h); lia.
Qed.
Lemma get_put_int v r : is_int v -> get_int (put_int v ++ r) = Some (v, r).
Proof. intros H. unfold get_int, put_int. rewrite get_put_le, signed_mod; [reflexivity|lia|exact H]. Qed.
Lemma get_put_char v r : is_char v -> get_char (put_char v ++ r) = Some (v, r).
Proof. intros H. unfold get_char, put_char. rewrite get_put_le, signed_mod; [reflexivity|lia|exact H]. Qed.
Lemma get_put_pointer v r : is_pointer v -> get_pointer (put_pointer v ++ r) = Some (v, r).
Proof. intros H. unfold get_pointer, put_pointer. rewrite get_put_le, Z.mod_small; [reflexivity|exact H]. Qed.
Lemma get_put_ints l : forall r, Forall is_int l -> get_ints (length l) (put_ints l ++ r) = Some (l, r).
Proof.
  induction l as [|x l IH]; intros r H; [reflexivity|]. inversion H; subst. cbn [length get_ints put_ints flat_map].
  rewrite <- app_assoc, get_put_int by assumption. fold (put_ints l). rewrite IH by assumption. reflexivity.
Qed.
Lemma put_int_length v : length (put_int v) = 4%nat. Proof. apply put_le_length. Qed.
Lemma put_ints_length l : length (put_ints l) = (4 * length l)%nat.
Proof. induction l; cbn [put_ints flat_map]; [reflexivity|]. rewrite app_length, put_int_length. fold (put_ints l). rewrite IHl. cbn. lia. Qed.
