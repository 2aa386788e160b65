From Verif Require Import Base BytesModel BytesProofs AlgoIOModel AlgoIOSpec.
Local Open Scope Z_scope.

Lemma get_put_array n a r : array_ok n a -> get_array n (put_array n a ++ r) = Some (a, r).
Proof.
  intros [-> H]. unfold get_array, put_array. rewrite Nat2Z.id, firstn_all. destruct a as [|x a]; [reflexivity|].
  destruct (Z.ltb_spec 0 (Z.of_nat (length (x :: a)))) as [L|L]; [|cbn in L; lia]. apply get_put_ints. assumption.
Qed.
Lemma read_write_aline l r : aline_ok l -> read_aline (write_aline l ++ r) = Some (l, r).
Proof.
  intros (H1 & H2 & H3 & H4 & H5 & H6 & H7 & H8 & H9 & H10 & H11). unfold read_aline, write_aline. rewrite <- !app_assoc.
  rewrite !get_put_int by assumption. rewrite !get_put_array by assumption. destruct l; reflexivity.
Qed.
Lemma get_put_many {A} (get : bytes -> option (A * bytes)) (put : A -> bytes) (ok : A -> Prop) l : forall r,
  (forall x r, ok x -> get (put x ++ r) = Some (x, r)) -> Forall ok l ->
  get_many get (length l) (flat_map put l ++ r) = Some (l, r).
Proof.
  induction l as [|x l IH]; intros r G H; [reflexivity|]. inversion H; subst. cbn [length get_many flat_map].
  rewrite <- app_assoc, G by assumption. rewrite IH by assumption. reflexivity.
Qed.
Lemma read_write_ablock b r : ablock_ok b -> read_ablock (write_ablock b ++ r) = Some (b, r).
Proof.
  intros (H1 & H2 & H3). unfold read_ablock, write_ablock. rewrite <- app_assoc, get_put_int by assumption.
  rewrite H2, Nat2Z.id, firstn_all. rewrite (get_put_many read_aline write_aline aline_ok); [|intros; apply read_write_aline; assumption|assumption].
  destruct b; cbn in *; subst; reflexivity.
Qed.
Lemma read_write_algo a r : algo_ok a -> read_algo (write_algo a ++ r) = Some (a, r).
Proof.
  intros (H1 & H2 & H3). unfold read_algo, write_algo. rewrite <- app_assoc, get_put_int by assumption.
  rewrite H2, Nat2Z.id, firstn_all. rewrite (get_put_many read_ablock write_ablock ablock_ok); [|intros; apply read_write_ablock; assumption|assumption].
  destruct a; cbn in *; subst; reflexivity.
Qed.
