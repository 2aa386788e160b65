(* Helpers used by the other files; nothing here models the C code. *)
From Coq Require Export ZArith List Lia Bool Arith.
From Coq Require Export ZifyBool ZifyNat ZifyN.
Export ListNotations.

Ltac Zify.zify_post_hook ::= Z.div_mod_to_equations.

(* Total function update. *)
Definition upd {A B} (eqd : forall x y : A, {x = y} + {x <> y})
  (f : A -> B) (a : A) (b : B) : A -> B :=
  fun x => if eqd x a then b else f x.

Lemma upd_same {A B} eqd (f : A -> B) a b : upd eqd f a b a = b.
Proof. unfold upd. destruct (eqd a a); congruence. Qed.

Lemma upd_other {A B} eqd (f : A -> B) a b x : x <> a -> upd eqd f a b x = f x.
Proof. unfold upd. destruct (eqd x a); congruence. Qed.

(* Array write; no effect outside the bounds. *)
Fixpoint lset {A} (l : list A) (i : nat) (x : A) : list A :=
  match l, i with
  | [], _ => []
  | _ :: r, O => x :: r
  | a :: r, S i' => a :: lset r i' x
  end.

Lemma lset_length {A} (l : list A) : forall i x, length (lset l i x) = length l.
Proof. induction l; destruct i; simpl; auto. Qed.

Lemma lset_same {A} (l : list A) : forall i x, i < length l -> nth_error (lset l i x) i = Some x.
Proof. induction l; destruct i; simpl; intros; try lia; auto. apply IHl. lia. Qed.

Lemma lset_other {A} (l : list A) : forall i j x, i <> j -> nth_error (lset l i x) j = nth_error l j.
Proof. induction l; destruct i, j; simpl; intros; auto; try lia. Qed.

Lemma lset_id {A} (l : list A) : forall i x, nth_error l i = Some x -> lset l i x = l.
Proof. induction l; destruct i; simpl; intros; auto; try congruence. f_equal; auto. Qed.

Lemma lset_comm {A} (l : list A) : forall i j x y, i <> j ->
  lset (lset l i x) j y = lset (lset l j y) i x.
Proof. induction l; destruct i, j; simpl; intros; auto; try lia. f_equal; auto. Qed.

Lemma lset_twice {A} (l : list A) : forall i x y, lset (lset l i x) i y = lset l i y.
Proof. induction l; destruct i; simpl; intros; auto. f_equal; auto. Qed.

Notation "'let!' x := e 'in' f" :=
  (match e with Some x => f | None => None end)
  (at level 200, x pattern, e at level 100, f at level 200).
