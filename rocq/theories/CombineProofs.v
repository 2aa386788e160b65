(* Combining values in any order with an associative, commutative operation. *)
From Coq Require Import Permutation.
From Verif Require Import Base SchedSpec.

Section Combine.
  Context {V : Type} (op : V -> V -> V).
  Hypothesis op_assoc : forall a b c, op a (op b c) = op (op a b) c.
  Hypothesis op_comm : forall a b, op a b = op b a.

  Definition combine (l : list V) : option V :=
    match l with [] => None | x :: r => Some (fold_left op r x) end.
  Definition oplus (a b : option V) : option V :=
    match a, b with
    | None, y => y
    | x, None => x
    | Some x, Some y => Some (op x y)
    end.

  Lemma fold_op l : forall a b, fold_left op l (op a b) = op a (fold_left op l b).
  Proof. induction l as [|x l IH]; intros; cbn; [reflexivity|]. rewrite <- op_assoc. apply IH. Qed.

  Lemma combine_cons x l : combine (x :: l) = oplus (Some x) (combine l).
  Proof. destruct l as [|y l]; cbn; [reflexivity|]. f_equal. apply fold_op. Qed.
  Lemma oplus_assoc a b c : oplus a (oplus b c) = oplus (oplus a b) c.
  Proof. destruct a, b, c; cbn; try reflexivity. f_equal; apply op_assoc. Qed.
  Lemma oplus_comm a b : oplus a b = oplus b a.
  Proof. destruct a, b; cbn; try reflexivity. f_equal; apply op_comm. Qed.

  Lemma combine_app l1 l2 : combine (l1 ++ l2) = oplus (combine l1) (combine l2).
  Proof.
    induction l1 as [|x l1 IH]; [reflexivity|]. cbn [app].
    rewrite !combine_cons, IH. apply oplus_assoc.
  Qed.
  Lemma combine_perm l1 l2 : Permutation l1 l2 -> combine l1 = combine l2.
  Proof.
    induction 1 as [|x l1 l2 P IH|x y l|l1 l2 l3 P1 IH1 P2 IH2]; [reflexivity| | |congruence].
    - rewrite !combine_cons, IH; reflexivity.
    - rewrite !combine_cons, !oplus_assoc. f_equal. apply oplus_comm.
  Qed.

  Lemma combine_concat {A} (v : A -> V) (F : A -> list V) us :
    (forall u, In u us -> Some (v u) = combine (F u)) ->
    combine (map v us) = combine (concat (map F us)).
  Proof.
    induction us as [|u us IH]; intros H; [reflexivity|].
    cbn [map concat]. rewrite combine_cons, combine_app, IH by (intros; apply H; now right).
    rewrite (H u (or_introl eq_refl)). reflexivity.
  Qed.

  Lemma combine_total (f : nat -> V) n : 0 < n -> combine (map f (seq 0 n)) = Some (total op f n).
  Proof.
    intros Hn. destruct n as [|n]; [lia|]. cbn [seq map combine]. unfold total.
    replace (S n - 1) with n by lia. f_equal.
    generalize (f 0). generalize (seq 1 n) as l. induction l as [|x l IH]; intros a; [reflexivity|]. cbn. apply IH.
  Qed.

  (* disjoint contributions *)
  Lemma combine_union (f : nat -> V) (N : nat) (P : nat -> nat -> bool) (Q : nat -> bool) (us : list nat) (v : nat -> V) :
    NoDup us ->
    (forall u, In u us -> Some (v u) = combine (map f (filter (P u) (seq 0 N)))) ->
    (forall u u' k, In u us -> In u' us -> k < N -> P u k = true -> P u' k = true -> u = u') ->
    (forall k, k < N -> (Q k = true <-> exists u, In u us /\ P u k = true)) ->
    combine (map v us) = combine (map f (filter Q (seq 0 N))).
  Proof.
    intros ND Hv Hd HQ.
    rewrite (combine_concat v (fun u => map f (filter (P u) (seq 0 N)))) by assumption.
    rewrite <- (map_map (fun u => filter (P u) (seq 0 N)) (map f)), <- concat_map.
    apply combine_perm, Permutation_map, NoDup_Permutation.
    - clear Hv HQ. induction us as [|u us IH]; cbn; [constructor|].
      inversion ND as [|? ? Nu ND']; subst.
      assert (App : forall l1 l2 : list nat, NoDup l1 -> NoDup l2 -> (forall x, In x l1 -> ~ In x l2) -> NoDup (l1 ++ l2)).
      { clear. induction l1 as [|x l1 IH]; intros l2 H1 H2 H; [assumption|]. inversion H1; subst.
        cbn; constructor; [|apply IH; auto; intros; apply H; now right].
        intros I; apply in_app_or in I; destruct I; [contradiction|]. eapply H; [now left|assumption]. }
      apply App.
      + apply NoDup_filter, seq_NoDup.
      + apply IH; auto. intros a b k Ha Hb. apply Hd; now right.
      + intros k Hk Hk'. apply filter_In in Hk. destruct Hk as [Hk1 Hk2].
        apply in_concat in Hk'. destruct Hk' as (l & Hl & Hk'). apply in_map_iff in Hl.
        destruct Hl as (u' & <- & Hu'). apply filter_In in Hk'. destruct Hk' as [_ Hk3].
        apply in_seq in Hk1. assert (u = u') by (apply (Hd u u' k); auto; [now left|now right|lia]).
        subst; contradiction.
    - apply NoDup_filter, seq_NoDup.
    - intros k. rewrite in_concat, filter_In, in_seq. split.
      + intros (l & Hl & Hk). apply in_map_iff in Hl. destruct Hl as (u & <- & Hu).
        apply filter_In in Hk. destruct Hk as [Hk1 Hk2]. apply in_seq in Hk1.
        split; [lia|]. apply HQ; [lia|]. eauto.
      + intros (Hk & HQk). apply HQ in HQk; [|lia]. destruct HQk as (u & Hu & Pu).
        eexists. split; [apply in_map_iff; exists u; split; [reflexivity|assumption]|].
        apply filter_In. split; [apply in_seq; lia|assumption].
  Qed.
End Combine.
