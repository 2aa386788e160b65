(* Blocks with the same lines. *)
From Verif Require Import Base SchedModel SchedSpec SchedProofs MatchProofs LooseSpec LooseChain.
Local Ltac Zify.zify_post_hook ::= idtac.

Definition alike (b b' : block) : Prop := num_lines b = num_lines b' /\ forall n, lines b n = lines b' n.

Section Alike.
  Context (N : nat) (b1 b2 : nat -> block) (E : forall q, q < N -> alike (b1 q) (b2 q)).
  Lemma sent_alike p q : p < N -> sent_lines b1 p q = sent_lines b2 p q.
  Proof.
    intros Hp. destruct (E p Hp) as [A B]. unfold sent_lines. rewrite A. induction (seq 0 (num_lines (b2 p))) as [|n l IH]; [reflexivity|].
    cbn. now rewrite IH, B.
  Qed.
  Lemma recv_alike q p : q < N -> recv_lines b1 q p = recv_lines b2 q p.
  Proof.
    intros Hq. destruct (E q Hq) as [A B]. unfold recv_lines. rewrite A. apply filter_ext. intros n. now rewrite B.
  Qed.
  Lemma stage_alike {V} (op : V -> V -> V) st q n : q < N -> stage op N b1 st q n = stage op N b2 st q n.
  Proof.
    intros Hq. destruct (E q Hq) as [A B]. unfold stage, copyreduced, reduced. rewrite A.
    assert (C : forall l m, fold_left (copyreduce_line op b1 q) l m = fold_left (copyreduce_line op b2 q) l m).
    { induction l as [|k l IH]; intros m; [reflexivity|]. cbn. rewrite IH. unfold copyreduce_line. now rewrite B. }
    assert (R : forall l m, fold_left (reduce_line op b1 q) l m = fold_left (reduce_line op b2 q) l m).
    { induction l as [|k l IH]; intros m; [reflexivity|]. cbn. rewrite IH. unfold reduce_line. now rewrite B. }
    rewrite C, R. do 2 f_equal. unfold received.
    assert (H : forall p, In p (map (fun o => (N + q - o) mod N) (seq 0 N)) -> p < N).
    { intros p I. apply in_map_iff in I. destruct I as (o & <- & _). apply Nat.mod_upper_bound. lia. }
    revert H. generalize (map (fun o => (N + q - o) mod N) (seq 0 N)) (st q).
    induction l as [|p l IH]; intros m H; [reflexivity|]. cbn. rewrite IH by (intros; apply H; now right). f_equal.
    unfold unpack, message, reduces_into. rewrite recv_alike, sent_alike by (auto; apply H; now left). now rewrite B.
  Qed.
  Lemma matched_alike : well_matched N b1 -> well_matched N b2.
  Proof.
    intros (X & Y). split.
    - intros p q Hp Hq D. specialize (X p q Hp Hq D). rewrite sent_alike, recv_alike in X by auto.
      destruct X as [X1 X2]. split; auto. destruct (E p Hp) as [_ Bp], (E q Hq) as [_ Bq].
      rewrite (map_ext _ (fun n => frac (lines (b1 p) n))) by (intros n; now rewrite Bp).
      rewrite (map_ext (fun n => frac (lines (b2 q) n)) (fun n => frac (lines (b1 q) n))) by (intros n; now rewrite Bq). exact X1.
    - intros p n Hp Hn. destruct (E p Hp) as [A B]. rewrite <- A in *. specialize (Y p n Hp Hn). rewrite B in Y. destruct Y as [Y1 Y2].
      split; auto. eapply Forall_impl; [|exact Y2]. intros r. cbn beta. now rewrite B.
  Qed.
End Alike.

Lemma chain_alike {V} (op : V -> V -> V) N : forall bs bs' prev prev' s0 sn,
  (forall q, q < N -> alike (prev q) (prev' q)) -> Forall2 (fun b b' => forall q, q < N -> alike (b q) (b' q)) bs bs' ->
  chain op N prev bs s0 sn -> chain op N prev' bs' s0 sn.
Proof.
  induction bs as [|b bs IH]; intros bs' prev prev' s0 sn P H; inversion H as [|x y l l' Hb Hl]; subst; auto.
  intros (st & s1 & A & B & C). exists st, s1. split; [|split].
  - intros q n Hq S. apply A; auto. intros k Hk. destruct (P q Hq) as [_ P']. destruct (Hb q Hq) as [_ H']. rewrite P', H'. now apply S.
  - intros q n Hq. rewrite B by auto. now apply stage_alike.
  - eapply IH; eauto.
Qed.
