(* get_lines_used: what is marked in the end is closed under the marks, and
   does not depend on the node. *)
From Verif Require Import Base SchedModel CycRedModel.
Local Ltac Zify.zify_post_hook ::= idtac.

Definition marks (b : block) (n : nat) : list nat := firstn 1 (reducefrom (lines b n)) ++ firstn 1 (map snd (recvfrom (lines b n))).
Definition ule (u v : nat -> bool) : Prop := forall n, u n = true -> v n = true.
Lemma ule_trans u v w : ule u v -> ule v w -> ule u w.
Proof. unfold ule. auto. Qed.

Lemma set_all l : forall u m, fold_left (fun u r => upd Nat.eq_dec u r true) l u m = u m || existsb (Nat.eqb m) l.
Proof.
  induction l as [|r l IH]; intros u m; cbn [fold_left existsb]; [now rewrite orb_false_r|]. rewrite IH. unfold upd.
  destruct (Nat.eq_dec m r) as [->|D].
  - rewrite Nat.eqb_refl. cbn. now rewrite orb_true_r.
  - replace (m =? r) with false by (symmetry; apply Nat.eqb_neq; auto). reflexivity.
Qed.
Lemma mark_at b u n m : cr_mark b u n m = u m || (u n && existsb (Nat.eqb m) (marks b n)).
Proof.
  unfold cr_mark. destruct (u n); cbn [andb]; [|now rewrite orb_false_r]. apply set_all.
Qed.
Lemma mark_ge b n u : ule u (cr_mark b u n).
Proof. intros m H. rewrite mark_at, H. reflexivity. Qed.
Lemma marks_ge b l : forall u, ule u (fold_left (cr_mark b) l u).
Proof. induction l as [|n l IH]; intros u; [now intros m|]. cbn. eapply ule_trans; [apply mark_ge|apply IH]. Qed.
Local Notation block_marks := (fun u b => fold_left (cr_mark b) (rev (seq 0 (num_lines b))) u).
Lemma blocks_ge bs : forall u, ule u (fold_left block_marks bs u).
Proof. induction bs as [|b bs IH]; intros u; [now intros m|]. cbn. eapply ule_trans; [apply marks_ge|apply IH]. Qed.
Lemma pass_ge bs u : ule u (cr_pass bs u).
Proof. apply blocks_ge. Qed.
Lemma pass_marks bs u b n m : In b bs -> n < num_lines b -> u n = true -> In m (marks b n) -> cr_pass bs u m = true.
Proof.
  intros I Hn Hu Hm. unfold cr_pass. apply in_rev in I. apply in_split in I. destruct I as (l1 & l2 & ->).
  rewrite fold_left_app. cbn [fold_left]. apply blocks_ge.
  assert (Hu' := blocks_ge l1 u n Hu). revert Hu'. generalize (fold_left block_marks l1 u). intros v Hv.
  assert (I : In n (rev (seq 0 (num_lines b)))) by (rewrite <- in_rev, in_seq; lia).
  apply in_split in I. destruct I as (n1 & n2 & ->). rewrite fold_left_app. cbn [fold_left]. apply marks_ge.
  rewrite mark_at. rewrite (marks_ge b n1 v n Hv). cbn [andb]. apply orb_true_iff. right. apply existsb_exists. exists m.
  split; auto. apply Nat.eqb_refl.
Qed.

(* nothing but lines of the last block *)
Lemma pass_below bs NL : (forall b n m, In b bs -> n < num_lines b -> In m (marks b n) -> m < n) ->
  forall u, (forall n, u n = true -> n < NL) -> forall n, cr_pass bs u n = true -> n < NL.
Proof.
  intros H. unfold cr_pass. assert (H' : forall b n m, In b (rev bs) -> n < num_lines b -> In m (marks b n) -> m < n).
  { intros b n m I. apply in_rev in I. now apply H. }
  clear H. revert H'. generalize (rev bs). clear bs. induction l as [|b l IH]; intros H u Hu; [exact Hu|]. cbn [fold_left]. apply IH.
  - intros b' n m I. apply H. now right.
  - assert (H0 : forall n, In n (rev (seq 0 (num_lines b))) -> n < num_lines b) by (intros n I; apply in_rev, in_seq in I; lia).
    revert u Hu H0. generalize (rev (seq 0 (num_lines b))). induction l0 as [|k l0 IH0]; intros u Hu H0; [exact Hu|].
    cbn [fold_left]. apply IH0; [|intros n I; apply H0; now right]. intros n. rewrite mark_at, orb_true_iff, andb_true_iff.
    intros [X|[X Y]]; auto. apply existsb_exists in Y. destruct Y as (m & I & E). apply Nat.eqb_eq in E. subst m.
    specialize (H b k n (or_introl eq_refl) (H0 k (or_introl eq_refl)) I). apply Hu in X. lia.
Qed.

Lemma count_mono (u v : nat -> bool) l : ule u v -> length (filter u l) <= length (filter v l).
Proof.
  intros H. induction l as [|n l IH]; [auto|]. cbn. destruct (u n) eqn:E; [rewrite (H n E); cbn; lia|]. destruct (v n); cbn; lia.
Qed.
Lemma count_more (u v : nat -> bool) l n : ule u v -> In n l -> u n = false -> v n = true -> length (filter u l) < length (filter v l).
Proof.
  intros H. induction l as [|k l IH]; [intros []|]. intros [->|I] E F; cbn.
  - rewrite E, F. cbn. pose proof (count_mono u v l H). lia.
  - specialize (IH I E F). destruct (u k) eqn:X; [rewrite (H k X); cbn; lia|]. destruct (v k); cbn; lia.
Qed.

Lemma closure_ge fuel NL bs : forall u, ule u (cr_closure fuel NL bs u).
Proof.
  induction fuel as [|k IH]; intros u; [now intros n|]. cbn. destruct (forallb _ _); [now intros n|].
  eapply ule_trans; [apply pass_ge|apply IH].
Qed.
Lemma closure_fixed fuel NL bs : forall u, NL - length (filter u (seq 0 NL)) < fuel ->
  forall n, n < NL -> cr_pass bs (cr_closure fuel NL bs u) n = cr_closure fuel NL bs u n.
Proof.
  induction fuel as [|k IH]; intros u Hf n Hn; [lia|]. cbn [cr_closure]. destruct (forallb _ _) eqn:E.
  - rewrite forallb_forall in E. symmetry. apply eqb_prop. apply E. apply in_seq. lia.
  - apply IH; auto.
    assert (X : exists m, m < NL /\ u m <> cr_pass bs u m).
    { clear - E. induction NL as [|NL IH]; [discriminate|]. rewrite seq_S, forallb_app in E. apply andb_false_iff in E.
      destruct E as [E|E]; [apply IH in E; destruct E as (m & A & B); exists m; split; auto; lia|].
      cbn in E. rewrite andb_true_r in E. exists NL. split; [lia|]. intros F. rewrite F, eqb_reflx in E. discriminate. }
    destruct X as (m & Hm & D). assert (Eu : u m = false) by (destruct (u m) eqn:U; auto; exfalso; apply D; symmetry; now apply pass_ge).
    assert (Ep : cr_pass bs u m = true) by (destruct (cr_pass bs u m); auto; congruence).
    pose proof (count_more u (cr_pass bs u) (seq 0 NL) m (pass_ge bs u) ltac:(apply in_seq; lia) Eu Ep) as C.
    assert (L : length (filter (cr_pass bs u) (seq 0 NL)) <= NL).
    { clear. rewrite <- (seq_length NL 0) at 2. induction (seq 0 NL) as [|x l IH]; cbn; auto. destruct (cr_pass bs u x); cbn; lia. }
    lia.
Qed.
Lemma closure_below fuel NL bs : (forall b n m, In b bs -> n < num_lines b -> In m (marks b n) -> m < n) ->
  forall u, (forall n, u n = true -> n < NL) -> forall n, cr_closure fuel NL bs u n = true -> n < NL.
Proof.
  intros H. induction fuel as [|k IH]; intros u Hu; cbn; auto. destruct (forallb _ _); auto. apply IH. now apply pass_below.
Qed.
Lemma closure_marks fuel NL bs u b n m :
  (forall b n m, In b bs -> n < num_lines b -> In m (marks b n) -> m < n) -> NL < fuel ->
  In b bs -> n < num_lines b -> n < NL -> cr_closure fuel NL bs u n = true -> In m (marks b n) -> cr_closure fuel NL bs u m = true.
Proof.
  intros H Hf I Hb Hn Hu Hm. rewrite <- (closure_fixed fuel NL bs u) by (specialize (H b n m I Hb Hm); lia).
  now apply (pass_marks bs _ b n).
Qed.

(* the same marks, the same result *)
Definition like (b b' : block) : Prop := num_lines b = num_lines b' /\ forall n, n < num_lines b -> marks b n = marks b' n.
Lemma pass_ext bs bs' u u' : Forall2 like bs bs' -> (forall n, u n = u' n) -> forall n, cr_pass bs u n = cr_pass bs' u' n.
Proof.
  intros H. unfold cr_pass. assert (H' : Forall2 like (rev bs) (rev bs')).
  { induction H as [|b b' l l' B _ IH]; [constructor|]. cbn. apply Forall2_app; auto. }
  clear H. revert u u'. induction H' as [|b b' l l' [EN EM] _ IH]; intros u u' Hu; [exact Hu|]. cbn [fold_left]. apply IH.
  rewrite <- EN. assert (H0 : forall n, In n (rev (seq 0 (num_lines b))) -> n < num_lines b) by (intros n I; apply in_rev, in_seq in I; lia).
  revert u u' Hu H0. generalize (rev (seq 0 (num_lines b))). induction l0 as [|k l0 IH0]; intros u u' Hu H0; [exact Hu|].
  cbn [fold_left]. apply IH0; [|intros n I; apply H0; now right]. intros n. rewrite !mark_at, !Hu, EM by (apply H0; now left). reflexivity.
Qed.
Lemma closure_ext fuel NL bs bs' : Forall2 like bs bs' -> forall u u', (forall n, u n = u' n) ->
  forall n, cr_closure fuel NL bs u n = cr_closure fuel NL bs' u' n.
Proof.
  intros H. induction fuel as [|k IH]; intros u u' Hu; [exact Hu|]. cbn [cr_closure].
  assert (P := pass_ext bs bs' u u' H Hu).
  replace (forallb (fun n => Bool.eqb (u' n) (cr_pass bs' u' n)) (seq 0 NL)) with (forallb (fun n => Bool.eqb (u n) (cr_pass bs u n)) (seq 0 NL)).
  - destruct (forallb _ _); auto.
  - induction (seq 0 NL) as [|n l IHl]; [reflexivity|]. cbn. now rewrite IHl, Hu, P.
Qed.
