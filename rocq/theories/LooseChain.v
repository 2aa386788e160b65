(* Executions with changing layouts, block by block. *)
From Verif Require Import Base SchedModel SchedSpec SchedProofs MatchProofs LooseSpec.
Local Ltac Zify.zify_post_hook ::= idtac.

Section Ext.
  Context {V : Type} (op : V -> V -> V) (N : nat) (b1 b2 : nat -> block) (E : forall q, b1 q = b2 q).
  Lemma stage_ext st q n : stage op N b1 st q n = stage op N b2 st q n.
  Proof.
    unfold stage, copyreduced, reduced. rewrite E.
    assert (C : forall l m, fold_left (copyreduce_line op b1 q) l m = fold_left (copyreduce_line op b2 q) l m).
    { induction l as [|k l IH]; intros m; [reflexivity|]. cbn. rewrite IH. unfold copyreduce_line. now rewrite E. }
    assert (R : forall l m, fold_left (reduce_line op b1 q) l m = fold_left (reduce_line op b2 q) l m).
    { induction l as [|k l IH]; intros m; [reflexivity|]. cbn. rewrite IH. unfold reduce_line. now rewrite E. }
    rewrite C, R. do 2 f_equal. unfold received. generalize (map (fun o => (N + q - o) mod N) (seq 0 N)) (st q).
    induction l as [|p l IH]; intros m; [reflexivity|]. cbn. rewrite IH. f_equal.
    unfold unpack, message, reduces_into, recv_lines, sent_lines. now rewrite !E.
  Qed.
End Ext.

Definition same_to (b0 b : block) (n : nat) : Prop := forall k, k <= n -> frac (lines b0 k) = frac (lines b k).
(* the families of blocks that follow the family prev *)
Fixpoint chain {V} (op : V -> V -> V) (N : nat) (prev : nat -> block) (bs : list (nat -> block)) (s0 sn : nat -> nat -> V) : Prop :=
  match bs with
  | [] => forall q n, q < N -> sn q n = s0 q n
  | b :: r => exists st s1,
      (forall q n, q < N -> same_to (prev q) (b q) n -> st q n = s0 q n) /\
      (forall q n, q < N -> s1 q n = stage op N b st q n) /\
      chain op N b r s1 sn
  end.
Lemma chain_app {V} (op : V -> V -> V) N l1 : forall prev l2 s0 sn, chain op N prev (l1 ++ l2) s0 sn ->
  exists sm, chain op N prev l1 s0 sm /\ chain op N (last l1 prev) l2 sm sn.
Proof.
  induction l1 as [|b l1 IH]; intros prev l2 s0 sn H.
  - exists s0. split; [intros q n _; reflexivity|exact H].
  - destruct H as (st & s1 & A & B & C). apply IH in C. destruct C as (sm & C & D). exists sm. split.
    + exists st, s1. auto.
    + replace (last (b :: l1) prev) with (last l1 b); [exact D|]. clear. revert b. 
      induction l1 as [|c l1 IH]; intros b; [reflexivity|]. cbn [last] in *. destruct l1; [reflexivity|]. apply (IH b).
Qed.

Definition at_node (q : nat) (bs : list (nat -> block)) : list block := map (fun b => b q) bs.
Lemma nth_at_node q bs m : nth m (at_node q bs) empty_block = nth m bs (fun _ => empty_block) q.
Proof. unfold at_node. now rewrite <- (map_nth (fun b : nat -> block => b q)). Qed.
Lemma last_at_node q bs b : last (at_node q bs) (b q) = last bs b q.
Proof.
  unfold at_node. induction bs as [|c bs IH]; [reflexivity|]. cbn [map last].
  destruct bs as [|c' bs]; [reflexivity|]. exact IH.
Qed.

Section Family.
  Context {V : Type} (op : V -> V -> V) (N : nat) (alg : nat -> list block) (b0 : nat -> block) (bs : list (nat -> block)).
  Context (A : forall q, alg q = at_node q (b0 :: bs)).
  Lemma family_nth m q : nth m (alg q) empty_block = nth m (b0 :: bs) (fun _ => empty_block) q.
  Proof. rewrite A. apply nth_at_node. Qed.
  Lemma loosely_chain nb S : nb = Datatypes.S (length bs) -> loosely op N alg nb S -> chain op N b0 bs (S 0) (S (nb - 1)).
  Proof.
    intros Hn H.
    assert (G : forall k m, m + k = length bs -> chain op N (nth m (b0 :: bs) (fun _ => empty_block)) (skipn m bs) (S m) (S (m + k))).
    { induction k as [|k IH]; intros m E.
      - rewrite skipn_all2 by lia. rewrite Nat.add_0_r. intros q n _. reflexivity.
      - assert (X : skipn m bs = nth m bs (fun _ => empty_block) :: skipn (Datatypes.S m) bs).
        { clear - E. assert (Hm : m < length bs) by lia. clear E. revert bs Hm. induction m as [|m IH]; intros [|b l] H; cbn in *; try lia; auto.
          apply IH. lia. }
        rewrite X. destruct (H m ltac:(lia)) as (st & B & C). rewrite Nat.add_1_r in C. exists st, (S (Datatypes.S m)). split; [|split].
        + intros q n Hq K. apply B; auto. intros k0 Hk. rewrite !family_nth. cbn [nth] in K. now apply K.
        + intros q n Hq. rewrite C by auto. apply stage_ext. intros p. now rewrite family_nth.
        + replace (m + Datatypes.S k) with (Datatypes.S m + k) by lia. apply (IH (Datatypes.S m)). lia. }
    specialize (G (length bs) 0 eq_refl). cbn [nth skipn plus] in G. replace (nb - 1) with (length bs) by lia. exact G.
  Qed.
  Lemma family_matched m : well_matched N b0 -> Forall (well_matched N) bs -> well_matched N (fun q => nth m (alg q) empty_block).
  Proof.
    intros H0 H. apply (matched_ext N (nth m (b0 :: bs) (fun _ => empty_block))); [intros q; now rewrite family_nth|].
    destruct (nth_in_or_default m (b0 :: bs) (fun _ => empty_block)) as [I|E]; [|rewrite E].
    - destruct I as [<-|I]; auto. rewrite Forall_forall in H. auto.
    - apply matched_empty.
  Qed.
  Lemma family_length q : length (alg q) = Datatypes.S (length bs).
  Proof. rewrite A. unfold at_node. now rewrite map_length. Qed.
End Family.

(* an execution in lock step that keeps all lines *)
Lemma execute_loosely {V} (op : V -> V -> V) N alg nb st : 1 <= nb ->
  exists S, S 0 = st /\ loosely op N alg nb S /\ forall q n, S (nb - 1) q n = execute op N alg nb st q n.
Proof.
  intros Hnb. exists (fun m => run op N (map (fun k q => nth k (alg q) empty_block) (seq 1 m)) st). split; [reflexivity|]. split.
  - intros m Hm. exists (run op N (map (fun k q => nth k (alg q) empty_block) (seq 1 m)) st). split; auto.
    intros q n Hq. rewrite Nat.add_1_r, seq_S, map_app. unfold run. rewrite fold_left_app. reflexivity.
  - reflexivity.
Qed.
