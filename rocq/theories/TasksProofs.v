From Verif Require Import Base TasksModel.
Local Ltac Zify.zify_post_hook ::= idtac.
Local Open Scope Z_scope.

Lemma divides_all_spec cores j : 0 < j -> (divides_all cores j = true <-> forall c, In c cores -> (j | c)).
Proof.
  intros Hj. unfold divides_all. rewrite forallb_forall. split; intros H c Hc.
  - apply Z.rem_divide; [lia|]. apply Z.eqb_eq. apply H. assumption.
  - apply Z.eqb_eq. apply Z.rem_divide; [lia|]. apply H. assumption.
Qed.
Lemma search_spec cores : forall n, (1 <= n)%nat ->
  let j := search cores n in
  1 <= j <= Z.of_nat n /\ (forall c, In c cores -> (j | c)) /\
  forall i, 0 < i <= Z.of_nat n -> (forall c, In c cores -> (i | c)) -> i <= j.
Proof.
  induction n as [|n IH]; intros Hn; [lia|]. cbn [search].
  destruct (divides_all cores (Z.of_nat (S n))) eqn:E.
  - assert (Hp : 0 < Z.of_nat (S n)) by lia. rewrite (divides_all_spec _ _ Hp) in E. split; [lia|]. split; [assumption|]. intros; lia.
  - destruct n as [|n].
    + exfalso. assert (divides_all cores (Z.of_nat 1) = true); [|congruence].
      apply divides_all_spec; [lia|]. intros c _. exists c. cbn. lia.
    + destruct (IH ltac:(lia)) as (A & B & C). split; [lia|]. split; [assumption|].
      intros i Hi Hd. destruct (Z.eq_dec i (Z.of_nat (S (S n)))) as [->|N]; [|apply C; [lia|assumption]].
      apply (divides_all_spec cores (Z.of_nat (S (S n))) ltac:(lia)) in Hd. congruence.
Qed.

Lemma search_gcd cores : 0 < hd 0 cores ->
  let j := search cores (Z.to_nat (hd 0 cores)) in
  0 < j /\ (forall c, In c cores -> (j | c)) /\ forall i, 0 < i -> (forall c, In c cores -> (i | c)) -> (i | j).
Proof.
  intros H. destruct (search_spec cores (Z.to_nat (hd 0 cores)) ltac:(lia)) as (A & B & C). cbv zeta in *.
  set (j := search cores _) in *. split; [lia|]. split; [assumption|].
  intros i Hi Hd.
  (* the least common multiple divides all cores too *)
  assert (L : forall c, In c cores -> (Z.lcm i j | c)) by (intros c Hc; apply Z.lcm_least; [apply Hd|apply B]; assumption).
  assert (P : 0 < Z.lcm i j).
  { assert (X := Z.lcm_nonneg i j). assert (Z.lcm i j <> 0); [|lia]. intros E. apply Z.lcm_eq_0 in E. lia. }
  assert (M : Z.lcm i j <= j).
  { apply C; [|assumption]. split; [assumption|]. rewrite Z2Nat.id by lia. apply Z.divide_pos_le; [assumption|].
    apply L. destruct cores; [cbn in H; lia|now left]. }
  assert (D := Z.divide_lcm_r i j). assert (j <= Z.lcm i j) by (apply Z.divide_pos_le; assumption).
  assert (E : Z.lcm i j = j) by lia. rewrite <- E. apply Z.divide_lcm_l.
Qed.

Lemma tasks_ok cores sockets : 0 < hd 0 cores -> 0 < sockets -> (forall c, In c cores -> (sockets | c)) ->
  let t := tasks_per_socket 0 cores sockets in
  0 < t /\ (forall c, In c cores -> (t * sockets | c)) /\
  forall u, 0 < u -> (forall c, In c cores -> (u * sockets | c)) -> (u | t) /\ u <= t.
Proof.
  intros H Hs Hd. destruct (search_gcd cores H) as (A & B & C). unfold tasks_per_socket.
  cbn [Z.ltb Z.compare]. cbv zeta in *. set (j := search cores _) in *.
  destruct (Z.eqb_spec j (-1)); [lia|]. destruct (C sockets Hs Hd) as [q Hq].
  assert (E : Z.quot j sockets = q) by (rewrite Hq; apply Z.quot_mul; lia). rewrite E.
  assert (Q : 0 < q) by (apply (Z.mul_pos_cancel_r q sockets); lia).
  split; [assumption|]. split; [rewrite <- Hq; assumption|].
  intros u Hu Hud. assert (D : (u * sockets | q * sockets)) by (rewrite <- Hq; apply C; [apply Z.mul_pos_pos; assumption|assumption]).
  apply Z.mul_divide_cancel_r in D; [|lia]. split; [assumption|]. apply Z.divide_pos_le; assumption.
Qed.
