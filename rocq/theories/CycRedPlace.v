(* The lines that are left by delete_lines and where they are then. *)
From Verif Require Import Base SchedModel CycRedModel.
Local Ltac Zify.zify_post_hook ::= idtac.

Section Place.
  Context (u : nat -> bool).
  Local Notation place := (cr_place u).
  Local Notation us L := (filter u (seq 0 L)).
  Lemma us_S L : us (S L) = us L ++ if u L then [L] else [].
  Proof. rewrite seq_S, filter_app. cbn. reflexivity. Qed.
  Lemma place_S n : place (S n) = place n + if u n then 1 else 0.
  Proof. unfold cr_place. rewrite us_S, app_length. now destruct (u n). Qed.
  Lemma place_0 : place 0 = 0.
  Proof. reflexivity. Qed.
  Lemma place_le m n : m <= n -> place m <= place n.
  Proof. induction 1 as [|n _ IH]; auto. rewrite place_S. lia. Qed.
  Lemma place_lt m n : u m = true -> m < n -> place m < place n.
  Proof. intros U H. apply Nat.lt_le_trans with (place (S m)); [rewrite place_S, U; lia|now apply place_le]. Qed.
  Lemma place_below n m : u n = true -> place n < place m -> n < m.
  Proof. intros U H. destruct (Nat.lt_ge_cases n m) as [|G]; auto. apply place_le in G. lia. Qed.
  Lemma at_place L n : u n = true -> n < L -> nth (place n) (us L) 0 = n.
  Proof.
    intros U. induction L as [|L IH]; [lia|]. intros H. rewrite us_S. destruct (Nat.eq_dec n L) as [->|D].
    - rewrite app_nth2 by (unfold cr_place; lia). unfold cr_place. now rewrite Nat.sub_diag, U.
    - rewrite app_nth1; [apply IH; lia|]. change (place n < place L). apply place_lt; auto. lia.
  Qed.
  Lemma nth_us L r : r < place L -> nth r (us L) 0 < L /\ u (nth r (us L) 0) = true /\ place (nth r (us L) 0) = r.
  Proof.
    induction L as [|L IH]; [cbn; lia|]. rewrite place_S, us_S. intros H. destruct (Nat.lt_ge_cases r (place L)) as [X|X].
    - rewrite app_nth1 by exact X. destruct (IH X) as (A & B & C). auto.
    - destruct (u L) eqn:U; [|lia]. rewrite app_nth2 by exact X. assert (E : r - length (us L) = 0) by (unfold cr_place in H; lia).
      rewrite E. cbn [nth]. split; auto. split; auto. unfold cr_place in *. lia.
  Qed.
  Lemma nth_prefix L L' r : r < place L -> L <= L' -> nth r (us L') 0 = nth r (us L) 0.
  Proof.
    intros H E. destruct (nth_us L r H) as (A & B & C). rewrite <- C at 1. apply at_place; auto. lia.
  Qed.
  Lemma place_inj m n : u m = true -> u n = true -> place m = place n -> m = n.
  Proof.
    intros A B E. destruct (lt_eq_lt_dec m n) as [[H|H]|H]; auto.
    - apply (place_lt m n) in H; auto. lia.
    - apply (place_lt n m) in H; auto. lia.
  Qed.
  Lemma filter_place L Q Q' : (forall n, n < L -> u n = true -> Q (place n) = Q' n) ->
    filter Q (seq 0 (place L)) = map place (filter Q' (us L)).
  Proof.
    induction L as [|L IH]; intros H; [reflexivity|]. rewrite place_S, us_S, filter_app, map_app, seq_app, filter_app.
    rewrite IH by (intros; apply H; auto). f_equal. destruct (u L) eqn:U; [|reflexivity]. cbn [seq filter plus].
    rewrite H by auto. destruct (Q' L); reflexivity.
  Qed.
  Lemma place_range a w : place (a + w) = place a + length (filter u (seq a w)).
  Proof. unfold cr_place. now rewrite seq_app, filter_app, app_length. Qed.
  Lemma filter_shift a w : filter u (seq a w) = map (fun n => n + a) (filter (fun n => u (n + a)) (seq 0 w)).
  Proof.
    induction w as [|w IH]; [reflexivity|]. rewrite !seq_S, !filter_app, map_app, IH. f_equal. cbn. rewrite (Nat.add_comm a w).
    now destruct (u (w + a)).
  Qed.
  Lemma nth_range L a w k : a + w <= L -> k < length (filter u (seq a w)) -> nth (place a + k) (us L) 0 = nth k (filter u (seq a w)) 0.
  Proof.
    intros E H. replace L with (a + (w + (L - a - w))) by lia. rewrite seq_app, filter_app, app_nth2 by (unfold cr_place; cbn; lia).
    replace (place a + k - length (us a)) with k by (unfold cr_place; lia). rewrite seq_app, filter_app, app_nth1; auto.
  Qed.
  Lemma place_all s : (forall n, n < s -> u n = true) -> forall n, n <= s -> place n = n.
  Proof. intros H. induction n as [|n IH]; intros E; [reflexivity|]. rewrite place_S, IH, H by lia. lia. Qed.
End Place.
Lemma place_ext u v n : (forall k, u k = v k) -> cr_place u n = cr_place v n.
Proof. intros H. unfold cr_place. f_equal. apply filter_ext. exact H. Qed.
Lemma keep_ext u v last b : (forall k, u k = v k) -> forall n,
  num_lines (cr_keep u last b) = num_lines (cr_keep v last b) /\ lines (cr_keep u last b) n = lines (cr_keep v last b) n.
Proof.
  intros H n. unfold cr_keep. cbn [num_lines lines].
  rewrite (filter_ext u v H (seq 0 (num_lines b))). split; [reflexivity|]. f_equal.
  - replace (filter (fun e : Z * nat => v (snd e)) (sendto (lines b (nth n (filter v (seq 0 (num_lines b))) 0)))) with
      (filter (fun e : Z * nat => u (snd e)) (sendto (lines b (nth n (filter v (seq 0 (num_lines b))) 0)))) by (apply filter_ext; intros; apply H).
    apply map_ext. intros e. destruct (0 <=? fst e)%Z; auto. now rewrite (place_ext u v).
  - apply map_ext. intros e. now rewrite (place_ext u v).
  - apply map_ext. intros e. now rewrite (place_ext u v).
Qed.
