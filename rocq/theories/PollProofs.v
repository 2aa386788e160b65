From Verif Require Import Base BarrierModel BarrierProofs PollModel.

Section Proofs.
  Context (dir : direction) (n i : nat).
  Hypothesis Hi : i < n.

  (* Every other core has already passed this barrier. *)
  Definition all_arrived (mem : nat -> Z) (count : Z) : Prop :=
    forall j k, j < n -> j <> i -> k < n ->
      not_reached (mem j) (wrap (count + Z.of_nat k)) = false.

  Lemma partner_ne step : 0 < step -> step < n -> partner dir n i step <> i.
  Proof.
    intros H1 H2 E. assert (Hn : 0 < n) by lia.
    pose proof (sh_Z dir n Hn i step) as Z1. unfold sh in Z1. rewrite E in Z1.
    assert (F : (exists q, match dir with Up => Z.of_nat step | Down => - Z.of_nat step end = q * Z.of_nat n)%Z).
    { set (x := match dir with Up => Z.of_nat step | Down => (- Z.of_nat step)%Z end) in *.
      exists ((Z.of_nat i + x) / Z.of_nat n)%Z.
      pose proof (Z.div_mod (Z.of_nat i + x) (Z.of_nat n) ltac:(lia)). lia. }
    destruct F as [q F]. destruct dir.
    - assert (q = 0 \/ q >= 1 \/ q <= -1)%Z as [ -> | [|] ] by lia; nia.
    - assert (q = 0 \/ q >= 1 \/ q <= -1)%Z as [ -> | [|] ] by lia; nia.
  Qed.

  Lemma upd_arrived mem count c x : all_arrived mem count ->
    all_arrived (upd Nat.eq_dec mem i x) c -> all_arrived mem c.
  Proof.
    intros _ H j k Hj Hne Hk. specialize (H j k Hj Hne Hk). now rewrite upd_other in H.
  Qed.

  Lemma test_arrived fuel : forall mem count0 k step,
    all_arrived mem count0 -> k + fuel <= n -> 0 < step ->
    exists mem', barrier_test dir n i fuel mem (wrap (count0 + Z.of_nat k)) step = (mem', false) /\
      all_arrived mem' count0.
  Proof.
    induction fuel as [|fuel IH]; intros mem count0 k step HA Hk Hs; simpl.
    { exists mem. auto. }
    destruct (step <? n) eqn:E; [|exists mem; auto].
    apply Nat.ltb_lt in E.
    rewrite upd_other by (apply partner_ne; lia).
    rewrite HA; try lia.
    - rewrite wrap_succ. replace (count0 + Z.of_nat k + 1)%Z with (count0 + Z.of_nat (S k))%Z by lia.
      apply IH; try lia. intros j k' Hj Hne Hk'. rewrite upd_other by auto. now apply HA.
    - apply sh_lt. lia.
    - apply partner_ne; lia.
  Qed.

  Lemma polls_never_pass : 1 < n -> forall k fuel mem count, all_arrived mem (wrap count) ->
    polls dir n i k fuel mem (wrap count) = false.
  Proof.
    intros Hn. induction k as [|k IH]; intros fuel mem count HA; simpl; auto.
    unfold poll_barrier.
    assert (E : wrap count = wrap (wrap count + Z.of_nat 0)).
    { unfold wrap. rewrite Z.add_0_r. now rewrite Z.mod_mod. }
    destruct (test_arrived n mem (wrap count) 0 1 HA ltac:(lia) ltac:(lia)) as (mem' & Ht & HA').
    rewrite <- E in Ht. rewrite Ht. simpl. now apply IH.
  Qed.

  Lemma alone_stuck mem count : not_reached (mem (partner dir n i 1)) count = true ->
    forall fuel, barrier_alone dir n i fuel mem count 1 true = None.
  Proof. intros H. induction fuel; simpl; auto. now rewrite H. Qed.

  Lemma poll_blocks : 1 < n -> forall mem count,
    not_reached (mem (partner dir n i 1)) count = true ->
    forall fuel, poll_barrier dir n i fuel mem count = Stuck.
  Proof.
    intros Hn mem count H fuel. unfold poll_barrier.
    assert (Ht : forall f, 0 < f -> barrier_test dir n i f mem count 1 = (upd Nat.eq_dec mem i count, true)).
    { intros [|f]; [lia|]. intros _. cbn [barrier_test].
      destruct (Nat.ltb_spec 1 n); [|lia].
      rewrite upd_other by (apply partner_ne; lia). now rewrite H. }
    rewrite Ht by lia. cbn [negb].
    destruct fuel as [|fuel]; auto. cbn [barrier_alone].
    destruct (Nat.ltb_spec 1 n); [|lia].
    rewrite alone_stuck; auto.
    rewrite !upd_other by (apply partner_ne; lia). auto.
  Qed.
End Proofs.

Lemma atomic_poll_inverted mem count entry :
  (not_reached (mem entry) count = false -> forall fuel, poll_atomic fuel mem count entry = Stay mem count) /\
  (not_reached (mem entry) count = true -> forall fuel, poll_atomic fuel mem count entry = Stuck).
Proof.
  unfold poll_atomic. split; intros H fuel; rewrite H; simpl; auto.
  assert (atomic_alone fuel mem count entry = None) as ->; auto.
  induction fuel; simpl; auto. now rewrite H.
Qed.
