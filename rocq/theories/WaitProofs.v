From Verif Require Import Base WaitModel WaitSpec.

Section Proofs.
  Context (fin : nat -> nat -> bool).

  Lemma test_each_spec : forall rs t i rs' fs, test_each fin t i rs = (rs', fs) ->
    length rs' = length rs /\ length fs = length rs /\
    forall k r, nth_error rs k = Some r ->
      nth_error rs' k = Some (Req (ours r) (active r && negb (fin (t + k) (i + k)))) /\
      nth_error fs k = Some (negb (active r && negb (fin (t + k) (i + k)))).
  Proof.
    induction rs as [|r rs IH]; intros t i rs' fs H; simpl in H.
    { injection H as <- <-. repeat split; auto; destruct k; discriminate. }
    destruct (mpi_test fin t i r) as [r' f] eqn:E1.
    destruct (test_each fin (S t) (S i) rs) as [rs'' fs'] eqn:E2.
    injection H as <- <-. destruct (IH _ _ _ _ E2) as (L1 & L2 & HN).
    simpl. repeat split; auto.
    - destruct k as [|k]; simpl in *.
      + injection H as ->. rewrite !Nat.add_0_r. unfold mpi_test in E1.
        destruct r0 as [o a]; simpl in *. destruct a; simpl in *.
        * destruct (fin t i); injection E1 as <- <-; reflexivity.
        * injection E1 as <- <-; reflexivity.
      + rewrite !Nat.add_succ_r. apply (HN k r0 H).
    - destruct k as [|k]; simpl in *.
      + injection H as ->. rewrite !Nat.add_0_r. unfold mpi_test in E1.
        destruct r0 as [o a]; simpl in *. destruct a; simpl in *.
        * destruct (fin t i); injection E1 as <- <-; reflexivity.
        * injection E1 as <- <-; reflexivity.
      + rewrite !Nat.add_succ_r. apply (HN k r0 H).
  Qed.

  Lemma fold_flag fs : forall b, fold_left (fun flag lflag => if negb lflag then false else flag) fs b = true
    <-> b = true /\ forall k f, nth_error fs k = Some f -> f = true.
  Proof.
    induction fs as [|f fs IH]; intros b; simpl.
    - split; [intros ->; split; auto; destruct k; discriminate|tauto].
    - rewrite IH. destruct f; simpl.
      + split; intros [H1 H2]; split; auto.
        * intros [|k] f; simpl; [congruence|apply H2].
        * intros k f Hf. apply (H2 (S k) f Hf).
      + split; [intros [? _]; discriminate|].
        intros [_ H]. specialize (H 0 false eq_refl). discriminate.
  Qed.

  Lemma testall_ok t rs : any_ours rs = true ->
    exists rs' flag, testall fin false t rs = Returned rs' flag /\
      (flag = true <-> all_complete fin t rs) /\
      length rs' = length rs /\
      (forall i r, nth_error rs i = Some r -> nth_error rs' i = Some (collected fin t i r)).
  Proof.
    intros Ha. unfold testall. rewrite Ha.
    destruct (test_each fin t 0 rs) as [rs' fs] eqn:E.
    destruct (test_each_spec _ _ _ _ _ E) as (L1 & L2 & HN).
    do 2 eexists. split; [reflexivity|]. split; [|split; auto].
    - rewrite fold_flag. unfold all_complete, pending. split.
      + intros [_ H] i r Hr [A F]. destruct (HN i r Hr) as [_ Hf]. specialize (H _ _ Hf).
        simpl in H. rewrite A, F in H. discriminate.
      + intros H. split; auto. intros k f Hf.
        assert (Hk : k < length rs) by (rewrite <- L2; apply nth_error_Some; congruence).
        destruct (nth_error rs k) as [r|] eqn:Er; [|apply nth_error_None in Er; lia].
        destruct (HN k r Er) as [_ Hf']. rewrite Hf in Hf'. injection Hf' as ->.
        specialize (H k r Er). simpl. destruct (active r), (fin (t + k) k); simpl; auto.
    - intros i r Hr. destruct (HN i r Hr) as [H _]. exact H.
  Qed.

  Lemma testall_ignore_always_true t rs : any_ours rs = true ->
    exists rs', testall fin true t rs = Returned rs' true.
  Proof.
    intros Ha. unfold testall. rewrite Ha. destruct (test_each fin t 0 rs). eauto.
  Qed.

  Lemma first_flag_spec : forall rs t i rs' o, first_flag fin t i rs = (rs', o) ->
    match o with
    | None => rs' = rs /\ forall k r, nth_error rs k = Some r -> pending fin (t + k) (i + k) r
    | Some j => exists k r, j = i + k /\ nth_error rs k = Some r /\ ~ pending fin (t + k) (i + k) r /\
        rs' = lset rs k (Req (ours r) false) /\
        forall k' r', k' < k -> nth_error rs k' = Some r' -> pending fin (t + k') (i + k') r'
    end.
  Proof.
    induction rs as [|r rs IH]; intros t i rs' o H; simpl in H.
    { injection H as <- <-. split; auto. destruct k; discriminate. }
    destruct (mpi_test fin t i r) as [r' f] eqn:E1.
    destruct f.
    - injection H as <- <-. exists 0, r. rewrite !Nat.add_0_r. simpl.
      split; auto. split; auto. split; [|split; [|intros; lia]].
      + unfold mpi_test in E1. intros [A F]. rewrite A, F in E1. discriminate.
      + f_equal. unfold mpi_test in E1. destruct r as [o a]; simpl in *.
        destruct a; [destruct (fin t i)|]; injection E1; congruence.
    - assert (P : pending fin t i r /\ r' = r).
      { unfold mpi_test in E1. unfold pending. destruct (active r); [|discriminate].
        destruct (fin t i); [discriminate|]. injection E1 as <-. auto. }
      destruct P as [P ->].
      destruct (first_flag fin (S t) (S i) rs) as [rs'' o'] eqn:E2.
      injection H as <- <-. specialize (IH _ _ _ _ E2). destruct o' as [j|].
      + destruct IH as (k & r0 & -> & Hk & Hp & -> & Hall). exists (S k), r0. simpl.
        rewrite !Nat.add_succ_r. split; [reflexivity|]. split; [exact Hk|]. split; [exact Hp|]. split; [reflexivity|].
        intros [|k1] r1 Hlt Hr1; simpl in *.
        * rewrite !Nat.add_0_r. congruence.
        * rewrite !Nat.add_succ_r. apply Hall; auto; lia.
      + destruct IH as [-> Hall]. split; auto. intros [|k] r0 Hr0; simpl in *.
        * rewrite !Nat.add_0_r. congruence.
        * rewrite !Nat.add_succ_r. apply Hall; auto.
  Qed.

  Lemma testany_ok t rs : any_ours rs = true ->
    exists rs' o, testany fin t rs = Returned rs' o /\
      match o with
      | Some i => exists r, nth_error rs i = Some r /\ ~ pending fin (t + i) i r /\
                    rs' = lset rs i (Req (ours r) false)
      | None => none_complete fin t rs /\ rs' = rs
      end.
  Proof.
    intros Ha. unfold testany. rewrite Ha.
    destruct (first_flag fin t 0 rs) as [rs' o] eqn:E.
    pose proof (first_flag_spec _ _ _ _ _ E) as H.
    do 2 eexists. split; [reflexivity|]. destruct o as [j|].
    - destruct H as (k & r & -> & Hk & Hp & Hr & _). exists r. auto.
    - destruct H as [-> H]. split; [exact H|reflexivity].
  Qed.

  Lemma testsome_wrong t rs : any_ours rs = true -> none_complete fin t rs ->
    testsome fin t rs = Returned rs (1, None).
  Proof.
    intros Ha Hn. unfold testsome. rewrite Ha.
    destruct (first_flag fin t 0 rs) as [rs' o] eqn:E.
    pose proof (first_flag_spec _ _ _ _ _ E) as H. destruct o as [j|].
    - destruct H as (k & r & -> & Hk & Hp & _). exfalso. apply Hp. apply Hn; auto.
    - destruct H as [-> _]. reflexivity.
  Qed.

  Lemma waitall_ok rs : any_ours rs = true ->
    exists rs', waitall rs = Returned rs' tt /\ length rs' = length rs /\
      forall i r, nth_error rs i = Some r -> nth_error rs' i = Some (Req (ours r) false).
  Proof.
    intros Ha. unfold waitall. rewrite Ha. eexists. split; [reflexivity|].
    split; [apply map_length|]. intros i r H. rewrite nth_error_map, H. reflexivity.
  Qed.

  Lemma waitany_loop_ok : forall fuel t rs rs' i, waitany_loop fin fuel t rs = Some (rs', i) ->
    exists t' r, t <= t' /\ nth_error rs i = Some r /\ ~ pending fin t' i r /\
      rs' = lset rs i (Req (ours r) false).
  Proof.
    induction fuel as [|fuel IH]; intros t rs rs' i H; simpl in H; [discriminate|].
    destruct (first_flag fin t 0 rs) as [rs1 o] eqn:E.
    pose proof (first_flag_spec _ _ _ _ _ E) as S. destruct o as [j|].
    - injection H as <- <-. destruct S as (k & r & -> & Hk & Hp & Hr & _).
      exists (t + k), r. repeat split; auto; lia.
    - destruct S as [-> _]. destruct (IH _ _ _ _ H) as (t' & r & Ht & ?).
      exists t', r. split; auto; lia.
  Qed.

  (* Waitany returns once a request has finished for good. *)
  Lemma waitany_returns rs i r t0 : nth_error rs i = Some r ->
    (forall t, t0 <= t -> fin t i = true) ->
    forall d t, t0 <= t + d * length rs ->
    exists rs' j, waitany_loop fin (S d) t rs = Some (rs', j).
  Proof.
    intros Hi Hf. assert (Hl : i < length rs) by (apply nth_error_Some; congruence).
    induction d as [|d IH]; intros t Ht; cbn [waitany_loop];
    destruct (first_flag fin t 0 rs) as [rs1 o] eqn:E;
    pose proof (first_flag_spec _ _ _ _ _ E) as S; destruct o as [j|]; eauto.
    - destruct S as [-> H]. specialize (H i r Hi). destruct H as [_ H]. simpl in H.
      rewrite Hf in H by lia. discriminate.
    - destruct S as [-> H]. apply IH. simpl in Ht. lia.
  Qed.

  Lemma waitany_stuck_on_first : forall fuel t rs, 0 < fuel ->
    waitany_loop fin fuel t (Req true false :: rs) = Some (Req true false :: rs, 0).
  Proof. intros [|fuel] t rs H; [lia|]. reflexivity. Qed.
End Proofs.

Lemma testall_ignore_wrong :
  ~ forall (fin : nat -> nat -> bool) (t : nat) (rs : list req), any_ours rs = true ->
    exists rs' flag, testall fin true t rs = Returned rs' flag /\
      (flag = true <-> all_complete fin t rs).
Proof.
  intros H. destruct (H (fun _ _ => false) 0 [Req true true] eq_refl) as (rs' & flag & E & HF).
  cbv in E. injection E as <- <-. destruct HF as [HF _].
  apply (HF eq_refl 0 (Req true true)); [reflexivity|]. split; reflexivity.
Qed.

Lemma any_ours_iff rs : any_ours rs = true <-> some_ours rs.
Proof. unfold any_ours, some_ours. rewrite existsb_exists. tauto. Qed.

Lemma any_ours_false rs : ~ some_ours rs -> any_ours rs = false.
Proof.
  intros H. destruct (any_ours rs) eqn:E; [|reflexivity].
  apply any_ours_iff in E. contradiction.
Qed.

Lemma forwarded_ok fin ignore fuel t rs :
  (~ some_ours rs <-> waitall rs = Forwarded) /\
  (~ some_ours rs <-> testall fin ignore t rs = Forwarded) /\
  (~ some_ours rs <-> testany fin t rs = Forwarded) /\
  (~ some_ours rs <-> testsome fin t rs = Forwarded) /\
  (~ some_ours rs <-> waitany fin fuel t rs = Some Forwarded) /\
  (~ some_ours rs <-> waitsome fin fuel t rs = Some Forwarded).
Proof.
  unfold waitall, testall, testany, testsome, waitany, waitsome.
  pose proof (any_ours_iff rs) as H.
  destruct (any_ours rs) eqn:E.
  - assert (some_ours rs) by tauto.
    destruct (test_each fin t 0 rs), (first_flag fin t 0 rs) as [? ?],
      (waitany_loop fin fuel t rs) as [[? ?]|], ignore;
      repeat split; intros; try contradiction; try discriminate.
  - assert (~ some_ours rs) by (intros X; apply H in X; discriminate).
    repeat split; auto.
Qed.

Lemma waitany_ok fin fuel t rs x : some_ours rs -> waitany fin fuel t rs = Some x ->
  exists i rs' t' r, x = Returned rs' i /\ t <= t' /\
    nth_error rs i = Some r /\ ~ pending fin t' i r /\ rs' = lset rs i (Req (ours r) false).
Proof.
  intros H E. unfold waitany in E. rewrite (proj2 (any_ours_iff rs) H) in E.
  destruct (waitany_loop fin fuel t rs) as [[rs' i]|] eqn:W; [|discriminate].
  injection E as <-. destruct (waitany_loop_ok _ _ _ _ _ _ W) as (t' & r & A & B & C & D).
  exists i, rs', t', r. auto.
Qed.

Lemma waitsome_ok fin fuel t rs x : some_ours rs -> waitsome fin fuel t rs = Some x ->
  exists i rs' t' r, x = Returned rs' (1, i) /\ t <= t' /\
    nth_error rs i = Some r /\ ~ pending fin t' i r /\ rs' = lset rs i (Req (ours r) false).
Proof.
  intros H E. unfold waitsome in E. rewrite (proj2 (any_ours_iff rs) H) in E.
  destruct (waitany_loop fin fuel t rs) as [[rs' i]|] eqn:W; [|discriminate].
  injection E as <-. destruct (waitany_loop_ok _ _ _ _ _ _ W) as (t' & r & A & B & C & D).
  exists i, rs', t', r. auto.
Qed.

Lemma waitany_returns_ok fin rs i r t0 :
  nth_error rs i = Some r -> (forall t, t0 <= t -> fin t i = true) ->
  forall d t, t0 <= t + d * length rs ->
  waitany fin (S d) t rs <> None /\ waitsome fin (S d) t rs <> None.
Proof.
  intros H F d t L. destruct (waitany_returns fin rs i r t0 H F d t L) as (rs' & j & E).
  unfold waitany, waitsome. destruct (any_ours rs); [|split; discriminate].
  rewrite E. split; discriminate.
Qed.
