(* Calls one after the other: phased programs can be put behind each other. *)
From Verif Require Import Base SchedModel SchedSpec RecursiveModel RecursiveSpec CyclicModel CyclicSpec RawModel
  MsgProofs PhaseProofs RawCode RawProofs RawEnd RawSpec RawWhole RawInst.
Local Ltac Zify.zify_post_hook ::= idtac.

Lemma silent_quiet l : ~ In Waitall l -> sends_of l = [] -> recvs_of l = [] -> forallb quiet l = true.
Proof.
  induction l as [|i l IH]; auto. cbn [sends_of recvs_of flat_map forallb]. intros W S R.
  apply app_eq_nil in S. apply app_eq_nil in R. destruct S as [S1 S2], R as [R1 R2].
  rewrite IH; auto; [|intros X; apply W; now right]. destruct i; auto; try discriminate. exfalso. apply W. now left.
Qed.

Lemma flat_map_ext_in {A B} (f g : A -> list B) l : (forall x, In x l -> f x = g x) -> flat_map f l = flat_map g l.
Proof. induction l as [|x l IH]; intros H; auto. cbn. rewrite H by now left. f_equal. apply IH. intros; apply H; now right. Qed.

Section Join.
  Context {V : Type} (op : V -> V -> V) (N : nat).
  Notation memory := (@memory V).
  Definition phases : Type := (nat -> nat -> list instr).
  Definition final (K : nat) (L : phases) (m : nat -> memory) (q : nat) : memory := exec_list op (L K q) (memat op L m K q).

  Lemma arrive_pay rs (pay pay' : nat -> list V) : (forall r, In r rs -> pay (peer r) = pay' (peer r)) -> forall m,
    arrive_all rs pay m = arrive_all rs pay' m.
  Proof.
    induction rs as [|r rs IH]; intros H m; auto. rewrite !arrive_cons, H by now left. apply IH. intros; apply H; now right.
  Qed.

  (* the next memory, from those at the end of the phase *)
  Lemma memat_next (L L' : phases) m m' k k' : 
    (forall q r, q < N -> In r (recvs_of (L k q)) -> peer r < N) ->
    (forall q, q < N -> recvs_of (L k q) = recvs_of (L' k' q) /\ sends_of (L k q) = sends_of (L' k' q) /\
       exec_list op (L k q) (memat op L m k q) = exec_list op (L' k' q) (memat op L' m' k' q)) ->
    forall q, q < N -> memat op L m (S k) q = memat op L' m' (S k') q.
  Proof.
    intros P H q Hq. cbn [memat]. destruct (H q Hq) as (R & _ & E). rewrite <- R, E. apply arrive_pay.
    intros r Hr. assert (Hp := P q r Hq Hr). unfold send_to. destruct (H (peer r) Hp) as (_ & S & E'). rewrite <- S, E'. reflexivity.
  Qed.

  (* some lines of one's own first *)
  Definition lead (u : nat -> list instr) (L : phases) : phases := fun m q => if m =? 0 then u q ++ L 0 q else L m q.
  Section Lead.
    Context (u : nat -> list instr) (K : nat) (L : phases) (OK : phases_ok N K L).
    Context (Q : forall q, q < N -> forallb quiet (u q) = true).
    Lemma lead_sends m q : q < N -> sends_of (lead u L m q) = sends_of (L m q).
    Proof. intros Hq. unfold lead. destruct m; auto. cbn [Nat.eqb]. now rewrite sends_app, quiet_sends by auto. Qed.
    Lemma lead_recvs m q : q < N -> recvs_of (lead u L m q) = recvs_of (L m q).
    Proof. intros Hq. unfold lead. destruct m; auto. cbn [Nat.eqb]. now rewrite recvs_app, quiet_recvs by auto. Qed.
    Lemma lead_ok : phases_ok N K (lead u L).
    Proof.
      split; intros; rewrite ?lead_sends, ?lead_recvs in * by auto.
      - unfold lead. destruct (Nat.eqb_spec m 0) as [->|]; [|now apply (no_wait _ _ _ OK)].
        intros I. apply in_app_or in I. destruct I as [I|I]; [revert I; apply quiet_wait; auto|revert I; now apply (no_wait _ _ _ OK)].
      - now apply (one_send _ _ _ OK).
      - now apply (one_recv _ _ _ OK).
      - destruct (send_match _ _ _ OK m p r) as (A & r' & I' & B); auto. split; auto. exists r'. now rewrite lead_recvs.
      - destruct (recv_match _ _ _ OK m p r) as (A & r' & I' & B); auto. split; auto. exists r'. now rewrite lead_sends.
      - now apply (last_send _ _ _ OK).
      - now apply (last_recv _ _ _ OK).
      - unfold lead. destruct (Nat.eqb_spec m 0) as [->|]; [apply quiet_race; auto|]; now apply (no_race _ _ _ OK).
    Qed.
    Lemma lead_phased q : phased K (lead u L) q = u q ++ phased K L q.
    Proof.
      unfold phased, rest_code. unfold lead at 1. cbn [Nat.eqb]. rewrite <- app_assoc. f_equal. f_equal.
      apply flat_map_ext_in. intros j Hj. apply in_seq in Hj. unfold lead. destruct j; [lia|reflexivity].
    Qed.
    Lemma lead_exec m : forall k q, k <= K -> q < N ->
      exec_list op (lead u L k q) (memat op (lead u L) m k q) = exec_list op (L k q) (memat op L (fun q => exec_list op (u q) (m q)) k q).
    Proof.
      induction k as [|k IH]; intros q Hk Hq.
      - unfold lead at 1. cbn [Nat.eqb memat]. apply exec_list_app.
      - unfold lead at 1. cbn [Nat.eqb]. f_equal. apply memat_next; auto.
        + intros p r Hp I. rewrite lead_recvs in I by auto. apply (recv_match _ _ _ OK k p r); auto. lia.
        + intros p Hp. rewrite lead_recvs, lead_sends by auto. split; auto. split; auto. apply IH; auto. lia.
    Qed.
    Lemma lead_final m q : q < N -> final K (lead u L) m q = final K L (fun q => exec_list op (u q) (m q)) q.
    Proof. intros Hq. now apply lead_exec. Qed.
  End Lead.

  (* one behind the other: the last phase of the first program becomes one with the first of the second *)
  Definition join (K1 : nat) (L1 L2 : phases) : phases := fun m q =>
    if m <? K1 then L1 m q else if m =? K1 then L1 K1 q ++ L2 0 q else L2 (m - K1) q.
  Section Two.
    Context (K1 K2 : nat) (L1 L2 : phases) (OK1 : phases_ok N K1 L1) (OK2 : phases_ok N K2 L2).
    Local Notation J := (join K1 L1 L2).
    Lemma join_lt m q : m < K1 -> J m q = L1 m q.
    Proof. intros H. unfold join. apply Nat.ltb_lt in H. now rewrite H. Qed.
    Lemma join_at q : J K1 q = L1 K1 q ++ L2 0 q.
    Proof. unfold join. now rewrite Nat.ltb_irrefl, Nat.eqb_refl. Qed.
    Lemma join_gt j q : J (K1 + S j) q = L2 (S j) q.
    Proof.
      unfold join. replace (K1 + S j <? K1) with false by (symmetry; apply Nat.ltb_ge; lia).
      replace (K1 + S j =? K1) with false by (symmetry; apply Nat.eqb_neq; lia). f_equal. lia.
    Qed.
    Lemma end_quiet q : q < N -> forallb quiet (L1 K1 q) = true.
    Proof. intros Hq. apply silent_quiet; [apply (no_wait _ _ _ OK1)|apply (last_send _ _ _ OK1)|apply (last_recv _ _ _ OK1)]; auto. Qed.
    Lemma join_cases m : m <= K1 + K2 -> m < K1 \/ exists j, m = K1 + j /\ j <= K2.
    Proof. intros H. destruct (le_lt_dec K1 m); auto. right. exists (m - K1). lia. Qed.
    Lemma join_sends j q : q < N -> sends_of (J (K1 + j) q) = sends_of (L2 j q).
    Proof.
      intros Hq. destruct j as [|j]; [|now rewrite join_gt]. rewrite Nat.add_0_r, join_at, sends_app, (quiet_sends (L1 K1 q)) by now apply end_quiet.
      reflexivity.
    Qed.
    Lemma join_recvs j q : q < N -> recvs_of (J (K1 + j) q) = recvs_of (L2 j q).
    Proof.
      intros Hq. destruct j as [|j]; [|now rewrite join_gt]. rewrite Nat.add_0_r, join_at, recvs_app, (quiet_recvs (L1 K1 q)) by now apply end_quiet.
      reflexivity.
    Qed.
    Lemma join_ok : phases_ok N (K1 + K2) J.
    Proof.
      split.
      - intros m p Hm Hp. destruct (join_cases m Hm) as [H|(j & -> & Hj)]; [rewrite join_lt by auto; apply (no_wait _ _ _ OK1); auto; lia|].
        destruct j as [|j]; [|rewrite join_gt; now apply (no_wait _ _ _ OK2)].
        rewrite Nat.add_0_r, join_at. intros I. apply in_app_or in I. destruct I as [I|I]; [revert I; apply (no_wait _ _ _ OK1)|revert I; apply (no_wait _ _ _ OK2)]; auto; lia.
      - intros m p Hm Hp. destruct (join_cases m Hm) as [H|(j & -> & Hj)]; [rewrite join_lt by auto; apply (one_send _ _ _ OK1); auto; lia|].
        rewrite join_sends by auto. now apply (one_send _ _ _ OK2).
      - intros m p Hm Hp. destruct (join_cases m Hm) as [H|(j & -> & Hj)]; [rewrite join_lt by auto; apply (one_recv _ _ _ OK1); auto; lia|].
        rewrite join_recvs by auto. now apply (one_recv _ _ _ OK2).
      - intros m p r Hm Hp I. destruct (join_cases m Hm) as [H|(j & -> & Hj)].
        + rewrite join_lt in I by auto. destruct (send_match _ _ _ OK1 m p r) as (A & r' & I' & B); auto; [lia|]. split; auto.
          exists r'. now rewrite join_lt.
        + rewrite join_sends in I by auto. destruct (send_match _ _ _ OK2 j p r) as (A & r' & I' & B); auto. split; auto.
          exists r'. now rewrite join_recvs.
      - intros m p r Hm Hp I. destruct (join_cases m Hm) as [H|(j & -> & Hj)].
        + rewrite join_lt in I by auto. destruct (recv_match _ _ _ OK1 m p r) as (A & r' & I' & B); auto; [lia|]. split; auto.
          exists r'. now rewrite join_lt.
        + rewrite join_recvs in I by auto. destruct (recv_match _ _ _ OK2 j p r) as (A & r' & I' & B); auto. split; auto.
          exists r'. now rewrite join_sends.
      - intros p Hp. rewrite join_sends by auto. now apply (last_send _ _ _ OK2).
      - intros p Hp. rewrite join_recvs by auto. now apply (last_recv _ _ _ OK2).
      - intros m p Hm Hp. destruct (join_cases m Hm) as [H|(j & -> & Hj)]; [rewrite join_lt by auto; apply (no_race _ _ _ OK1); auto; lia|].
        destruct j as [|j]; [|rewrite join_gt; now apply (no_race _ _ _ OK2)].
        rewrite Nat.add_0_r, join_at. apply quiet_race; [now apply end_quiet|]. apply (no_race _ _ _ OK2); auto.
    Qed.
    Lemma join_phased q : phased (K1 + K2) J q = phased K1 L1 q ++ phased K2 L2 q.
    Proof.
      assert (T : flat_map (fun j => Waitall :: J j q) (seq (K1 + 1) K2) = rest_code K2 L2 0 q).
      { unfold rest_code. rewrite Nat.sub_0_r. replace (seq (K1 + 1) K2) with (map (fun j => K1 + j) (seq 1 K2)).
        - rewrite flat_map_concat_map, map_map, <- flat_map_concat_map. apply flat_map_ext_in. intros j Hj. apply in_seq in Hj.
          destruct j; [lia|]. now rewrite join_gt.
        - clear. replace (K1 + 1) with (1 + K1) by lia. generalize 1. induction K2 as [|k IH]; intros n; auto. cbn [seq map].
          f_equal; [lia|]. now rewrite IH. }
      unfold phased. rewrite <- T. unfold rest_code. rewrite !Nat.sub_0_r.
      clear T. rewrite seq_app, flat_map_app, (Nat.add_comm K1 1), app_assoc, (app_assoc (_ ++ _)). f_equal.
      assert (P : forall k, S k = K1 -> flat_map (fun j => Waitall :: J j q) (seq 1 k) = flat_map (fun j => Waitall :: L1 j q) (seq 1 k)).
      { intros k Hk. apply flat_map_ext_in. intros j Hj. apply in_seq in Hj. rewrite join_lt; auto. lia. }
      destruct (Nat.eq_dec K1 0) as [E|E].
      - assert (X := join_at q). rewrite E in *. rewrite X. cbn [seq flat_map]. now rewrite !app_nil_r.
      - rewrite join_lt by lia. rewrite <- app_assoc. f_equal.
        destruct (Nat.neq_0_r K1) as [Y _]. destruct (Y E) as [k Ek]. assert (X := join_at q). rewrite Ek in *.
        rewrite seq_S, !flat_map_app, P by auto. rewrite <- app_assoc. f_equal. cbn [flat_map Nat.add].
        rewrite !app_nil_r, X. reflexivity.
    Qed.
    Lemma join_mem1 m : forall k q, k <= K1 -> q < N -> memat op J m k q = memat op L1 m k q.
    Proof.
      induction k as [|k IH]; intros q Hk Hq; auto. apply memat_next; auto.
      - intros p r Hp I. rewrite join_lt in I by lia. apply (recv_match _ _ _ OK1 k p r); auto. lia.
      - intros p Hp. rewrite join_lt by lia. rewrite IH by (auto; lia). auto.
    Qed.
    Lemma join_exec m : forall j q, j <= K2 -> q < N ->
      exec_list op (J (K1 + j) q) (memat op J m (K1 + j) q) = exec_list op (L2 j q) (memat op L2 (final K1 L1 m) j q).
    Proof.
      induction j as [|j IH]; intros q Hj Hq.
      - rewrite Nat.add_0_r, join_at, exec_list_app, join_mem1 by auto. reflexivity.
      - rewrite join_gt. f_equal. rewrite Nat.add_succ_r. apply memat_next; auto.
        + intros p r Hp I. rewrite join_recvs in I by auto. apply (recv_match _ _ _ OK2 j p r); auto. lia.
        + intros p Hp. rewrite join_recvs, join_sends by auto. split; auto. split; auto. apply IH; auto. lia.
    Qed.
    Lemma join_final m q : q < N -> final (K1 + K2) J m q = final K2 L2 (final K1 L1 m) q.
    Proof. intros Hq. now apply join_exec. Qed.
  End Two.

  (* a sequence *)
  Definition piece_ok (j : (nat -> list instr) * nat * phases) : Prop :=
    phases_ok N (snd (fst j)) (snd j) /\ forall q, q < N -> forallb quiet (fst (fst j) q) = true.
  Fixpoint total_phases (js : list ((nat -> list instr) * nat * phases)) : nat :=
    match js with [] => 0 | (_, k, _) :: r => k + total_phases r end.
  Fixpoint sequence (js : list ((nat -> list instr) * nat * phases)) : phases :=
    match js with [] => fun _ _ => [] | (u, k, l) :: r => join k (lead u l) (sequence r) end.
  Fixpoint ends (js : list ((nat -> list instr) * nat * phases)) (m : nat -> memory) : nat -> memory :=
    match js with [] => m | (u, k, l) :: r => ends r (final k l (fun q => exec_list op (u q) (m q))) end.
  Lemma sequence_ok js : Forall piece_ok js -> phases_ok N (total_phases js) (sequence js).
  Proof.
    induction 1 as [|[[u k] l] r [H Q] HR IH]; cbn [total_phases sequence].
    - split; cbn; intros; auto; try constructor; try contradiction.
    - apply join_ok; auto. now apply lead_ok.
  Qed.
  Lemma sequence_phased js q : q < N -> Forall piece_ok js ->
    phased (total_phases js) (sequence js) q = flat_map (fun j => fst (fst j) q ++ phased (snd (fst j)) (snd j) q) js.
  Proof.
    intros Hq. induction 1 as [|[[u k] l] r [H Q] HR IH]; cbn [total_phases sequence flat_map fst snd]; auto.
    cbn [fst snd] in H, Q. rewrite join_phased by (now apply lead_ok). rewrite lead_phased by auto. now rewrite IH.
  Qed.
  Lemma final_ext K L m m' : phases_ok N K L -> (forall q, q < N -> m q = m' q) -> forall q, q < N -> final K L m q = final K L m' q.
  Proof.
    intros OK E. unfold final.
    assert (G : forall k q, k <= K -> q < N -> memat op L m k q = memat op L m' k q); [|intros; now rewrite G].
    induction k as [|k IH]; intros q Hk Hq; [now apply E|]. apply memat_next; auto.
    - intros p r Hp I. apply (recv_match _ _ _ OK k p r); auto. lia.
    - intros p Hp. rewrite IH by (auto; lia). auto.
  Qed.
  Lemma ends_ext js : Forall piece_ok js -> forall m m', (forall q, q < N -> m q = m' q) -> forall q, q < N -> ends js m q = ends js m' q.
  Proof.
    induction 1 as [|[[u k] l] r [H Q] HR IH]; intros m m' E q Hq; cbn [ends]; auto.
    apply IH; auto. intros p Hp. apply final_ext; auto. intros p' Hp'. now rewrite E.
  Qed.
  Lemma sequence_final js : Forall piece_ok js -> forall m q, q < N -> final (total_phases js) (sequence js) m q = ends js m q.
  Proof.
    induction 1 as [|[[u k] l] r [H Q] HR IH]; intros m q Hq; cbn [total_phases sequence ends]; [reflexivity|].
    rewrite join_final; auto; [|now apply lead_ok|now apply sequence_ok].
    rewrite IH by auto. apply ends_ext; auto. intros p Hp. now apply lead_final.
  Qed.
End Join.

(* ---------- the calls ---------- *)
Section Calls.
  Context {V : Type} (op : V -> V -> V).
  Context (op_assoc : forall a b c, op a (op b c) = op (op a b) c) (op_comm : forall a b, op a b = op b a).
  Lemma receives_first counts n (old new : @memory V) v : receives_only (moffset counts n) old new v -> receives_only (first_of counts n) old new v.
  Proof. now rewrite moffset_first. Qed.
  Lemma call_phases N c : admissible N c -> exists K L, phases_ok N K L /\
    (forall p, p < N -> call_program N c p = phased K L p) /\
    forall m, effect op N c m (final op K L m).
  Proof.
    intros A. destruct c as [down mid up count|ports counts|ports counts|ports counts]; cbn [admissible] in A; cbn [call_program effect].
    - destruct A as [B <-]. eexists _, _. split; [now apply (ar_ok down mid up B count)|]. split; [now apply (ar_program down mid up B count)|].
      intros m q Hq. now apply ar_lock.
    - subst N. eexists _, _. split; [apply (ag_ok ports counts)|]. split; [apply ag_program|].
      intros m q Hq. destruct (ag_lock op ports counts m q Hq) as [X Y]. split; [now apply receives_first|].
      intros f i Hf Hi. rewrite <- moffset_first. now apply Y.
    - eexists _, _. split; [now apply (cy_ok N ports A counts)|]. split; [now apply cy_program|].
      intros m q Hq. destruct (cy_lock op N ports A counts m q Hq) as [X Y]. split; [now apply receives_first|].
      intros f i Hf Hi. rewrite <- moffset_first. now apply Y.
    - destruct A as (NZ & LN & <-). eexists _, _. split; [now apply (rs_ok ports NZ LN counts)|]. split; [now apply rs_program|].
      intros m q Hq. rewrite <- moffset_first. now apply rs_lock.
  Qed.
  Lemma call_run N c m : admissible N c ->
    never_stuck op N (call_program N c) m /\ leaves_nothing op N (call_program N c) m /\
    exists new, effect op N c m new /\ computes op N (call_program N c) m (fun q mm => forall a, mm a = new q a).
  Proof.
    intros A. destruct (call_phases N c A) as (K & L & OK & PR & E). split; [|split].
    - eapply once_progress; eauto.
    - eapply once_clean; eauto.
    - exists (final op K L m). split; [apply E|]. eapply once_result; eauto.
  Qed.
  Lemma work_quiet l : own_work l -> forallb quiet l = true.
  Proof. induction 1 as [|i l H _ IH]; auto. cbn. rewrite IH. now destruct i. Qed.
  Lemma jobs_phases N jobs : Forall (fun j => (forall q, q < N -> own_work (fst j q)) /\ admissible N (snd j)) jobs ->
    exists js, Forall (piece_ok N) js /\
      (forall p, p < N -> jobs_program N jobs p = flat_map (fun j => fst (fst j) p ++ phased (snd (fst j)) (snd j) p) js) /\
      forall m, carried_out op N jobs m (ends op js m).
  Proof.
    induction 1 as [|[u c] r [W A] HR IH].
    - exists []. split; [constructor|]. split; [reflexivity|]. intros m q a Hq. reflexivity.
    - destruct IH as (js & OK & PR & E). destruct (call_phases N c A) as (K & L & OKc & PRc & Ec).
      exists ((u, K, L) :: js). split; [|split].
      + constructor; auto. split; auto. intros q Hq. now apply work_quiet, W.
      + intros p Hp. unfold jobs_program in *. cbn [flat_map fst snd]. rewrite PRc, PR by auto. reflexivity.
      + intros m. cbn [carried_out ends]. eexists. split; [|apply E]. apply Ec.
  Qed.
  Lemma jobs_run N jobs m : Forall (fun j => (forall q, q < N -> own_work (fst j q)) /\ admissible N (snd j)) jobs ->
    never_stuck op N (jobs_program N jobs) m /\ leaves_nothing op N (jobs_program N jobs) m /\
    exists new, carried_out op N jobs m new /\ computes op N (jobs_program N jobs) m (fun q mm => forall a, mm a = new q a).
  Proof.
    intros H. destruct (jobs_phases N jobs H) as (js & OK & PR & E).
    assert (OKs := sequence_ok N js OK).
    assert (PRs : forall p, p < N -> jobs_program N jobs p = phased (total_phases js) (sequence js) p).
    { intros p Hp. rewrite PR by auto. symmetry. now apply (sequence_phased N). }
    split; [|split].
    - eapply once_progress; eauto.
    - eapply once_clean; eauto.
    - exists (ends op js m). split; [apply E|]. eapply once_result; eauto.
      intros q mm Hq Hm a. rewrite Hm. rewrite <- (sequence_final op N js OK m q Hq). reflexivity.
  Qed.
End Calls.

Section Runs.
  Context {V : Type} (op : V -> V -> V).
  Lemma exchange_run N alg blocks size_of F (m : nat -> @memory V) :
    1 <= blocks -> same_length N alg blocks ->
    (forall k, 1 <= k < blocks -> well_matched N (fun q => nth k (alg q) empty_block)) ->
    fixed_layout N alg blocks F ->
    let prog := fun q => blocks_code size_of N q (tl (alg q)) true in
    never_stuck op N prog m /\ leaves_nothing op N prog m /\
    computes op N prog m (fun q mm =>
      (forall n i, i < size_of (F q n) ->
         mm (cell size_of (F q) n i) = execute op N alg blocks (fun p l => m p (cell size_of (F p) l i)) q n) /\
      (forall j, mm (Sendbuf, j) = m q (Sendbuf, j)) /\ (forall j, mm (Recvbuf, j) = m q (Recvbuf, j))).
  Proof.
    intros Hb SL WM LAY prog. set (none := fun _ : nat => @nil instr).
    assert (Qn : forall q, q < N -> forallb quiet (none q) = true) by reflexivity.
    assert (OK := ok N alg blocks size_of none none Hb WM Qn Qn).
    assert (PR : forall p, p < N -> prog p = phased (blocks - 1) (L N alg blocks size_of none none) p).
    { intros p Hp. rewrite <- (program_phased N alg blocks size_of none none); auto.
      unfold program, none, prog. cbn [app]. now rewrite app_nil_r. }
    split; [|split].
    - eapply once_progress; eauto.
    - eapply once_clean; eauto.
    - eapply once_result; eauto. intros q mm Hq E.
      assert (E' : forall a, mm a = amid N alg blocks size_of none none op m (blocks - 1) q a).
      { intros a. rewrite E. now rewrite (raw_end N alg blocks size_of none none op m). }
      split; [|split].
      + intros n i Hi. rewrite E'. unfold cell. rewrite <- off_room.
        refine (follows N alg blocks size_of none none Hb WM Qn Qn op m F LAY i _ _ (blocks - 1) (le_n _) q Hq n Hi).
        intros q' Hq' n' Hn'. unfold none, cell. now rewrite <- off_room.
      + intros j. rewrite E'. now apply (user_kept N alg blocks size_of none none).
      + intros j. rewrite E'. now apply (user_kept N alg blocks size_of none none).
  Qed.

  Lemma reach_trans N (s t u : @system V) : reach op N s t -> reach op N t u -> reach op N s u.
  Proof. intros A. induction 1; auto. econstructor; eauto. Qed.
  Lemma run_to_end N prog (m : nat -> @memory V) : never_stuck op N prog m -> forall s, reach op N (start prog m) s ->
    exists t, reach op N s t /\ forall p, p < N -> finished t p.
  Proof.
    intros NS s. remember (measure N s) as k eqn:E. revert s E. induction k as [k IH] using lt_wf_ind. intros s -> R.
    destruct (NS s R) as [F|[t S]].
    - exists s. split; auto. constructor.
    - destruct (IH (measure N t) (step_measure op N s t S) t eq_refl) as (u & R' & F).
      + econstructor; eauto.
      + exists u. split; auto. eapply reach_trans; eauto. econstructor; eauto. constructor.
  Qed.

  Lemma allreduce_run down mid up count (m : nat -> @memory V) :
    (forall a b c, op a (op b c) = op (op a b) c) -> (forall a b, op a b = op b a) ->
    balanced down mid up ->
    let N := node_count (mid ++ up) in
    let prog := fun q => allreduce_program (generate_recursive false (down ++ mid ++ up) q) count N q in
    never_stuck op N prog m /\ leaves_nothing op N prog m /\
    computes op N prog m (fun q mm => receives_only count (m q) mm (fun j => total op (fun p => m p (Sendbuf, j)) N)).
  Proof.
    intros A C B N prog. destruct (call_run op A C N (Allreduce down mid up count) m) as (P & Q & new & E & R); [split; auto|].
    split; [exact P|]. split; [exact Q|]. intros s q H Hq F. eapply receives_only_ext; [now apply R|]. now apply E.
  Qed.
  Lemma reduce_scatter_run ports counts (m : nat -> @memory V) :
    (forall a b c, op a (op b c) = op (op a b) c) -> (forall a b, op a b = op b a) ->
    nonzero ports -> (last ports 0 < 0)%Z ->
    let N := node_count ports in
    let prog := fun q => reduce_scatter_program (generate_recursive false ports q) counts N q in
    never_stuck op N prog m /\ leaves_nothing op N prog m /\
    computes op N prog m (fun q mm =>
      receives_only (counts q) (m q) mm (fun j => total op (fun p => m p (Sendbuf, first_of counts q + j)) N)).
  Proof.
    intros A C NZ LN N prog. destruct (call_run op A C N (ReduceScatter ports counts) m) as (P & Q & new & E & R); [repeat split; auto|].
    split; [exact P|]. split; [exact Q|]. intros s q H Hq F. eapply receives_only_ext; [now apply R|]. now apply E.
  Qed.
  Local Notation gathered N counts m := (fun q (mm : memory) =>
      receives_only (first_of counts N) (m q) mm (fun j => mm (Recvbuf, j)) /\
      forall f i, f < N -> i < counts f -> mm (Recvbuf, first_of counts f + i) = m f (Sendbuf, i)).
  Lemma gathered_ext N counts (m : nat -> @memory V) q mm mm' : (forall a, mm' a = mm a) -> gathered N counts m q mm -> gathered N counts m q mm'.
  Proof.
    intros E ((A & B & C) & D). split; [split; [|split]|]; intros; rewrite ?E; auto.
  Qed.
  Lemma allgather_run ports counts (m : nat -> @memory V) :
    let N := node_count ports in
    let prog := fun q => allgather_program (generate_recursive true ports q) counts N q in
    never_stuck op N prog m /\ leaves_nothing op N prog m /\ computes op N prog m (gathered N counts m).
  Proof.
    intros N prog.
    assert (OK := ag_ok ports counts). assert (PR := ag_program ports counts).
    split; [|split].
    - eapply once_progress; eauto.
    - eapply once_clean; eauto.
    - eapply once_result; eauto. intros q mm Hq E. eapply gathered_ext; [exact E|].
      destruct (ag_lock op ports counts m q Hq) as [X Y]. split; [now apply receives_first|].
      intros f i Hf Hi. rewrite <- moffset_first. now apply Y.
  Qed.
  Lemma cyclic_run N ports counts (m : nat -> @memory V) : minimal N ports ->
    let prog := fun q => allgather_program (cyclic_allgather N ports q) counts N q in
    never_stuck op N prog m /\ leaves_nothing op N prog m /\ computes op N prog m (gathered N counts m).
  Proof.
    intros MIN prog.
    assert (OK := cy_ok N ports MIN counts). assert (PR := cy_program N ports MIN counts).
    split; [|split].
    - eapply once_progress; eauto.
    - eapply once_clean; eauto.
    - eapply once_result; eauto. intros q mm Hq E. eapply gathered_ext; [exact E|].
      destruct (cy_lock op N ports MIN counts m q Hq) as [X Y]. split; [now apply receives_first|].
      intros f i Hf Hi. rewrite <- moffset_first. now apply Y.
  Qed.
End Runs.
