(* The recursive schedules that are chosen, adapted to a root, and behind all passes. *)
From Verif Require Import Base FactorsModel FactorsSpec ChoiceModel ChoiceSpec ChoiceProofs ChoiceInst ChosenModel.
From Verif Require Import SchedModel SchedSpec RecursiveModel RecursiveSpec MatchProofs RawModel RawSpec RootModel RootSpec BcastModel BcastSpec
  FinalModel FinalSpec.
From Verif Require RootProps BcastProps FinalProps.
Local Ltac Zify.zify_post_hook ::= idtac.

Section Inst.
  Context (param : option bool) (T : list Z -> Z) (limit : Z) (N : nat).
  Hypothesis HN : 2 <= N.
  Hypothesis Hparam : param <> Some false.

  Lemma takes_some ag : takes_recursive param T limit ag N = true ->
    exists down mid up groups, choose T limit ag (Z.of_nat N) = Some (down ++ mid ++ up, groups) /\
      not_recursive param (Z.of_nat N) (down ++ mid ++ up) = false /\
      balanced down mid up /\ node_count (mid ++ up) = N /\ (ag = true -> down = [] /\ node_count (down ++ mid ++ up) = N).
  Proof.
    unfold takes_recursive. destruct (choose T limit ag (Z.of_nat N)) as [[ports groups]|] eqn:E; [|discriminate].
    intros H. apply negb_true_iff in H. destruct (chosen T limit N HN ag ports groups E) as (f & p & l & F & -> & G). clear G.
    rewrite (variant_ports _ _ _ _ _ F) in *.
    assert (Dn := down_negative _ _ _ _ _ F). assert (B := variant_balanced _ _ _ _ _ F).
    assert (M := proj1 F). assert (P := ports_positive p (minimal_ge2 _ _ M)).
    assert (S1 : ports_of_factors p = ports_of_factors (firstn (length p - l) p) ++ ports_of_factors (skipn (length p - l) p)).
    { unfold ports_of_factors. now rewrite <- map_app, firstn_skipn. }
    assert (C := recursive_count param T N HN Hparam _ _ Dn P H). rewrite S1 in H, C |- *.
    do 3 eexists. exists groups. split; [reflexivity|]. split; [exact H|]. split; [exact B|]. split; [exact C|].
    intros ->. assert (L : l = 0) by (destruct F as (_ & L & _); lia). subst l. cbn [firstn map ports_of_factors app]. split; [reflexivity|exact C].
  Qed.
  Lemma recursive_length down mid up : balanced down mid up -> length (generate_recursive false (down ++ mid ++ up) 0) = length (down ++ mid ++ up) + 2.
  Proof. intros B. apply (generated_allreduce_same_length down mid up B 1). lia. Qed.

  Lemma chosen_reduce_run : forall {V} (op : V -> V -> V) root count prog (m : nat -> @memory V),
    (forall a b c, op a (op b c) = op (op a b) c) -> (forall a b, op a b = op b a) -> root < N ->
    takes_recursive param T limit false N = true ->
    chosen_reduce param T limit N root count = Some prog ->
    never_stuck op N prog m /\ leaves_nothing op N prog m /\ computes op N prog m (reduced_at op N root count m).
  Proof.
    intros V op root count prog m A C Hr H E. apply takes_some in H. destruct H as (down & mid & up & groups & H1 & H2 & B & Nc & _).
    unfold chosen_reduce, choose_allreduce in E. rewrite H1, H2 in E. cbn [option_map] in E. injection E as <-.
    unfold adapted_to_root. rewrite (recursive_length _ _ _ B).
    assert (R := RootProps.C48_reduce_code_correct op down mid up root count m A C B). cbv zeta in R. rewrite Nc in R. exact (R Hr).
  Qed.
  Lemma chosen_bcast_run : forall {V} (op : V -> V -> V) root count prog (m : nat -> @memory V), root < N ->
    takes_recursive param T limit true N = true ->
    chosen_bcast param T limit N root count = Some prog ->
    never_stuck op N prog m /\ leaves_nothing op N prog m /\
    computes op N prog m (broadcast_by (root * (count / N) + Nat.min root (count mod N)) root count m).
  Proof.
    intros V op root count prog m Hr H E. apply takes_some in H. destruct H as (down & mid & up & groups & H1 & H2 & B & Nc & _).
    unfold chosen_bcast, choose_bcast in E. rewrite H1, H2 in E. cbn [option_map] in E. injection E as <-.
    unfold adapted_from_root. rewrite (recursive_length _ _ _ B).
    assert (R := BcastProps.C52_bcast_code_effect op down mid up root count m B). cbv zeta in R. rewrite Nc in R. exact (R Hr).
  Qed.
  Lemma chosen_bcast_root0 : forall {V} (op : V -> V -> V) root count prog (m : nat -> @memory V), root < N -> root = 0 \/ count <= root ->
    takes_recursive param T limit true N = true ->
    chosen_bcast param T limit N root count = Some prog ->
    never_stuck op N prog m /\ leaves_nothing op N prog m /\ computes op N prog m (broadcast root count m).
  Proof.
    intros V op root count prog m Hr H0 H E. apply takes_some in H. destruct H as (down & mid & up & groups & H1 & H2 & B & Nc & _).
    unfold chosen_bcast, choose_bcast in E. rewrite H1, H2 in E. cbn [option_map] in E. injection E as <-.
    unfold adapted_from_root. rewrite (recursive_length _ _ _ B).
    assert (R := BcastProps.C52_bcast_code_correct op down mid up root count m B). cbv zeta in R. rewrite Nc in R. exact (R Hr H0).
  Qed.
  Lemma chosen_gather_run : forall {V} (op : V -> V -> V) root counts prog (m : nat -> @memory V), root < N ->
    takes_recursive param T limit true N = true ->
    chosen_gather param T limit N root counts = Some prog ->
    never_stuck op N prog m /\ leaves_nothing op N prog m /\ computes op N prog m (gathered_at N root counts m).
  Proof.
    intros V op root counts prog m Hr H E. apply takes_some in H. destruct H as (down & mid & up & groups & H1 & H2 & B & _ & Q).
    destruct (Q eq_refl) as [-> Nc]. cbn [app] in *.
    unfold chosen_gather, choose_allgather in E. rewrite H1, H2 in E. cbn [option_map] in E. injection E as <-.
    unfold adapted_to_root.
    assert (L := proj1 (generated_same_length (mid ++ up)) 1 0 ltac:(lia)). rewrite L.
    assert (R := RootProps.C49_gather_code_correct op (mid ++ up) root counts m). cbv zeta in R. rewrite Nc in R. exact (R Hr).
  Qed.
  Lemma chosen_allreduce_final_run : forall {V} (op : V -> V -> V) count base alt sched prog (m : nat -> @memory V),
    (forall a b c, op a (op b c) = op (op a b) c) -> (forall a b, op a b = op b a) ->
    takes_recursive param T limit false N = true ->
    choose_allreduce param T limit N = Some sched ->
    (forall q, q < N -> laid_out (base q) (allreduce_program (sched q) count N q)) ->
    chosen_allreduce_final param T limit base alt N count = Some prog ->
    never_stuck op N prog m /\ leaves_nothing op N prog m /\
    computes op N prog m (fun q mm => receives_only count (m q) mm (fun j => total op (fun p => m p (Sendbuf, j)) N)).
  Proof.
    intros V op count base alt sched prog m A C H S L E. unfold chosen_allreduce_final in E. rewrite S, H in E. cbn [option_map] in E. injection E as <-.
    apply takes_some in H. destruct H as (down & mid & up & groups & H1 & H2 & B & Nc & _).
    unfold choose_allreduce in S. rewrite H1, H2 in S. injection S as <-.
    assert (R := FinalProps.C54_final_allreduce_correct op down mid up count base (fun _ => alt) m A C B). cbv zeta in R. rewrite Nc in R. exact (R L).
  Qed.
End Inst.
