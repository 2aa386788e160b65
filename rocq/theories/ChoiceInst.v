(* The schedules chosen are those the code of which is proved correct. *)
From Verif Require Import Base FactorsModel FactorsSpec ChoiceModel ChoiceSpec ChoiceProofs.
From Verif Require Import SchedModel SchedSpec RecursiveModel RecursiveSpec CyclicModel CycRedModel RawModel RawSpec.
From Verif Require CyclicSpec RawProps CycRedProps CycRedAllProps.
Local Ltac Zify.zify_post_hook ::= idtac.

Section Inst.
  Context (param : option bool) (T : list Z -> Z) (limit : Z) (N : nat).
  Hypothesis HN : 2 <= N.
  Hypothesis Hparam : param <> Some false.

  (* either the product of the positive ports is the number of nodes, or the cyclic schedule is taken *)
  Lemma recursive_count : forall a b, negative a -> positive b ->
    not_recursive param (Z.of_nat N) (a ++ b) = false -> node_count b = N.
  Proof.
    intros a b Ha Hb. unfold not_recursive. destruct param as [[|]|]; [discriminate|contradiction|].
    destruct (group_size (a ++ b) =? Z.of_nat N)%Z eqn:E; [|discriminate]. intros _. apply Z.eqb_eq in E.
    apply group_size_eq in E; [|assumption|assumption|lia]. lia.
  Qed.

  Lemma chosen : forall ag ports groups, choose T limit ag (Z.of_nat N) = Some (ports, groups) ->
    exists f p l, from_minimal (Z.of_nat N) ag f p l /\ ports = ports_of_factors f /\ ngroups groups = 1.
  Proof.
    intros ag ports groups H. apply choose_some in H. destruct H as (f & (I & _) & -> & ->).
    apply options_exact in I; [|lia]. destruct I as (_ & p & l & F). exists f, p, l. split; [exact F|]. split; [reflexivity|].
    apply groups_one. lia.
  Qed.
  Lemma down_negative : forall n ag f p l, from_minimal n ag f p l ->
    negative (map Z.opp (ports_of_factors (firstn l (rev p)))).
  Proof. intros n ag f p l F. apply (variant_balanced n ag f p l F). Qed.

  Lemma chosen_allreduce : forall {V} (op : V -> V -> V) sched count (m : nat -> @memory V),
    (forall a b c, op a (op b c) = op (op a b) c) -> (forall a b, op a b = op b a) ->
    choose_allreduce param T limit N = Some sched ->
    let prog := fun q => allreduce_program (sched q) count N q in
    never_stuck op N prog m /\ leaves_nothing op N prog m /\
    computes op N prog m (fun q mm => receives_only count (m q) mm (fun j => total op (fun p => m p (Sendbuf, j)) N)).
  Proof.
    intros V op sched count m A C H. unfold choose_allreduce in H.
    destruct (choose T limit false (Z.of_nat N)) as [[ports groups]|] eqn:E; [|discriminate].
    apply chosen in E. destruct E as (f & p & l & F & -> & G). rewrite (variant_ports _ _ _ _ _ F), G in H.
    assert (Dn := down_negative _ _ _ _ _ F). assert (B := variant_balanced _ _ _ _ _ F).
    assert (M := proj1 F). assert (P := ports_positive p (minimal_ge2 _ _ M)).
    destruct (not_recursive _ _ _) eqn:NR.
    - cbn [Nat.eqb] in H. destruct (negatives_app _ _ Dn P) as [E1 E2]. rewrite E1, E2 in H. injection H as <-.
      apply (CycRedAllProps.C63_cyclic_allreduce_code_correct op A C). now apply ports_cyclic_minimal.
    - injection H as <-. apply recursive_count in NR; [|assumption|assumption].
      assert (S1 : ports_of_factors p = ports_of_factors (firstn (length p - l) p) ++ ports_of_factors (skipn (length p - l) p)).
      { unfold ports_of_factors. now rewrite <- map_app, firstn_skipn. }
      assert (R := RawProps.C44_allreduce_code_correct op _ _ _ count m A C B). rewrite <- S1 in R. rewrite NR in R. exact R.
  Qed.

  Lemma chosen_allgather : forall {V} (op : V -> V -> V) sched counts (m : nat -> @memory V),
    choose_allgather param T limit N = Some sched ->
    let prog := fun q => allgather_program (sched q) counts N q in
    never_stuck op N prog m /\ leaves_nothing op N prog m /\
    computes op N prog m (fun q mm =>
      receives_only (first_of counts N) (m q) mm (fun j => mm (Recvbuf, j)) /\
      forall f i, f < N -> i < counts f -> mm (Recvbuf, first_of counts f + i) = m f (Sendbuf, i)).
  Proof.
    intros V op sched counts m H. unfold choose_allgather in H.
    destruct (choose T limit true (Z.of_nat N)) as [[ports groups]|] eqn:E; [|discriminate].
    apply chosen in E. destruct E as (f & p & l & F & -> & G). rewrite (variant_ports _ _ _ _ _ F), G in H.
    assert (M := proj1 F). assert (P := ports_positive p (minimal_ge2 _ _ M)).
    assert (L : l = 0) by (destruct F as (_ & L & _); lia). subst l.
    cbn [firstn map ports_of_factors app] in H. destruct (not_recursive _ _ _) eqn:NR.
    - cbn [Nat.eqb] in H. injection H as <-. apply RawProps.C45_cyclic_allgather_code_correct. now apply ports_cyclic_minimal.
    - injection H as <-. apply (recursive_count []) in NR; [|constructor|assumption].
      assert (R := RawProps.C45_allgather_code_correct op (ports_of_factors p) counts m). now rewrite NR in R.
  Qed.

  Lemma chosen_reduce_scatter : forall {V} (op : V -> V -> V) sched counts (m : nat -> @memory V),
    (forall a b c, op a (op b c) = op (op a b) c) -> (forall a b, op a b = op b a) ->
    choose_reduce_scatter param T limit N = Some sched ->
    let prog := fun q => reduce_scatter_program (sched q) counts N q in
    never_stuck op N prog m /\ leaves_nothing op N prog m /\
    computes op N prog m (fun q mm =>
      receives_only (counts q) (m q) mm (fun j => total op (fun p => m p (Sendbuf, first_of counts q + j)) N)).
  Proof.
    intros V op sched counts m A C H. unfold choose_reduce_scatter in H.
    destruct (choose T limit true (Z.of_nat N)) as [[ports groups]|] eqn:E; [|discriminate].
    apply chosen in E. destruct E as (f & p & l & F & -> & G). rewrite (variant_ports _ _ _ _ _ F), G in H.
    assert (M := proj1 F). assert (P := ports_positive p (minimal_ge2 _ _ M)).
    assert (L : l = 0) by (destruct F as (_ & L & _); lia). subst l.
    cbn [firstn map ports_of_factors app] in H. cbv zeta in H.
    assert (Bk : negative (map Z.opp (rev (ports_of_factors p)))).
    { apply Forall_map, Forall_rev. eapply Forall_impl; [|exact P]. intros x Hx. cbv beta in *. lia. }
    assert (Nc : node_count (map Z.opp (rev (ports_of_factors p))) = node_count (ports_of_factors p))
      by (now rewrite node_count_opp, node_count_rev).
    destruct (not_recursive _ _ _) eqn:NR.
    - cbn [Nat.eqb] in H. destruct (negatives_app _ [] Bk (Forall_nil _)) as [E1 E2]. rewrite app_nil_r in E1, E2.
      rewrite E1, E2 in H. injection H as <-.
      apply (CycRedProps.C61_cyclic_reduce_scatter_code_correct op A C); [lia|]. rewrite node_count_spread, Nc, <- node_count_spread.
      destruct (ports_cyclic_minimal N p M) as [_ [[_ ->]|(r & d & -> & _ & ?)]]; [lia|assumption].
    - injection H as <-. apply (recursive_count []) in NR; [|constructor|assumption].
      assert (NZ : nonzero (map Z.opp (rev (ports_of_factors p)))).
      { eapply Forall_impl; [|exact Bk]. intros x Hx. cbv beta in *. lia. }
      assert (LN : (last (map Z.opp (rev (ports_of_factors p))) 0 < 0)%Z).
      { assert (NE : ports_of_factors p <> []) by (intros Q; apply map_eq_nil in Q; exact (minimal_nonempty _ _ M Q)).
        destruct (ports_of_factors p) as [|x r]; [contradiction|]. cbn [rev]. rewrite map_app. cbn [map]. rewrite last_last.
        inversion P; subst. cbn. lia. }
      assert (R := RawProps.C46_reduce_scatter_code_correct op _ counts m A C NZ LN). rewrite Nc, NR in R. exact R.
  Qed.

  Lemma choose_schedules : (forall f, (T f < limit)%Z) ->
    choose_allreduce param T limit N <> None /\ choose_allgather param T limit N <> None /\
    choose_reduce_scatter param T limit N <> None.
  Proof.
    intros HT.
    assert (X : forall ag, exists ports groups, choose T limit ag (Z.of_nat N) = Some (ports, groups) /\ ngroups groups = 1).
    { intros ag. assert (Q := choose_total T limit ag (Z.of_nat N) ltac:(lia)).
      destruct (choose T limit ag (Z.of_nat N)) as [[ports groups]|] eqn:E.
      - exists ports, groups. split; [reflexivity|]. apply chosen in E. now destruct E as (f & p & l & _ & _ & G).
      - exfalso. apply Q; [|reflexivity]. destruct (options_nonempty ag (Z.of_nat N) ltac:(lia)) as (f & I). exists f. now split. }
    unfold choose_allreduce, choose_allgather, choose_reduce_scatter.
    destruct (X true) as (p1 & g1 & -> & ->), (X false) as (p2 & g2 & -> & ->). cbn [Nat.eqb].
    split; [|split]; destruct (not_recursive _ _ _); discriminate.
  Qed.
End Inst.
