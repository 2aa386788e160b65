(* Running the final code of allreduce and reduce_scatter. *)
From Verif Require Import Base SchedModel SchedSpec RecursiveModel RecursiveSpec RawModel RawSpec MsgProofs PhaseProofs RawStage RawProofs RawEnd RawWhole RawInst
  FinalModel FinalSpec FinalInst.

Lemma allreduce_final_run : forall {V} (op : V -> V -> V) down mid up count (base : nat -> nat -> nat) (alt : nat -> bool) (m : nat -> @memory V),
  (forall a b c, op a (op b c) = op (op a b) c) -> (forall a b, op a b = op b a) ->
  balanced down mid up ->
  let N := node_count (mid ++ up) in
  let alg := generate_recursive false (down ++ mid ++ up) in
  (forall q, q < N -> laid_out (base q) (allreduce_program (alg q) count N q)) ->
  let prog := fun q => allreduce_final (alg q) (base q) (alt q) count N q in
  never_stuck op N prog m /\ leaves_nothing op N prog m /\
  computes op N prog m (fun q mm => receives_only count (m q) mm (fun j => total op (fun p => m p (Sendbuf, j)) N)).
Proof.
  intros V op down mid up count base alt m A C B N alg LO prog.
  assert (OK := ar_phases down mid up B count).
  assert (PR : forall q, q < N -> prog q = phased _ _ q) by (intros q Hq; apply (ar_final down mid up B count q (base q) (alt q) Hq (LO q Hq))).
  split; [|split].
  - eapply once_progress; eauto.
  - eapply once_clean; eauto.
  - eapply once_result; eauto. intros q mm Hq E. eapply receives_only_ext; [exact E|]. now apply ar_end.
Qed.
Lemma reduce_scatter_final_run : forall {V} (op : V -> V -> V) ports counts (base : nat -> nat -> nat) (alt : nat -> bool) (m : nat -> @memory V),
  (forall a b c, op a (op b c) = op (op a b) c) -> (forall a b, op a b = op b a) ->
  nonzero ports -> (last ports 0 < 0)%Z ->
  let N := node_count ports in
  let alg := generate_recursive false ports in
  (forall q, q < N -> laid_out (base q) (reduce_scatter_program (alg q) counts N q)) ->
  let prog := fun q => reduce_scatter_final (alg q) (base q) (alt q) counts N q in
  never_stuck op N prog m /\ leaves_nothing op N prog m /\
  computes op N prog m (fun q mm =>
    receives_only (counts q) (m q) mm (fun j => total op (fun p => m p (Sendbuf, first_of counts q + j)) N)).
Proof.
  intros V op ports counts base alt m A C NZ LN N alg LO prog.
  assert (OK := sc_phases ports NZ LN counts).
  assert (PR : forall q, q < N -> prog q = phased _ _ q) by (intros q Hq; apply (sc_final ports NZ LN counts q (base q) (alt q) Hq (LO q Hq))).
  split; [|split].
  - eapply once_progress; eauto.
  - eapply once_clean; eauto.
  - eapply once_result; eauto. intros q mm Hq E. eapply receives_only_ext; [exact E|].
    rewrite <- moffset_first. now apply sc_end.
Qed.
