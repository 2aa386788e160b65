(* Claim C10: reductions of messages in the order of arrival. *)
From Verif Require Import Base WaitanyModel WaitanySpec WaitanyProofs.
Local Open Scope Z_scope.

(* num_red_max >= 0: destination updated at once *)
Theorem C10_direct_order_irrelevant :
  forall reqs payload m0 tr, layout reqs -> sends_apart reqs -> possible (length reqs) tr ->
  summed reqs payload m0 (exec reqs payload false tr m0).
Proof. intros reqs payload m0 tr L S T. exact (direct_ok reqs payload m0 L tr T S). Qed.
Print Assumptions C10_direct_order_irrelevant.

(* num_red_max < 0: destination untouched until all messages have left *)
Theorem C10_deferred_order_irrelevant :
  forall reqs payload m0 tr, layout reqs -> same_target reqs -> possible (length reqs) tr ->
  summed reqs payload m0 (exec reqs payload true tr m0).
Proof. intros reqs payload m0 tr L S T. exact (deferred_ok reqs payload m0 L tr T S). Qed.
Print Assumptions C10_deferred_order_irrelevant.

(* Two messages of three elements received at 100 and 200, both reduced to 0..2;
   the three elements at 0 are sent. *)
Definition r1 : red := {| to := 0; from := 100; len := 3 |}.
Definition r2 : red := {| to := 0; from := 200; len := 3 |}.
Definition ex_reqs (b : Z) : list request :=
  [ {| is_send := false; base := 100; size := 3; reds := [r1] |};
    {| is_send := false; base := 200; size := 3; reds := [r2] |};
    {| is_send := true; base := b; size := 3; reds := [] |} ].
Definition ex_trace : list event :=
  [Transfer 1; Complete 1; Transfer 0; Complete 0; Transfer 2; Complete 2].
Ltac three i H := destruct i as [|[|[|i]]]; cbn in H; try (exfalso; lia).
Lemma ex_layout b : b = 0 \/ b = 300 -> layout (ex_reqs b).
Proof.
  intros Hb. split.
  - intros i j Hi Hj. three i Hi; three j Hj; intros N S; try congruence; unfold apart, inside; cbn; intros a Ha Ha'; lia.
  - intros i r Hi Hr. three i Hi; cbn in Hr; try contradiction; destruct Hr as [<-|[]]; (split; [reflexivity|]); cbn; auto.
  - intros i j r Hi Hj Hr S. three i Hi; three j Hj; cbn in Hr, S; try contradiction; try discriminate;
      destruct Hr as [<-|[]]; unfold apart, inside; cbn; intros a Ha Ha'; lia.
Qed.
Lemma ex_possible : possible 3 ex_trace.
Proof.
  split.
  - assert (X : forall a b c d e f : event, Permutation [c; d; a; b; e; f] [a; c; e; b; d; f]).
    { intros. apply (perm_trans (l' := [a; c; d; b; e; f])).
      - apply Permutation_sym, (Permutation_middle [c; d] [b; e; f] a).
      - constructor. constructor. apply (perm_trans (l' := [e; d; b; f])); [apply Permutation_sym, (Permutation_middle [d; b] [f] e)|].
        constructor. constructor. }
    apply X.
  - intros i a b E. unfold ex_trace in E.
    do 6 (destruct a as [|? a]; [injection E; intros; subst; try discriminate; cbn; tauto|
          cbn in E; injection E as <- E; try (destruct a; discriminate)]);
    try (destruct a; discriminate).
    all: try (destruct a as [|? a]; cbn in E; [discriminate|]; try discriminate).
Qed.
Example C10_example_deferred : layout (ex_reqs 0) /\ same_target (ex_reqs 0) /\ possible (length (ex_reqs 0)) ex_trace /\
  map (mem (exec (ex_reqs 0) (fun a => a) true ex_trace (fun a => 1))) [0; 1; 2; 3] = [301; 303; 305; 1].
Proof.
  split; [apply ex_layout; tauto|]. split; [|split; [exact ex_possible|reflexivity]]. split.
  - intros i j Hi Hj. three i Hi; three j Hj; cbn; intros A B; try congruence; auto.
  - intros i Hi. three i Hi; cbn; auto; split; auto; intros ? [].
Qed.
Example C10_example_direct : layout (ex_reqs 300) /\ sends_apart (ex_reqs 300) /\ possible (length (ex_reqs 300)) ex_trace.
Proof.
  split; [apply ex_layout; tauto|]. split; [|exact ex_possible].
  intros i j r Hi Hj Hr S. three i Hi; three j Hj; cbn in Hr, S; try contradiction; try discriminate;
    destruct Hr as [<-|[]]; unfold apart, inside; cbn; intros a Ha Ha'; lia.
Qed.

(* The conditions are needed.  Late update with two different destinations: the
   second message to arrive ends in the destination of the first. *)
Theorem C10_deferred_two_targets_refuted :
  exists reqs tr, layout reqs /\ possible (length reqs) tr /\ (forall i, (i < length reqs)%nat -> parts_apart (reds (req reqs i))) /\
  exists payload m0, ~ summed reqs payload m0 (exec reqs payload true tr m0).
Proof.
  exists [ {| is_send := false; base := 100; size := 3; reds := [r1] |};
           {| is_send := false; base := 200; size := 3; reds := [{| to := 10; from := 200; len := 3 |}] |};
           {| is_send := true; base := 0; size := 3; reds := [] |} ], ex_trace.
  split.
  { split.
    - intros i j Hi Hj. three i Hi; three j Hj; intros N S; try congruence; unfold apart, inside; cbn; intros a Ha Ha'; lia.
    - intros i r Hi Hr. three i Hi; cbn in Hr; try contradiction; destruct Hr as [<-|[]]; (split; [reflexivity|]); cbn; auto.
    - intros i j r Hi Hj Hr S. three i Hi; three j Hj; cbn in Hr, S; try contradiction; try discriminate;
        destruct Hr as [<-|[]]; unfold apart, inside; cbn; intros a Ha Ha'; lia. }
  split; [exact ex_possible|]. split.
  { intros i Hi. three i Hi; cbn; auto; split; auto; intros ? []. }
  exists (fun a => a), (fun _ => 0). intros [S _]. specialize (S 10). cbv -[inside] in S.
  assert (X : 300 = 200); [|discriminate]. apply S. intros j Hj _. three j Hj; unfold inside; cbn; lia.
Qed.
Print Assumptions C10_deferred_two_targets_refuted.

(* Update at once while the destination is being sent: the message sent contains
   sums. *)
Theorem C10_direct_sending_target_refuted :
  exists reqs tr, layout reqs /\ possible (length reqs) tr /\
  exists payload m0, ~ summed reqs payload m0 (exec reqs payload false tr m0).
Proof.
  exists (ex_reqs 0), ex_trace. split; [apply ex_layout; tauto|]. split; [exact ex_possible|].
  exists (fun a => a), (fun _ => 0). intros (_ & S & _).
  assert (X : [300; 302; 304] = [0; 0; 0]); [|discriminate]. apply (S 2%nat). left. reflexivity.
Qed.
Print Assumptions C10_direct_sending_target_refuted.
