(* Running the final code of allgather. *)
From Verif Require Import Base SchedModel SchedSpec RecursiveModel RecursiveSpec RawModel RawSpec MsgProofs PhaseProofs RawStage RawProofs RawEnd RawWhole RawInst RootRefute
  FinalModel FinalSpec FinalRefute GatherFinalModel GatherSim GatherInst.

Lemma allgather_final_run : forall {V} (op : V -> V -> V) ports counts (base : nat -> nat -> nat) (alt : nat -> bool) (m : nat -> @memory V),
  let N := node_count ports in
  let alg := generate_recursive true ports in
  (forall f, f < N -> 0 < counts f) ->
  (forall q, q < N -> laid_out (base q) (allgather_program (alg q) counts N q)) ->
  exists prog, (forall q, q < N -> allgather_final ports (alg q) (base q) (alt q) counts N q = Some (prog q)) /\
  never_stuck op N prog m /\ leaves_nothing op N prog m /\
  computes op N prog m (fun q mm =>
    receives_only (first_of counts N) (m q) mm (fun j => mm (Recvbuf, j)) /\
    forall f i, f < N -> i < counts f -> mm (Recvbuf, first_of counts f + i) = m f (Sendbuf, i)).
Proof.
  intros V op ports counts base alt m N alg POS LO.
  assert (OK := fa_phases ports counts POS).
  exists (phased (length ports + 2 - 1) (LG N alg (length ports + 2) (mmsizes counts N))).
  split; [|split; [|split]].
  - intros q Hq. now apply fa_final; [| |apply LO].
  - eapply once_progress; eauto.
  - eapply once_clean; eauto.
  - eapply once_result; eauto. intros q mm Hq E. rewrite <- !moffset_first. split; [split; [|split]|].
    + auto.
    + intros j Hj. rewrite E. apply (fa_frame ports counts POS op m q); auto.
    + intros j. rewrite E. apply (fa_frame ports counts POS op m q); auto. discriminate.
    + intros f i Hf Hi. rewrite E, <- moffset_first. now apply (fa_end ports counts POS op m q).
Qed.

(* ---------- nodes without elements ---------- *)
Notation ports6 := [1%Z; 2%Z].
Notation six := (node_count ports6).
Notation alg6 := (generate_recursive true ports6).
Definition counts6 (q : nat) : nat := nth q [0; 0; 3; 4; 5; 6] 0.
Lemma laid6 q : q < six -> laid_out base40 (allgather_program (alg6 q) counts6 six q).
Proof. intros H. destruct q as [|[|[|[|[|[|]]]]]]; [laid|laid|laid|laid|laid|laid|cbn in H; lia]. Qed.
Notation prog6 := (fun q : nat => match allgather_final ports6 (alg6 q) base40 false counts6 six q with Some l => l | None => [] end).
Definition mem6 (q : nat) : @memory nat := fun a => match fst a with Sendbuf => 1 + q | _ => 0 end.
Definition end6 : @system nat := go Nat.add six 400 (start prog6 mem6).
Lemma end6_reached : reach Nat.add six (start prog6 mem6) end6.
Proof. apply go_reach. constructor. Qed.
Lemma end6_finished : finished end6 0.
Proof. unfold finished. vm_compute. auto. Qed.
(* node 0 gets the elements of nodes 2 and 3 into its send buffer *)
Lemma end6_wrong : mem (procs end6 0) (Recvbuf, 0) = 0.
Proof. vm_compute. reflexivity. Qed.
Lemma prog6_is q : q < six -> allgather_final ports6 (alg6 q) base40 false counts6 six q = Some (prog6 q).
Proof. intros H. destruct q as [|[|[|[|[|[|]]]]]]; [| | | | | |exfalso; cbn in H; lia]; vm_compute; reflexivity. Qed.
Lemma no_elements_wrong :
  ~ (forall ports counts base alt (m : nat -> @memory nat) prog,
       let N := node_count ports in
       let alg := generate_recursive true ports in
       (forall q, q < N -> laid_out (base q) (allgather_program (alg q) counts N q)) ->
       (forall q, q < N -> allgather_final ports (alg q) (base q) alt counts N q = Some (prog q)) ->
       computes Nat.add N prog m (fun q mm => forall f i, f < N -> i < counts f -> mm (Recvbuf, first_of counts f + i) = m f (Sendbuf, i))).
Proof.
  intros H. assert (G := H ports6 counts6 (fun _ => base40) false mem6 prog6 laid6 prog6_is end6 0 end6_reached ltac:(cbn; lia) end6_finished 2 0 ltac:(cbn; lia) ltac:(cbn; lia)).
  change (first_of counts6 2 + 0) with 0 in G. rewrite end6_wrong in G. vm_compute in G. discriminate.
Qed.
Definition counts50 (q : nat) : nat := nth q [5; 0] 0.
Lemma laid50 q : q < node_count [1%Z] -> laid_out base40 (allgather_program (generate_recursive true [1%Z] q) counts50 (node_count [1%Z]) q).
Proof. intros H. destruct q as [|[|]]; [laid|laid|cbn in H; lia]. Qed.
Lemma no_elements_unset :
  ~ (forall ports counts base alt,
       let N := node_count ports in
       let alg := generate_recursive true ports in
       (forall q, q < N -> laid_out (base q) (allgather_program (alg q) counts N q)) ->
       forall q, q < N -> allgather_final ports (alg q) (base q) alt counts N q <> None).
Proof.
  intros H. apply (H [1%Z] counts50 (fun _ => base40) false laid50 0); [cbn; lia|]. vm_compute. reflexivity.
Qed.
