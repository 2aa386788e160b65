(* Claim C29: the passes that remove socket barriers. *)
From Verif Require Import Base BarPassModel BarPassSpec BarPassProofs.

(* The clean-up ends, on all cores, exactly if all cores have the same number of
   barriers. *)
Theorem C29_clean_up_ends : forall cores,
  (exists cores', clean_barriers cores = Some cores') <-> (forall p q, In p cores -> In q cores -> bars p = bars q).
Proof. exact clean_terminates. Qed.
Print Assumptions C29_clean_up_ends.
(* It removes nothing but barriers and idle lines. *)
Theorem C29_instructions_kept : forall cores cores', clean_barriers cores = Some cores' ->
  length cores' = length cores /\
  forall r p p', nth_error cores r = Some p -> nth_error cores' r = Some p' -> ops p' = ops p /\ bars p' <= bars p.
Proof. exact clean_ops. Qed.
Print Assumptions C29_instructions_kept.
(* All cores keep the same number of barriers. *)
Theorem C29_cores_agree : forall cores cores', clean_barriers cores = Some cores' ->
  forall p q, In p cores' -> In q cores' -> bars p = bars q.
Proof. exact clean_agree. Qed.
Print Assumptions C29_cores_agree.
(* Instructions of any two cores that were separated by a barrier still are. *)
Theorem C29_separation_kept : forall cores cores', clean_barriers cores = Some cores' -> order_kept cores cores'.
Proof. exact clean_order. Qed.
Print Assumptions C29_separation_kept.

(* The first barrier, which separates from the previous execution, is kept. *)
Theorem C29_first_barrier_kept : forall cores cores' r a b p', clean_barriers cores = Some cores' ->
  nth_error cores r = Some (a ++ Bar :: b) -> bars a = 0 -> nth_error cores' r = Some p' ->
  exists b', p' = map Op (ops a) ++ Bar :: b'.
Proof. exact clean_first_kept. Qed.
Print Assumptions C29_first_barrier_kept.
Example C29_first_example : clean_barriers [[Idle; Bar; Op 1]; [Bar; Bar; Op 2]] = None /\
  clean_barriers [[Idle; Bar; Idle; Bar; Op 1]; [Bar; Bar; Op 2]] = Some [[Bar; Op 1]; [Bar; Op 2]].
Proof. split; reflexivity. Qed.

Example C29_example :
  clean_barriers [[Op 1; Bar; Bar; Idle; Bar; Op 2]; [Idle; Bar; Bar; Op 3; Bar; Op 4]] =
  Some [[Op 1; Bar; Bar; Op 2]; [Bar; Op 3; Bar; Op 4]] /\
  separated [Op 1; Bar; Bar; Idle; Bar; Op 2] 0 [Idle; Bar; Bar; Op 3; Bar; Op 4] 0.
Proof.
  split; [reflexivity|]. exists 0, 2. rewrite !nb_spec. auto.
Qed.
Example C29_mismatch : clean_barriers [[Op 1; Bar; Op 2]; [Op 3]] = None.
Proof. reflexivity. Qed.

(* Dropping the first barrier keeps everything else. *)
Theorem C29_first_barrier_dropped :
  forall p, ops (no_first_barrier p) = ops p /\ bars (no_first_barrier p) = pred (bars p).
Proof. exact first_ops. Qed.
Print Assumptions C29_first_barrier_dropped.
Theorem C29_separation_behind_first_barrier :
  forall p q i j n m, barriers_before p i n -> barriers_before q j m -> 0 < n < m ->
  separated (no_first_barrier p) i (no_first_barrier q) j.
Proof. exact first_order. Qed.
Print Assumptions C29_separation_behind_first_barrier.
Example C29_separation_example : barriers_before [Bar; Op 1; Bar; Op 2] 0 1 /\ barriers_before [Bar; Op 1; Bar; Op 2] 1 2.
Proof. rewrite !nb_spec. auto. Qed.

(* It is not redundant if a core works before it. *)
Theorem C29_first_barrier_redundant_refuted :
  exists p q, separated p 0 q 1 /\ ~ separated (no_first_barrier p) 0 (no_first_barrier q) 1.
Proof.
  exists [Op 1; Bar; Op 2], [Op 1; Bar; Op 2]. split.
  - exists 0, 1. rewrite !nb_spec. auto.
  - intros (n & m & N & M & L). rewrite nb_spec in N, M. cbn in N, M. inversion N; inversion M; subst. lia.
Qed.
Print Assumptions C29_first_barrier_redundant_refuted.

(* A single core needs no barriers; more than one is refused. *)
Theorem C29_single_core : forall p p', no_socket_barriers 1 p = Some p' -> ops p' = ops p /\ bars p' = 0.
Proof. exact none_ops. Qed.
Print Assumptions C29_single_core.
Theorem C29_more_cores_refused : forall n p, n <> 1 -> no_socket_barriers n p = None.
Proof. intros n p H. unfold no_socket_barriers. apply Nat.eqb_neq in H. rewrite H. reflexivity. Qed.
Print Assumptions C29_more_cores_refused.
