(* The code of the cyclic reduce_scatter. *)
From Verif Require Import Base SchedModel SchedSpec SchedProofs MatchProofs CyclicSpec CycRedModel LooseSpec LooseChain CycRedDown CycRedScatter
  RawModel MsgProofs PhaseProofs RawCode RawStage RawProofs RawEnd RawWhole RawInst LooseWhole RawSpec.
Local Ltac Zify.zify_post_hook ::= idtac.

Lemma seq_from k : forall a, map (fun i => a + i) (seq 0 k) = seq a k.
Proof.
  induction k as [|k IH]; intros a; [reflexivity|]. cbn [seq map]. rewrite Nat.add_0_r. f_equal.
  rewrite <- seq_shift, map_map, <- (IH (S a)). apply map_ext. intros i. lia.
Qed.
(* the lines of the first block fill the vector, beginning anywhere *)
Lemma off_turned mc N q : q < N -> off (mmsizes mc N) (fun l => (l + q) mod N) N = moffset mc N.
Proof.
  intros Hq. rewrite moffset_off. unfold off.
  replace (seq 0 N) with (seq 0 (N - q) ++ seq (N - q) q) at 1 by (rewrite <- seq_app; f_equal; lia).
  replace (seq 0 N) with (seq 0 q ++ seq q (N - q)) at 1 by (rewrite <- seq_app; f_equal; lia).
  rewrite !map_app, !sum_app, Nat.add_comm. f_equal.
  - replace (seq (N - q) q) with (map (fun k => N - q + k) (seq 0 q)).
    + rewrite map_map. f_equal. apply map_ext_in. intros k Hk. apply in_seq in Hk. unfold sz, mmsizes.
      replace (N - q + k + q) with (k + 1 * N) by lia. rewrite Nat.mod_add, !Nat.mod_small by (rewrite ?Nat.mod_small; lia). reflexivity.
    + apply seq_from.
  - replace (seq q (N - q)) with (map (fun k => q + k) (seq 0 (N - q))).
    + rewrite map_map. f_equal. apply map_ext_in. intros k Hk. apply in_seq in Hk. unfold sz, mmsizes.
      rewrite (Nat.mod_small (k + q)) by lia. rewrite Nat.mod_small by lia. f_equal. lia.
    + apply seq_from.
Qed.
Lemma first_room mc N q n : q < N -> n < N -> off (mmsizes mc N) (fun l => (l + q) mod N) (S n) <= moffset mc N.
Proof. intros Hq Hn. rewrite <- (off_turned mc N q Hq). apply off_le. lia. Qed.

Lemma scatter_head N down up q : nth 0 (cyclic_reduce N down up q) empty_block = cr_first N q.
Proof. unfold cyclic_reduce. destruct up; reflexivity. Qed.

Section Scatter.
  Context {V : Type} (op : V -> V -> V).
  Context (op_assoc : forall a b c, op a (op b c) = op (op a b) c) (op_comm : forall a b, op a b = op b a).
  Context (N : nat) (down : list nat) (HN : 0 < N) (Hd : N <= spread down) (mc : nat -> nat).
  Local Notation alg := (cyclic_reduce N down []).
  Local Notation nb := (length (cyclic_reduce N down [] 0)).
  Local Notation size_of := (mmsizes mc N).
  Local Notation LL := (L N alg nb size_of (fun q => copyin_reduce N mc (nth 0 (alg q) empty_block))
     (fun q => copyout_own mc (nth (nb - 1) (alg q) empty_block) (mc q))).

  Lemma sc_len : same_length N alg nb.
  Proof. intros t _. now rewrite !scatter_blocks. Qed.
  Lemma sc_nb : 1 <= nb.
  Proof. rewrite scatter_blocks. lia. Qed.
  Lemma sc_match m : well_matched N (fun q => nth m (alg q) empty_block).
  Proof. now apply scatter_matched. Qed.
  Lemma sc_tail q : q < N -> nth (nb - 1) (alg q) empty_block = last_block (alg q).
  Proof. intros Hq. unfold last_block. symmetry. apply (last_nth N alg nb); auto using sc_len, sc_nb. Qed.
  Lemma sc_ok : phases_ok N (nb - 1) LL.
  Proof.
    apply (whole_ok N alg nb mc); auto using sc_nb.
    - intros m _. apply sc_match.
    - intros; apply copyin_quiet.
    - intros; apply own_quiet.
  Qed.
  Lemma sc_program p : p < N -> reduce_scatter_program (alg p) mc N p = phased (nb - 1) LL p.
  Proof.
    intros Hp. rewrite <- (whole_phased N alg nb mc); auto using sc_nb, sc_len.
    - unfold reduce_scatter_program, program, between. rewrite hd_first, (last_nth N alg nb); auto using sc_len, sc_nb.
    - intros m _. apply sc_match.
    - intros; apply copyin_quiet.
    - intros; apply own_quiet.
  Qed.
  Lemma sc_lock m q : q < N ->
    receives_only (mc q) (m q) (exec_list op (LL (nb - 1) q) (memat op LL m (nb - 1) q))
      (fun j => total op (fun p => m p (Sendbuf, moffset mc q + j)) N).
  Proof.
    intros Hq. apply (loose_reduce_scatter_lock op N alg nb mc) with (out_n := fun _ => 0); auto using sc_nb, sc_len.
    - intros k _. apply sc_match.
    - intros q' n _ _. cbv beta. rewrite scatter_head. cbn [cr_first lines frac]. apply Nat.mod_upper_bound. lia.
    - intros q' n Hq' Hn. cbv beta in *. rewrite sc_tail in * by auto.
      assert (n < 1) by (rewrite (scatter_last N down q' HN Hd) in Hn; exact Hn).
      assert (O := scatter_out N down q' HN Hd Hq' n H). unfold output_line in O. destruct (existsb _ _); [|discriminate].
      assert (E : frac (lines (last_block (alg q')) n) = q') by congruence. now rewrite E.
    - intros q' n f Hq' Hn _. cbv beta in *. rewrite scatter_head in *. cbn [cr_first num_lines] in Hn. now apply first_room.
    - intros q' Hq'. cbv beta. rewrite sc_tail by auto. split; [|split].
      + rewrite (scatter_last N down q' HN Hd). cbn. lia.
      + apply scatter_out; auto.
      + intros n Hn. lia.
    - intros x S P0 L t Ht. now apply scatter_solve.
  Qed.

  Lemma cyclic_scatter_run (m : nat -> @memory V) :
    let prog := fun q => reduce_scatter_program (alg q) mc N q in
    never_stuck op N prog m /\ leaves_nothing op N prog m /\
    computes op N prog m (fun q mm =>
      receives_only (mc q) (m q) mm (fun j => total op (fun p => m p (Sendbuf, first_of mc q + j)) N)).
  Proof.
    intros prog. assert (OK := sc_ok). assert (PR : forall p, p < N -> prog p = phased (nb - 1) LL p) by apply sc_program.
    split; [|split].
    - eapply once_progress; eauto.
    - eapply once_clean; eauto.
    - eapply once_result; eauto. intros q mm Hq E. rewrite <- moffset_first. eapply receives_only_ext; [exact E|]. now apply sc_lock.
  Qed.
End Scatter.

Lemma cyclic_scatter_correct {V} (op : V -> V -> V) N down (x st : nat -> nat -> V) :
  (forall a b c, op a (op b c) = op (op a b) c) -> (forall a b, op a b = op b a) -> 0 < N -> N <= spread down ->
  (forall t, t < N -> placed (first_block (cyclic_reduce N down [] t)) (x t) (st t)) ->
  forall t, t < N -> delivered (last_block (cyclic_reduce N down [] t)) (fun f => f = t) (fun f => total op (fun k => x k f) N)
    (execute op N (cyclic_reduce N down []) (length (cyclic_reduce N down [] t)) st t).
Proof.
  intros Oa Oc HN Hd P t Ht. set (nb := length (cyclic_reduce N down [] 0)).
  replace (length (cyclic_reduce N down [] t)) with nb by (unfold nb; now rewrite !scatter_blocks).
  destruct (execute_loosely op N (cyclic_reduce N down []) nb st) as (S & E0 & L & E).
  { unfold nb. rewrite scatter_blocks. lia. }
  subst st. assert (D := scatter_solve op N down x S Oa Oc HN Hd P L t Ht). fold nb in D.
  destruct D as [A B]. split; auto. intros n f Hn O. rewrite <- E. now apply A.
Qed.
