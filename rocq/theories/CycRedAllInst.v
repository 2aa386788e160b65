(* The code of the cyclic allreduce. *)
From Verif Require Import Base SchedModel SchedSpec SchedProofs MatchProofs CyclicSpec CycRedModel LooseSpec LooseChain CycRedDown CycRedScatter CycRedAll CycRedWhole
  RawModel MsgProofs PhaseProofs RawCode RawStage RawProofs RawEnd RawWhole RawInst LooseWhole RawSpec CycRedInst.
Local Ltac Zify.zify_post_hook ::= idtac.

Lemma minimal_0 N : minimal N [] -> N = 1.
Proof. intros (_ & [[_ E]|(r & p & E & _)]); auto. destruct r; discriminate. Qed.
Lemma minimal_pos N up : minimal N up -> 0 < N.
Proof. intros (_ & [[_ E]|(r & p & _ & E)]); lia. Qed.

Section All.
  Context (N : nat) (down up : list nat) (M : minimal N up).
  Local Notation alg := (cyclic_reduce N down up).
  Lemma all_matched m : well_matched N (fun q => nth m (alg q) empty_block).
  Proof.
    assert (HN := minimal_pos N up M). destruct up as [|p r] eqn:E; [now apply scatter_matched|]. rewrite <- E in *.
    apply whole_matched; auto. rewrite E. discriminate.
  Qed.
  Lemma all_length q : length (alg q) = length (alg 0).
  Proof.
    clear M. destruct up as [|p r] eqn:E; [now rewrite !scatter_blocks|]. clear E. rewrite !whole_blocks by discriminate. reflexivity.
  Qed.
  Lemma all_nb : 1 <= length (alg 0).
  Proof. clear M. unfold cyclic_reduce. destruct up; cbn [length]; lia. Qed.
  Lemma all_frac t n : t < N -> n < num_lines (last_block (alg t)) -> frac (lines (last_block (alg t)) n) < N.
  Proof.
    assert (HN := minimal_pos N up M). intros Ht. destruct up as [|p r] eqn:E.
    - apply minimal_0 in M. assert (Hd : N <= spread down) by (pose proof (spread_pos down); lia).
      assert (Row := down_row N down N (cr_first N) ltac:(lia) (first_row N)). rewrite (down_end down N HN Hd) in Row.
      rewrite (scatter_last N down t HN Hd). cbn [cr_last num_lines lines frac]. intros Hn. rewrite Row by auto. apply Nat.mod_upper_bound. lia.
    - rewrite <- E in *. apply whole_frac; auto. rewrite E. discriminate.
  Qed.
  Lemma all_solve {V} (op : V -> V -> V) (x : nat -> nat -> V) S :
    (forall a b c, op a (op b c) = op (op a b) c) -> (forall a b, op a b = op b a) ->
    (forall t, t < N -> placed (first_block (alg t)) (x t) (S 0 t)) ->
    loosely op N alg (length (alg 0)) S ->
    forall t, t < N -> delivered (last_block (alg t)) (fun f => f < N) (fun f => total op (fun k => x k f) N) (S (length (alg 0) - 1) t).
  Proof.
    assert (HN := minimal_pos N up M). intros Oa Oc P0 L t Ht. destruct up as [|p r] eqn:E.
    - apply minimal_0 in M. assert (Hd : N <= spread down) by (pose proof (spread_pos down); lia).
      destruct (scatter_solve op N down x S Oa Oc HN Hd P0 L t Ht) as [A B]. split.
      + intros n f Hn O. destruct (A n f Hn O) as [-> Y]. auto.
      + intros f Hf. apply B. lia.
    - rewrite <- E in *. apply whole_solve; auto. rewrite E. discriminate.
  Qed.
End All.

Section Allreduce.
  Context {V : Type} (op : V -> V -> V).
  Context (op_assoc : forall a b c, op a (op b c) = op (op a b) c) (op_comm : forall a b, op a b = op b a).
  Context (N : nat) (down up : list nat) (M : minimal N up) (count : nat).
  Local Notation alg := (cyclic_reduce N down up).
  Local Notation nb := (length (cyclic_reduce N down up 0)).
  Local Notation mc := (split_count count N).
  Local Notation size_of := (mmsizes mc N).
  Local Notation LL := (L N alg nb size_of (fun q => copyin_reduce N mc (nth 0 (alg q) empty_block))
     (fun q => copyout_all mc (nth (nb - 1) (alg q) empty_block) (moffset mc N))).

  Lemma ca_len : same_length N alg nb.
  Proof. intros t _. apply all_length. Qed.
  Lemma ca_tail q : q < N -> nth (nb - 1) (alg q) empty_block = last_block (alg q).
  Proof. intros Hq. unfold last_block. symmetry. apply (last_nth N alg nb); auto using ca_len, all_nb. Qed.
  Lemma ca_ok : phases_ok N (nb - 1) LL.
  Proof.
    apply (whole_ok N alg nb mc); auto using all_nb.
    - intros m _. now apply all_matched.
    - intros; apply copyin_quiet.
    - intros; apply copyout_quiet.
  Qed.
  Lemma ca_program p : p < N -> allreduce_program (alg p) count N p = phased (nb - 1) LL p.
  Proof.
    intros Hp. rewrite <- (whole_phased N alg nb mc); auto using all_nb, ca_len.
    - unfold allreduce_program, program, between. rewrite hd_first, (last_nth N alg nb); auto using ca_len, all_nb.
      rewrite split_sum by lia. reflexivity.
    - intros m _. now apply all_matched.
    - intros; apply copyin_quiet.
    - intros; apply copyout_quiet.
  Qed.
  Lemma ca_lock m q : q < N ->
    receives_only count (m q) (exec_list op (LL (nb - 1) q) (memat op LL m (nb - 1) q)) (fun j => total op (fun p => m p (Sendbuf, j)) N).
  Proof.
    intros Hq. rewrite <- (split_sum count N) at 1 by lia.
    apply (loose_allreduce_lock op N alg nb mc); auto using all_nb, ca_len.
    - intros k _. now apply all_matched.
    - intros q' n _ _. cbv beta. rewrite scatter_head. cbn [cr_first lines frac]. apply Nat.mod_upper_bound. lia.
    - intros q' n Hq' Hn. cbv beta in *. rewrite ca_tail in * by auto. now apply all_frac.
    - intros q' n f Hq' Hn _. cbv beta in *. rewrite scatter_head in *. cbn [cr_first num_lines] in Hn. now apply first_room.
    - intros x S P0 L t Ht. now apply all_solve.
  Qed.

  Lemma cyclic_allreduce_run (m : nat -> @memory V) :
    let prog := fun q => allreduce_program (alg q) count N q in
    never_stuck op N prog m /\ leaves_nothing op N prog m /\
    computes op N prog m (fun q mm => receives_only count (m q) mm (fun j => total op (fun p => m p (Sendbuf, j)) N)).
  Proof.
    intros prog. assert (OK := ca_ok). assert (PR : forall p, p < N -> prog p = phased (nb - 1) LL p) by apply ca_program.
    split; [|split].
    - eapply once_progress; eauto.
    - eapply once_clean; eauto.
    - eapply once_result; eauto. intros q mm Hq E. eapply receives_only_ext; [exact E|]. now apply ca_lock.
  Qed.
End Allreduce.

Lemma cyclic_allreduce_correct {V} (op : V -> V -> V) N down up (x st : nat -> nat -> V) :
  (forall a b c, op a (op b c) = op (op a b) c) -> (forall a b, op a b = op b a) -> minimal N up ->
  (forall t, t < N -> placed (first_block (cyclic_reduce N down up t)) (x t) (st t)) ->
  forall t, t < N -> delivered (last_block (cyclic_reduce N down up t)) (fun f => f < N) (fun f => total op (fun k => x k f) N)
    (execute op N (cyclic_reduce N down up) (length (cyclic_reduce N down up t)) st t).
Proof.
  intros Oa Oc M P t Ht. rewrite all_length. set (nb := length (cyclic_reduce N down up 0)).
  destruct (execute_loosely op N (cyclic_reduce N down up) nb st) as (S & E0 & L & E); [apply all_nb|].
  subst st. assert (D := all_solve N down up M op x S Oa Oc P L t Ht). fold nb in D.
  destruct D as [A B]. split; auto. intros n f Hn O. rewrite <- E. now apply A.
Qed.

(* what get_lines_used and delete_lines look up *)
Lemma lines_used_bounds N down up t : minimal N up -> up <> [] -> t < N ->
  let first := cr_first N t in
  let middle := last (cr_down N N N down t first) first in
  let us := cr_up N (fold_left shrink down N) 1 up t middle in
  let NL := num_lines (cr_last (num_lines (last us middle)) (last us middle)) in
  forall b n, In b us -> n < num_lines b ->
    n < NL /\ Forall (fun e => snd e < NL) (sendto (lines b n)) /\
    Forall (fun r => r < NL) (firstn 1 (reducefrom (lines b n)) ++ firstn 1 (map snd (recvfrom (lines b n)))).
Proof.
  intros M Ne Ht first middle us NL b n I Hn. assert (HN := minimal_pos N up M).
  assert (Em : middle = last (down_fam N N N down (cr_first N)) (cr_first N) t).
  { unfold middle, first. now rewrite (down_at N down N N (cr_first N) t), last_at_node. }
  assert (Eu : us = at_node t (up_fam N (fold_left shrink down N) 1 up (last (down_fam N N N down (cr_first N)) (cr_first N)))).
  { unfold us. rewrite Em. apply up_at. }
  assert (El : NL = num_lines (last (up_fam N (fold_left shrink down N) 1 up (last (down_fam N N N down (cr_first N)) (cr_first N))) (last (down_fam N N N down (cr_first N)) (cr_first N)) t)).
  { unfold NL. cbn [cr_last num_lines]. now rewrite Eu, Em, last_at_node. }
  rewrite Eu in I. destruct (delete_bounds N down up HN Ne M t b n Ht I Hn) as (A & B & C). rewrite El. split; auto. split; auto.
  eapply Forall_impl; [|exact C]. intros m Hm. cbv beta in Hm. lia.
Qed.
