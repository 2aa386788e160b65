(* Reduce and Gather with the recursive schedules, executed as generated code. *)
From Verif Require Import Base SchedModel SchedSpec SchedProofs RecursiveModel RecursiveSpec RecursiveArith RecursiveProofs ReduceProofs AllreduceProofs MatchProofs
  RawModel MsgProofs PhaseProofs RawCode RawStage RawProofs RawEnd RawSpec RawWhole RawInst RootModel RootSpec RootCode RootLive RootValue RootWhole RootRec.
Local Ltac Zify.zify_post_hook ::= idtac.

Lemma reduce_run {V} (op : V -> V -> V) down mid up root count (m : nat -> @memory V) :
  (forall a b c, op a (op b c) = op (op a b) c) -> (forall a b, op a b = op b a) ->
  balanced down mid up ->
  let N := node_count (mid ++ up) in
  let ports := down ++ mid ++ up in
  root < N ->
  let prog := fun q => reduce_program (backward N root (generate_recursive false ports) (length ports + 2) q) count N root q in
  never_stuck op N prog m /\ leaves_nothing op N prog m /\ computes op N prog m (reduced_at op N root count m).
Proof.
  intros A C B N ports Hr prog. set (alg := generate_recursive false ports). set (nb := length ports + 2).
  assert (Np : 0 < N) by apply product_pos. set (mc := split_count count N).
  destruct (re_whole down mid up B root Hr) as (WH & CU).
  assert (SL := generated_allreduce_same_length down mid up B N).
  rewrite <- (split_sum count N Np).
  apply (reduce_rooted op N root alg nb mc (fun _ n => n mod N)).
  - exact Hr.
  - unfold nb; lia.
  - exact SL.
  - intros i. apply (re_tidy down mid up B root Hr).
  - intros q. apply (re_untouched down mid up B root Hr).
  - apply (generated_allreduce_matched down mid up (nb - 1) B).
  - intros p q. apply (re_unsent down mid up B root Hr).
  - exact WH.
  - exact CU.
  - intros k q n. apply (ar_lay down mid up B).
  - intros q n _. apply Nat.mod_upper_bound. lia.
  - intros q n f Hq Hn I. unfold block_at in I. rewrite (ar_first down mid up B) in I. now apply rs_first_room with f.
  - intros x st P t Ht. unfold nb, ports. rewrite <- (SL t Ht). apply generated_allreduce; auto.
  - intros q Hq. unfold prog, reduce_program, reduce_code, program2, between2, post_root. fold mc. fold alg. fold nb.
    rewrite bw_first, bw_copyout by (unfold nb; lia). replace (moffset mc N) with count by (symmetry; apply (split_sum count N Np)).
    f_equal. apply copyin_same.
    + apply bw_num. unfold nb; lia.
    + intros n. apply bw_frac. unfold nb; lia.
Qed.

Lemma gather_run {V} (op : V -> V -> V) ports root counts (m : nat -> @memory V) :
  let N := node_count ports in
  root < N ->
  let prog := fun q => gather_program (backward N root (generate_recursive true ports) (length ports + 2) q) counts N root q in
  never_stuck op N prog m /\ leaves_nothing op N prog m /\ computes op N prog m (gathered_at N root counts m).
Proof.
  intros N Hr prog. set (alg := generate_recursive true ports). set (nb := length ports + 2).
  assert (Np : 0 < N) by apply product_pos.
  destruct (ga_parts ports root Hr) as (WH & CU).
  apply (gather_rooted op N root alg nb counts (fun _ n => n mod N)) with (in_n := fun q => q).
  - exact Hr.
  - unfold nb; lia.
  - apply ag_len.
  - intros i. apply (ga_tidy ports root Hr).
  - intros q. apply (ga_untouched ports root Hr).
  - apply ag_match.
  - intros p q. apply (ga_unsent ports root Hr).
  - exact WH.
  - exact CU.
  - intros k q n. apply (ag_lay ports).
  - intros q n _. apply Nat.mod_upper_bound. lia.
  - intros q' Hq'. unfold block_at, alg. rewrite ag_head. split; [exact Hq'|]. split; [now apply ag_first_input|].
    intros n _ D. destruct (input_line (ag_first (node_count ports) q') n) eqn:E; auto. apply ag_first_input in E; auto. intros; lia.
  - intros x st P t Ht. unfold nb. rewrite <- (ag_len ports N t Ht). apply generated_allgather; auto.
  - intros q Hq. unfold prog, gather_program, gather_code, program2, between2, post_root. fold alg. fold nb.
    rewrite bw_first, bw_copyout by (unfold nb; lia).
    f_equal. apply gather_same.
    + apply bw_num. unfold nb; lia.
    + intros n. apply bw_frac. unfold nb; lia.
    + intros n Hn. now apply (ga_input ports root Hr).
Qed.

Lemma reduce_by_rank_same {V} (op : V -> V -> V) down mid up rows root count (m : nat -> @memory V) :
  (forall a b c, op a (op b c) = op (op a b) c) -> (forall a b, op a b = op b a) ->
  balanced down mid up -> 0 < rows ->
  let N := node_count (mid ++ up) in
  let ports := down ++ mid ++ up in
  root < N -> root / rows = root ->
  let prog := fun q => reduce_by_rank (generate_recursive false ports) (length ports + 2) count N rows root q in
  never_stuck op N prog m /\ leaves_nothing op N prog m /\ computes op N prog m (reduced_at op N (root / rows) count m).
Proof. intros A C B _ N ports Hr E. unfold reduce_by_rank. rewrite E. now apply reduce_run. Qed.
