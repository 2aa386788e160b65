(* Broadcast with the recursive schedules, executed as generated code. *)
From Verif Require Import Base SchedModel SchedSpec SchedProofs RecursiveModel RecursiveSpec RecursiveArith RecursiveProofs ReduceProofs AllreduceProofs MatchProofs
  RawModel MsgProofs PhaseProofs RawCode RawStage RawProofs RawEnd RawSpec RawWhole RawInst RootModel RootSpec RootCode RootLive RootValue RootWhole RootRec
  BcastModel BcastSpec BcastLive BcastWhole BcastRec.
Local Ltac Zify.zify_post_hook ::= idtac.

Lemma copyout_equal b b' mc c : num_lines b = num_lines b' -> (forall n, frac (lines b n) = frac (lines b' n)) ->
  (forall n, existsb is_user (sendto (lines b n)) = existsb is_user (sendto (lines b' n))) -> copyout_all mc b c = copyout_all mc b' c.
Proof.
  intros E1 E2 E3. unfold copyout_all. rewrite E1.
  assert (X : forall l a, copyout_lines mc b c l a = copyout_lines mc b' c l a); [|now rewrite X].
  induction l as [|n l IH]; intros a; [reflexivity|]. cbn [copyout_lines]. now rewrite E2, E3, IH.
Qed.
Lemma strike_user es : existsb is_user (strike_nodes es) = existsb is_user es.
Proof.
  unfold strike_nodes. induction es as [|e es IH]; [reflexivity|]. cbn [map existsb]. rewrite IH. f_equal.
  destruct (Z.leb_spec 0 (fst e)); [|reflexivity]. unfold strike, is_user. cbn [fst].
  destruct (Z.eqb_spec (-10 - fst e) (-1)), (Z.eqb_spec (fst e) (-1)); lia.
Qed.
Lemma last_nth_block (l : list block) : last l empty_block = nth (length l - 1) l empty_block.
Proof.
  induction l as [|b [|b' l] IH]; auto. cbn [last] in *. rewrite IH at 1. cbn [length]. now replace (S (S (length l)) - 1) with (S (S (length l) - 1)) by lia.
Qed.

Section Out.
  Context (N root : nat) (alg : nat -> list block) (nb : nat) (Hb : 2 <= nb).
  Lemma fw_copyout mc c q : copyout_all mc (last (forward N root alg nb q) empty_block) c = copyout_all mc (block_at alg (nb - 1) q) c.
  Proof.
    rewrite last_nth_block, forward_length, forward_at by lia.
    assert (E : from_block root alg (nb - 1) q = block_at alg (nb - 1) q).
    { unfold from_block. destruct (Nat.eqb_spec (nb - 1) 0); [lia|reflexivity]. }
    assert (X : forall v2 v3 n, frac (forward_line (from_block root alg (nb - 1)) v2 v3 q n) = frac (lines (block_at alg (nb - 1) q) n) /\
      existsb is_user (sendto (forward_line (from_block root alg (nb - 1)) v2 v3 q n)) = existsb is_user (sendto (lines (block_at alg (nb - 1) q) n))).
    { intros v2 v3 n. unfold forward_line. rewrite E. destruct (snd _) as [r1 r2]. cbn [frac sendto]. split; auto. destruct (_ =? 0); auto. apply strike_user. }
    apply copyout_equal.
    - unfold forward_block. cbn [num_lines]. now rewrite E.
    - intros n. apply X.
    - intros n. apply X.
  Qed.
End Out.

Lemma bcast_exact {V} (op : V -> V -> V) down mid up root count (m : nat -> @memory V) :
  balanced down mid up ->
  let N := node_count (mid ++ up) in
  let ports := down ++ mid ++ up in
  root < N ->
  let prog := fun q => bcast_program (forward N root (generate_recursive false ports) (length ports + 2) q) count N root q in
  never_stuck op N prog m /\ leaves_nothing op N prog m /\ computes op N prog m (broadcast_by (moffset (split_count count N) root) root count m).
Proof.
  intros B N ports Hr prog. set (alg := generate_recursive false ports). set (nb := length ports + 2).
  assert (Np : 0 < N) by apply product_pos. set (mc := split_count count N).
  assert (ET : moffset mc N = count) by apply (split_sum count N Np).
  destruct (bc_all down mid up B root Hr) as (FINE & KNOWN).
  assert (LASTB : forall q n, q < N -> n < 2 * N -> output_line (block_at alg (nb - 1) q) n = if (N <=? n) && (n <? N + N) then Some (n mod N) else None).
  { intros q n Hq Hn. assert (E : frac (lines (block_at alg (nb - 1) q) n) = n mod N).
    { apply (ar_lay down mid up B); [unfold nb, ports; lia|exact Hq|]. change (n < num_lines (block_at alg (nb - 1) q)). unfold nb, alg. now rewrite (re_last down mid up B root Hr). }
    unfold output_line. rewrite E. clear E. unfold nb, alg, ports. rewrite (re_last down mid up B root Hr). fold N. unfold ar_last.
    destruct (last_outputs (fun x => blank (x mod N)) (fun l => l mod N) N N (2 * N) n (blanks_mod N)) as [_ X]. cbn zeta in X. now rewrite X. }
  assert (NL : forall q, num_lines (block_at alg (nb - 1) q) = 2 * N).
  { intros q. unfold nb, alg, ports. now rewrite (re_last down mid up B root Hr). }
  unfold broadcast_by. rewrite <- ET.
  apply (bcast_run op N root alg nb mc (fun _ n => n mod N)) with (src := fun j => (j + moffset mc root) mod moffset mc N).
  - exact Hr.
  - unfold nb; lia.
  - intros i. apply (re_tidy down mid up B root Hr).
  - intros q n. apply (bc_first down mid up B).
  - intros q. apply (re_untouched down mid up B root Hr).
  - apply (generated_allreduce_matched down mid up (nb - 1) B).
  - intros p q. apply (re_unsent down mid up B root Hr).
  - intros i Hi. apply (FINE i Hi).
  - intros i Hi. apply (FINE i Hi).
  - intros k q n. apply (ar_lay down mid up B).
  - intros q n _. apply Nat.mod_upper_bound. lia.
  - intros n i Fi Hi. apply (bc_filled0 down mid up B root Hr) in Fi. destruct Fi as [_ Hn]. fold N in Hn. rewrite Nat.mod_small in * by auto.
    rewrite off_modular by lia. rewrite ?(Nat.mod_small n N) by auto. split; [|reflexivity].
    assert (X := mo_le mc (S n) N ltac:(lia)). rewrite moffset_S in X. lia.
  - intros q n Hq Hn O. rewrite NL in Hn. rewrite LASTB in O by auto. destruct (Nat.leb_spec N n) as [H|H]; [|discriminate].
    replace n with ((n - N) + N) by lia. apply KNOWN; auto. fold N. lia.
  - intros q f Hq Hf. exists (f + N). rewrite NL. split; [lia|]. rewrite LASTB by (auto; lia).
    destruct (Nat.leb_spec N (f + N)) as [H|H]; [|lia]. destruct (Nat.ltb_spec (f + N) (N + N)) as [H'|H']; [|lia]. cbn [andb]. f_equal.
    rewrite <- (Nat.mul_1_l N) at 1. rewrite Nat.mod_add by lia. now apply Nat.mod_small.
  - intros q Hq. unfold prog, bcast_program, program2, between2, post_others. fold mc alg nb. rewrite fw_copyout by (unfold nb; lia). now rewrite ET.
Qed.

(* the first elements of the vector that the root leaves out at first *)
Lemma split_first count N root : root < N -> moffset (split_count count N) root = root * (count / N) + Nat.min root (count mod N).
Proof.
  intros H. assert (X : forall k, k <= N -> moffset (split_count count N) k = k * (count / N) + Nat.min k (count mod N)).
  { induction k as [|k IH]; intros Hk; [reflexivity|]. rewrite moffset_S, IH by lia. unfold split_count.
    generalize (count / N) (count mod N). intros a b. destruct (Nat.ltb_spec k b); nia. }
  apply X. lia.
Qed.
Lemma split_none count N root : root < N -> root = 0 \/ count <= root -> forall j, j < count -> (j + moffset (split_count count N) root) mod count = j.
Proof.
  intros Hr [->|H] j Hj.
  - rewrite split_first by auto. cbn. rewrite Nat.add_0_r. now apply Nat.mod_small.
  - rewrite split_first, (Nat.div_small count N), (Nat.mod_small count N) by lia. rewrite Nat.mul_0_r, Nat.min_r by lia. cbn [Nat.add].
    replace (j + count) with (j + 1 * count) by lia. rewrite Nat.mod_add by lia. now apply Nat.mod_small.
Qed.
Lemma split_some count N root : root < N -> 0 < root < count -> 0 < moffset (split_count count N) root < count.
Proof.
  intros Hr H. rewrite split_first by auto. assert (X := Nat.div_mod count N ltac:(lia)). assert (Y := Nat.mod_upper_bound count N ltac:(lia)).
  revert X Y. generalize (count / N) (count mod N). intros a b X Y. destruct a as [|a]; [nia|]. nia.
Qed.

Lemma bcast_shifted {V} (op : V -> V -> V) down mid up root count (m : nat -> @memory V) :
  balanced down mid up ->
  let N := node_count (mid ++ up) in
  let ports := down ++ mid ++ up in
  root < N ->
  let prog := fun q => bcast_program (forward N root (generate_recursive false ports) (length ports + 2) q) count N root q in
  never_stuck op N prog m /\ leaves_nothing op N prog m /\
  computes op N prog m (broadcast_by (root * (count / N) + Nat.min root (count mod N)) root count m).
Proof. intros B N ports Hr prog. rewrite <- split_first by exact Hr. now apply bcast_exact. Qed.

Lemma bcast_fits {V} (op : V -> V -> V) down mid up root count (m : nat -> @memory V) :
  balanced down mid up ->
  let N := node_count (mid ++ up) in
  let ports := down ++ mid ++ up in
  root < N -> root = 0 \/ count <= root ->
  let prog := fun q => bcast_program (forward N root (generate_recursive false ports) (length ports + 2) q) count N root q in
  never_stuck op N prog m /\ leaves_nothing op N prog m /\ computes op N prog m (broadcast root count m).
Proof.
  intros B N ports Hr H prog. destruct (bcast_exact op down mid up root count m B Hr) as (A1 & A2 & A3). split; [exact A1|]. split; [exact A2|].
  intros s q R Hq Fi. specialize (A3 s q R Hq Fi). unfold broadcast_by in A3. unfold broadcast. destruct (q =? root); auto.
  destruct A3 as (X & Y). split; auto. intros j Hj. rewrite X by auto. f_equal. f_equal. now apply split_none.
Qed.

Lemma bcast_fails {V} (op : V -> V -> V) down mid up root count (m : nat -> @memory V) :
  balanced down mid up ->
  let N := node_count (mid ++ up) in
  let ports := down ++ mid ++ up in
  root < N -> 0 < root < count ->
  (forall i j, i < count -> j < count -> i <> j -> m root (Recvbuf, i) <> m root (Recvbuf, j)) ->
  let prog := fun q => bcast_program (forward N root (generate_recursive false ports) (length ports + 2) q) count N root q in
  never_stuck op N prog m /\
  computes op N prog m (fun q new => q <> root -> forall j, j < count -> new (Recvbuf, j) <> m root (Recvbuf, j)).
Proof.
  intros B N ports Hr H D prog. destruct (bcast_exact op down mid up root count m B Hr) as (A1 & _ & A3). split; [exact A1|].
  intros s q R Hq Fi Dq j Hj. specialize (A3 s q R Hq Fi). unfold broadcast_by in A3. apply Nat.eqb_neq in Dq. rewrite Dq in A3.
  destruct A3 as (X & _). rewrite X by auto. assert (Y := split_some count N root Hr H). assert (Z := Nat.mod_upper_bound (j + moffset (split_count count N) root) count ltac:(lia)).
  apply D; auto. intros E. fold N in E. assert (W := Nat.div_mod (j + moffset (split_count count N) root) count ltac:(lia)). rewrite E in W.
  revert W. generalize ((j + moffset (split_count count N) root) / count). intros k W. destruct k as [|[|k]]; nia.
Qed.
