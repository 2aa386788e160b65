(* The exchange executed by all cores of all nodes does what the exchange
   executed by one core per node does. *)
From Coq Require Import Permutation.
From Verif Require Import Base SchedModel SchedSpec RawModel RawSpec MsgProofs RawCode RawStage RawProofs RawEnd.
From Verif Require Import PhaseProofs RawWhole RawInst RawRepeat.
From Verif Require Import CoresModel CoresSpec CoresProofs CoresInst.
From Verif Require Import MultiModel MultiSpec MultiSim MultiRun MultiCode MultiCores.
Local Ltac Zify.zify_post_hook ::= idtac.

(* ---------- what raw_code_tasks_node.c deals out ---------- *)
Definition who (N : nat) (perm : list nat) (c : nat) (blk : nat -> block) (p q : nat) : nat :=
  duty c (smark N perm blk p) (gap N perm p q).
Section Deal.
  Context (N : nat) (perm : list nat) (Hperm : Permutation perm (seq 0 N)) (c : nat) (Hc : 0 < c) (blk : nat -> block)
          (WM : well_matched N blk) (Rot : rotating N (fun x => nth x perm 0) blk).
  Lemma dealt_cores : dealt_out N c blk (core_block N perm c blk) (who N perm c blk).
  Proof.
    split; [intros p q; now apply duty_lt|]. intros p r Hp Hr. rewrite core_at by auto. split; [reflexivity|]. split; [repeat split|].
    intros n Hn. rewrite <- core_at by auto. rewrite core_sendto, core_recvfrom by auto. split; apply map_ext_in; intros e I.
    - unfold sent_entry, deal. f_equal. destruct (entry_ok N perm c Hc blk WM p n e Hp Hn (in_or_app _ _ _ (or_introl I))) as [E|(q & Hq & D & E)]; rewrite E; [reflexivity|].
      replace (zz q <? 0)%Z with false by (symmetry; apply Z.ltb_ge; unfold zz; lia). replace (Z.to_nat (zz q)) with q by (unfold zz; lia). apply send_value; auto.
      pose proof (gap_pos N perm Hperm c Hc p q Hp Hq ltac:(auto)). apply (smark_gap N perm Hperm c Hc blk WM); [auto|lia|].
      exists q. repeat split; auto. apply (sends_entry perm c Hc). exists n, e. auto.
    - unfold recv_entry, deal. f_equal. destruct (entry_ok N perm c Hc blk WM p n e Hp Hn (in_or_app _ _ _ (or_intror I))) as [E|(q & Hq & D & E)]; rewrite E; [reflexivity|].
      replace (zz q <? 0)%Z with false by (symmetry; apply Z.ltb_ge; unfold zz; lia). replace (Z.to_nat (zz q)) with q by (unfold zz; lia).
      assert (S : sent_lines blk q p <> []). { apply paired with (N := N); auto. apply (recvs_entry perm c Hc). exists n, e. auto. }
      unfold who. rewrite (same_duty N perm Hperm c Hc blk WM Rot q p) by auto. apply recv_value; auto.
      pose proof (gap_pos N perm Hperm c Hc q p Hq Hp D). apply (rmark_gap N perm Hperm c Hc blk WM); [auto|lia|].
      exists q. repeat split; auto.
  Qed.
End Deal.

(* ---------- the whole exchange ---------- *)
Section Exchange.
  Context {V : Type} (op : V -> V -> V) (N c : nat) (Hc : 0 < c) (alg calg : nat -> list block) (blocks : nat) (size_of : nat -> nat)
          (duties : nat -> nat -> nat -> nat).
  Context (Hb : 1 <= blocks) (SL : same_length N alg blocks) (SLc : same_length (N * c) calg blocks).
  Local Notation blk k := (fun q => nth k (alg q) empty_block).
  Context (WM : forall k, 1 <= k < blocks -> well_matched N (blk k)).
  Context (Deal : forall k, 1 <= k < blocks -> dealt_out N c (blk k) (fun q => nth k (calg q) empty_block) (duties k)).

  Lemma list_nth {A} (l : list A) d : l = map (fun k => nth k l d) (seq 0 (length l)).
  Proof.
    induction l as [|x l IH]; [reflexivity|]. cbn [length seq map nth]. f_equal. rewrite IH at 1. rewrite <- seq_shift, map_map. reflexivity.
  Qed.
  Lemma tail_nth (l : list block) n : length l = n -> 1 <= n -> tl l = map (fun k => nth k l empty_block) (seq 1 (n - 1)).
  Proof.
    intros <- L. destruct l as [|x l]; [cbn in L; lia|]. cbn [tl length]. rewrite Nat.sub_succ, Nat.sub_0_r. rewrite (list_nth l empty_block) at 1.
    rewrite <- seq_shift, map_map. reflexivity.
  Qed.
  Definition staged (p : nat) : list ((nat -> nat -> nat) * block) := map (fun k => (duties k, nth k (alg p) empty_block)) (seq 1 (blocks - 1)).
  Lemma staged_blocks p : p < N -> map snd (staged p) = tl (alg p).
  Proof. intros Hp. unfold staged. rewrite map_map. cbn [snd]. symmetry. now apply tail_nth; [apply SL|]. Qed.
  Definition segs (p : nat) : list segment := whole_segs size_of N p (staged p).

  Lemma fine k p n : 1 <= k < blocks -> p < N -> n < num_lines (nth k (alg p) empty_block) ->
    Forall (entry_fine N p) (sendto (lines (nth k (alg p) empty_block) n) ++ recvfrom (lines (nth k (alg p) empty_block) n)).
  Proof. intros Hk Hp Hn. apply Forall_forall. intros e I. exact (entry_ok N [] c Hc (blk k) (WM k Hk) p n e Hp Hn I). Qed.

  Lemma stage_core k p r (first : bool) : 1 <= k < blocks -> p < N -> r < c ->
    translated (core_block_code size_of (N * c) (p * c + r) (r =? 0) (nth k (calg (p * c + r)) empty_block) first) =
    (if first then [] else [Barrier]) ++ join_core c r (block_segs size_of N p (duties k) (nth k (alg p) empty_block)).
  Proof.
    intros Hk Hp Hr. destruct (Deal k Hk) as [_ D]. destruct (D p r Hp Hr) as (D1 & D2 & D3).
    apply core_block_segs; auto. intros n Hn. now apply fine.
  Qed.
  Lemma later_core_code p r : p < N -> r < c -> forall ks, (forall k, In k ks -> 1 <= k < blocks) ->
    later_core c r (later_segs size_of N p (map (fun k => (duties k, nth k (alg p) empty_block)) ks)) =
    translated (core_blocks_code size_of (N * c) (p * c + r) (r =? 0) (map (fun k => nth k (calg (p * c + r)) empty_block) ks) false).
  Proof.
    intros Hp Hr ks. unfold later_segs. induction ks as [|k ks IH]; intros B.
    - cbn [map flat_map app later_core core_blocks_code]. unfold seg_core. cbn. now destruct (r =? 0).
    - cbn [map flat_map core_blocks_code]. rewrite <- app_assoc, later_core_app, translated_app, IH by (intros; apply B; now right). f_equal.
      rewrite stage_core by (auto; apply B; now left). cbn [app]. unfold one_stage. cbn [fst snd]. apply later_core_join, block_segs_some.
  Qed.
  Lemma segs_core p r : p < N -> r < c ->
    join_core c r (segs p) = translated (core_blocks_code size_of (N * c) (p * c + r) (r =? 0) (tl (calg (p * c + r))) true).
  Proof.
    intros Hp Hr. rewrite (tail_nth (calg (p * c + r)) blocks) by (auto; apply SLc; apply rank_lt; auto).
    unfold segs, staged. assert (B : forall k, In k (seq 1 (blocks - 1)) -> 1 <= k < blocks) by (intros k I; apply in_seq in I; lia).
    destruct (seq 1 (blocks - 1)) as [|k ks].
    - cbn [map whole_segs core_blocks_code]. cbn. unfold seg_core. cbn. now destruct (r =? 0).
    - cbn [map whole_segs core_blocks_code]. unfold later_segs. cbn [flat_map]. rewrite <- app_assoc. unfold one_stage at 1. cbn [fst snd].
      rewrite join_core_app by apply block_segs_some. rewrite translated_app, stage_core by (auto; apply B; now left).
      cbn [app]. f_equal. apply later_core_code; auto. intros; apply B; now right.
  Qed.
  Lemma segs_match p q : p < N -> q < N -> tags q (sends_in (all_posts (segs p))) = tags p (recvs_in (all_posts (segs q))).
  Proof.
    intros Hp Hq. unfold segs. rewrite !whole_segs_posts. unfold staged. assert (B : forall k, In k (seq 1 (blocks - 1)) -> 1 <= k < blocks) by (intros k I; apply in_seq in I; lia).
    induction (seq 1 (blocks - 1)) as [|k ks IH]; [reflexivity|]. cbn [map flat_map]. rewrite sends_app, recvs_app, !tags_app, IH by (intros; apply B; now right).
    f_equal. cbn [fst snd]. assert (Dk : forall i j, duties k i j < c) by (apply (Deal k); apply B; now left).
    rewrite (stage_sent _ _ _ _ c), (stage_recv _ _ _ _) by auto.
    destruct (Nat.eq_dec p q) as [->|D].
    - rewrite recv_size_self. unfold ssize. rewrite slines_self. reflexivity.
    - rewrite <- (sizes_match N alg blocks size_of WM k p q) by (auto; apply B; now left). reflexivity.
  Qed.

  Definition node_prog q := blocks_code size_of N q (tl (alg q)) true.
  Definition core_prog k := translated (core_blocks_code size_of (N * c) k (k mod c =? 0) (tl (calg k)) true).
  Theorem exchange_cores (m : nat -> @memory V) :
    (never_stuck op N node_prog m -> cnever_stuck op N c core_prog m) /\
    (leaves_nothing op N node_prog m -> cleaves_nothing op N c core_prog m) /\
    (forall result, computes op N node_prog m result -> ccomputes op N c core_prog m result).
  Proof.
    set (first p := match segs p with s :: _ => s | [] => quiet_seg end). set (rest p := tl (segs p)).
    assert (Split : forall p, first p :: rest p = segs p).
    { intros p. unfold first, rest. pose proof (whole_segs_some size_of N p (staged p)) as Z. fold (segs p) in Z. destruct (segs p); [congruence|reflexivity]. }
    assert (Hgood : forall p, p < N -> good N c (first p :: rest p)).
    { intros p Hp. rewrite Split. apply whole_segs_good; auto. intros x i j I. unfold staged in I. apply in_map_iff in I. destruct I as (k & <- & I).
      apply in_seq in I. apply (Deal k). lia. }
    assert (Hmatch : forall p q, p < N -> q < N -> tags q (sends_in (all_posts (first p :: rest p))) = tags p (recvs_in (all_posts (first q :: rest q)))).
    { intros p q Hp Hq. rewrite !Split. now apply segs_match. }
    assert (Hn : forall p, p < N -> node_prog p = seg_code (first p) ++ later_code (rest p)).
    { intros p Hp. unfold node_prog. rewrite <- staged_blocks, <- whole_segs_code by auto. fold (segs p). now rewrite <- Split. }
    assert (Hcp : forall p r, p < N -> r < c -> core_prog (p * c + r) = seg_core c r (first p) ++ later_core c r (rest p)).
    { intros p r Hp Hr. unfold core_prog. replace ((p * c + r) mod c) with r by (rewrite Nat.add_comm, Nat.mod_add, Nat.mod_small; lia).
      rewrite <- segs_core by auto. now rewrite <- Split. }
    split; [|split].
    - exact (multi_never_stuck op N c Hc first rest Hgood Hmatch node_prog core_prog Hn Hcp m).
    - exact (multi_leaves_nothing op N c Hc first rest Hgood Hmatch node_prog core_prog Hn Hcp m).
    - exact (multi_computes op N c Hc first rest Hgood Hmatch node_prog core_prog Hn Hcp m).
  Qed.
End Exchange.

(* ---------- with what raw_code_tasks_node.c deals out ---------- *)
Lemma nth_tasks N perm p c r l : forall k, nth k (map (tasks_node N perm p c r) l) empty_block = tasks_node N perm p c r (nth k l empty_block) \/ length l <= k.
Proof. intros k. destruct (Nat.lt_ge_cases k (length l)) as [L|L]; [left|now right]. rewrite (nth_indep _ _ (tasks_node N perm p c r empty_block)) by now rewrite map_length. apply map_nth. Qed.

Lemma exchange_alive {V} (op : V -> V -> V) N alg blocks size_of (m : nat -> @memory V) :
  1 <= blocks -> same_length N alg blocks -> (forall k, 1 <= k < blocks -> well_matched N (fun q => nth k (alg q) empty_block)) ->
  never_stuck op N (node_prog N alg size_of) m /\ leaves_nothing op N (node_prog N alg size_of) m.
Proof.
  intros Hb SL WM. set (none := fun _ : nat => @nil instr).
  assert (Qn : forall q, q < N -> forallb quiet (none q) = true) by reflexivity.
  assert (OK := ok N alg blocks size_of none none Hb WM Qn Qn).
  assert (PR : forall p, p < N -> node_prog N alg size_of p = phased (blocks - 1) (L N alg blocks size_of none none) p).
  { intros p Hp. rewrite <- (program_phased N alg blocks size_of none none); auto.
    unfold program, none, node_prog. cbn [app]. now rewrite app_nil_r. }
  split.
  - eapply once_progress; eauto.
  - eapply once_clean; eauto.
Qed.

Theorem cores_as_one {V} (op : V -> V -> V) N perm c alg blocks size_of (m : nat -> @memory V) :
  Permutation perm (seq 0 N) -> 0 < c -> 1 <= blocks -> same_length N alg blocks ->
  (forall k, 1 <= k < blocks -> well_matched N (fun q => nth k (alg q) empty_block)) ->
  (forall k, 1 <= k < blocks -> rotating N (fun x => nth x perm 0) (fun q => nth k (alg q) empty_block)) ->
  as_one_core op N c (fun q => blocks_code size_of N q (tl (alg q)) true) (core_exchange size_of N c perm alg) m.
Proof.
  intros Hperm Hc Hb SL WM Rot.
  set (calg k := map (tasks_node N perm (k / c) c (k mod c)) (alg (k / c))).
  assert (SLc : same_length (N * c) calg blocks).
  { intros t Ht. unfold calg. rewrite map_length. apply SL. apply Nat.div_lt_upper_bound; lia. }
  assert (Deal : forall k, 1 <= k < blocks -> dealt_out N c (fun q => nth k (alg q) empty_block) (fun q => nth k (calg q) empty_block)
                   (who N perm c (fun q => nth k (alg q) empty_block))).
  { intros k Hk. pose proof (dealt_cores N perm Hperm c Hc _ (WM k Hk) (Rot k Hk)) as [D1 D2]. split; [exact D1|].
    intros p r Hp Hr. specialize (D2 p r Hp Hr). unfold core_block in D2. unfold calg.
    destruct (nth_tasks N perm ((p * c + r) / c) c ((p * c + r) mod c) (alg ((p * c + r) / c)) k) as [E|E].
    - rewrite E. exact D2.
    - rewrite SL in E; [lia|]. replace ((p * c + r) / c) with p; [auto|]. rewrite Nat.div_add_l, Nat.div_small; lia. }
  destruct (exchange_cores op N c Hc alg calg blocks size_of _ Hb SL SLc WM Deal m) as (A1 & A2 & A3).
  destruct (exchange_alive op N alg blocks size_of m Hb SL WM) as [B1 B2].
  split; [exact (A1 B1)|]. split; [exact (A2 B2)|]. exact A3.
Qed.
