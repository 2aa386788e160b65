(* Whole programs for schedules whose layout changes: copy in, exchange, copy out, in lock step. *)
From Verif Require Import Base SchedModel SchedSpec RawModel MsgProofs PhaseProofs RawCode RawStage RawProofs RawEnd RawSpec RawWhole LooseSpec RawLoose.
Local Ltac Zify.zify_post_hook ::= idtac.

Section LooseWhole.
  Context {V : Type} (op : V -> V -> V) (N : nat) (alg : nat -> list block) (nb : nat) (mcounts : nat -> nat).
  Notation memory := (@memory V).
  Local Notation blk m := (fun q => nth m (alg q) empty_block).
  Local Notation fr m q := (fun n => frac (lines (nth m (alg q) empty_block) n)).
  Context (Hb : 1 <= nb) (SL : same_length N alg nb).
  Context (WM : forall m, 1 <= m < nb -> well_matched N (blk m)).
  Local Notation size_of := (mmsizes mcounts N).
  Local Notation K := (nb - 1).
  Context (F0 : forall q n, q < N -> n < num_lines (blk 0 q) -> fr 0 q n < N).
  Context (FK : forall q n, q < N -> n < num_lines (blk K q) -> fr K q n < N).

  Lemma loose_size f : f < N -> size_of f = mcounts f.
  Proof. intros H. unfold mmsizes. now rewrite Nat.mod_small. Qed.
  Lemma first_off q n : q < N -> n <= num_lines (blk 0 q) -> off mcounts (fr 0 q) n = off size_of (fr 0 q) n.
  Proof. intros Hq Hn. apply off_cong. intros k Hk. rewrite loose_size; auto. apply F0; auto. lia. Qed.
  Lemma last_off q n : q < N -> n <= num_lines (blk K q) -> off mcounts (fr K q) n = off size_of (fr K q) n.
  Proof. intros Hq Hn. apply off_cong. intros k Hk. rewrite loose_size; auto. apply FK; auto. lia. Qed.

  Section Any.
    Context (pre post : nat -> list instr) (Qpre : forall q, q < N -> forallb quiet (pre q) = true) (Qpost : forall q, q < N -> forallb quiet (post q) = true).
    (* cell i of the lines in the beginning *)
    Definition lini (mem0 : nat -> memory) (i q n : nat) : V :=
      if i <? size_of (fr 0 q n) then exec_list op (pre q) (mem0 q) (Shm 0, off size_of (fr 0 q) n + i) else mem0 0 (Sendbuf, 0).
    Lemma loose_cells mem0 i : exists S, S 0 = lini mem0 i /\ loosely op N alg nb S /\
      forall q n, q < N -> i < size_of (fr K q n) -> exchanged op N alg nb mcounts pre post mem0 q (Shm 0, off size_of (fr K q) n + i) = S K q n.
    Proof.
      assert (R0 : forall q, q < N -> rel size_of (fr 0 q) i (lini mem0 i q) (exec_list op (pre q) (mem0 q))).
      { intros q Hq n Hn. unfold lini. unfold sz in Hn. apply Nat.ltb_lt in Hn. cbv beta in *. now rewrite Hn. }
      exists (states N alg nb size_of pre post op mem0 i (lini mem0 i)). split; [reflexivity|]. split.
      - now apply states_loose.
      - intros q n Hq Hi. refine (states_rel N alg nb size_of pre post Hb WM Qpre Qpost op mem0 i (lini mem0 i) R0 K (le_n _) q Hq n Hi).
    Qed.
  End Any.

  Local Notation tot := (moffset mcounts N).
  Context (IN : forall q n f, q < N -> n < num_lines (blk 0 q) -> input_line (blk 0 q) n = Some f -> off size_of (fr 0 q) (S n) <= tot).
  Local Notation pre_r := (fun q : nat => copyin_reduce N mcounts (blk 0 q)).
  Lemma lini_placed mem0 i t : t < N -> placed (first_block (alg t)) (vec mcounts mem0 i t) (lini pre_r mem0 i t).
  Proof.
    intros Ht n f Hn I. unfold first_block in *.
    assert (Ef : fr 0 t n = f).
    { unfold input_line in I. destruct (existsb _ _); [|discriminate]. now injection I. }
    assert (Hf : f < N) by (rewrite <- Ef; now apply F0).
    unfold lini, vec. rewrite Ef, loose_size by auto. destruct (Nat.ltb_spec i (mcounts f)) as [Hi|Hi]; auto.
    destruct (copyin_reduce_ok op N mcounts (blk 0 t) (mem0 t)) as [_ B].
    - intros k Hk. now apply F0.
    - cbv zeta in B. specialize (B n i Hn). cbv beta in Ef. rewrite Ef in B. rewrite <- (first_off t n) by (auto; lia). apply B; auto.
      specialize (IN t n f Ht Hn I). rewrite off_S in IN. unfold sz in IN. cbv beta in IN. rewrite Ef, loose_size in IN by auto.
      rewrite (first_off t n) by (auto; lia). exact IN.
  Qed.
  Lemma lpre_user mem0 q a : q < N -> (forall k, fst a <> Shm k) -> exec_list op (pre_r q) (mem0 q) a = mem0 q a.
  Proof.
    intros Hq Ha. destruct (copyin_reduce_ok op N mcounts (blk 0 q) (mem0 q)) as [A _].
    - intros k Hk. now apply F0.
    - apply A. apply Ha.
  Qed.

  (* everything to everybody *)
  Section All.
    Local Notation post_a := (fun q : nat => copyout_all mcounts (blk K q) tot).
    Context (SOLVE : forall x S, (forall t, t < N -> placed (first_block (alg t)) (x t) (S 0 t)) -> loosely op N alg nb S -> forall t, t < N ->
      delivered (last_block (alg t)) (fun f => f < N) (fun f => total op (fun k => x k f) N) (S K t)).
    Local Notation LL := (L N alg nb size_of pre_r post_a).
    Lemma loose_allreduce_lock mem0 q : q < N ->
      receives_only tot (mem0 q) (exec_list op (LL K q) (memat op LL mem0 K q)) (fun j => total op (fun p => mem0 p (Sendbuf, j)) N).
    Proof.
      intros Hq.
      assert (Qr : forall q, q < N -> forallb quiet (pre_r q) = true) by (intros; apply copyin_quiet).
      assert (Qa : forall q, q < N -> forallb quiet (post_a q) = true) by (intros; apply copyout_quiet).
      rewrite (whole_end op N alg nb mcounts) by auto.
      assert (D : forall i, exists st, delivered (blk K q) (fun f => f < N) (fun f => total op (fun k => vec mcounts mem0 i k f) N) st /\
        forall n, i < size_of (fr K q n) -> exchanged op N alg nb mcounts pre_r post_a mem0 q (Shm 0, off size_of (fr K q) n + i) = st n).
      { intros i. destruct (loose_cells pre_r post_a Qr Qa mem0 i) as (S & E0 & Lo & Ec). exists (S K q). split; auto.
        rewrite <- (last_nth N alg nb SL q Hq). apply SOLVE; auto. intros t Ht. rewrite E0. now apply lini_placed. }
      assert (U : forall a, (forall k, fst a <> Shm k) -> exchanged op N alg nb mcounts pre_r post_a mem0 q a = mem0 q a).
      { intros a Ha. rewrite (whole_user op N alg nb mcounts) by auto. now apply lpre_user. }
      destruct (copyout_all_ok op N mcounts (blk K q) (fun j => total op (fun p => mem0 p (Sendbuf, j)) N) (exchanged op N alg nb mcounts pre_r post_a mem0 q)) as [B A].
      - intros n i Hn O Hi. split; [apply FK; auto|].
        destruct (D i) as (st & [D1 _] & Ec). rewrite last_off by (auto; lia). rewrite Ec by (rewrite loose_size; [exact Hi|now apply FK]).
        destruct (D1 n (fr K q n) Hn) as [_ E]; [unfold output_line; now rewrite O|].
        rewrite E. apply total_cong; [lia|]. intros k Hk. unfold vec. apply Nat.ltb_lt in Hi. cbv beta in *. now rewrite Hi.
      - intros f Hf. destruct (D 0) as (st & [_ D2] & _). destruct (D2 f Hf) as (n & Hn & O). exists n. unfold output_line in O.
        destruct (existsb _ _); [|discriminate]. injection O as O. auto.
      - cbv zeta in *. split; [|split]; intros.
        + now apply A.
        + rewrite B by auto. apply U. discriminate.
        + rewrite B by (left; discriminate). apply U. discriminate.
    Qed.
  End All.

  (* everybody its own fragment *)
  Section Own.
    Local Notation post_o := (fun q : nat => copyout_own mcounts (blk K q) (mcounts q)).
    Context (out_n : nat -> nat).
    Context (OUT : forall q, q < N -> out_n q < num_lines (blk K q) /\ output_line (blk K q) (out_n q) = Some q /\
      forall n, n < out_n q -> sendto (lines (blk K q) n) = []).
    Context (SOLVE : forall x S, (forall t, t < N -> placed (first_block (alg t)) (x t) (S 0 t)) -> loosely op N alg nb S -> forall t, t < N ->
      delivered (last_block (alg t)) (fun f => f = t) (fun f => total op (fun k => x k f) N) (S K t)).
    Local Notation LL := (L N alg nb size_of pre_r post_o).
    Lemma loose_reduce_scatter_lock mem0 q : q < N ->
      receives_only (mcounts q) (mem0 q) (exec_list op (LL K q) (memat op LL mem0 K q))
        (fun j => total op (fun p => mem0 p (Sendbuf, moffset mcounts q + j)) N).
    Proof.
      intros Hq.
      assert (Qr : forall q, q < N -> forallb quiet (pre_r q) = true) by (intros; apply copyin_quiet).
      assert (Qo : forall q, q < N -> forallb quiet (post_o q) = true) by (intros; apply own_quiet).
      rewrite (whole_end op N alg nb mcounts) by auto.
      assert (D : forall i, exists st, delivered (blk K q) (fun f => f = q) (fun f => total op (fun k => vec mcounts mem0 i k f) N) st /\
        forall n, i < size_of (fr K q n) -> exchanged op N alg nb mcounts pre_r post_o mem0 q (Shm 0, off size_of (fr K q) n + i) = st n).
      { intros i. destruct (loose_cells pre_r post_o Qr Qo mem0 i) as (S & E0 & Lo & Ec). exists (S K q). split; auto.
        rewrite <- (last_nth N alg nb SL q Hq). apply SOLVE; auto. intros t Ht. rewrite E0. now apply lini_placed. }
      assert (U : forall a, (forall k, fst a <> Shm k) -> exchanged op N alg nb mcounts pre_r post_o mem0 q a = mem0 q a).
      { intros a Ha. rewrite (whole_user op N alg nb mcounts) by auto. now apply lpre_user. }
      destruct (OUT q Hq) as (Hn & O & Hf).
      assert (EF : fr K q (out_n q) = q).
      { unfold output_line in O. destruct (existsb _ _); [|discriminate]. now injection O. }
      destruct (copyout_own_ok op N mcounts (blk K q) (out_n q) (mcounts q) (exchanged op N alg nb mcounts pre_r post_o mem0 q)) as [A B]; auto.
      { intros E. unfold output_line in O. rewrite E in O. discriminate. }
      cbv zeta in *. split; [|split].
      - intros i Hi. rewrite B by auto. rewrite last_off by (auto; lia).
        destruct (D i) as (st & [D1 _] & Ec). rewrite Ec by (rewrite EF, loose_size; auto).
        destruct (D1 (out_n q) q Hn O) as [_ E]. rewrite E. apply total_cong; [lia|].
        intros k Hk. unfold vec. apply Nat.ltb_lt in Hi. now rewrite Hi.
      - intros j Hj. rewrite A by auto. apply U. discriminate.
      - intros j. rewrite A by (left; discriminate). apply U. discriminate.
    Qed.
  End Own.
End LooseWhole.
