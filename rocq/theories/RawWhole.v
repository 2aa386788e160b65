(* Whole programs: copy in, exchange, copy out; first in lock step. *)
From Verif Require Import Base SchedModel SchedSpec RawModel MsgProofs PhaseProofs RawCode RawStage RawProofs RawEnd RawSpec.
Local Ltac Zify.zify_post_hook ::= idtac.

Lemma total_cong {V} (op : V -> V -> V) f g n : 0 < n -> (forall k, k < n -> f k = g k) -> total op f n = total op g n.
Proof.
  intros Hn H. unfold total. rewrite (H 0) by lia.
  assert (E : forall k, In k (seq 1 (n - 1)) -> f k = g k) by (intros k I; apply in_seq in I; apply H; lia).
  revert E. generalize (g 0). induction (seq 1 (n - 1)) as [|k l IH]; cbn; intros v E; auto.
  rewrite (E k) by now left. apply IH. intros; apply E; now right.
Qed.
Lemma off_room s F n : off s F n = room s F n.
Proof. induction n as [|n IH]; [reflexivity|]. rewrite off_S. cbn. unfold sz. lia. Qed.
Lemma moffset_first c f : moffset c f = first_of c f.
Proof. induction f as [|f IH]; [reflexivity|]. rewrite moffset_S. cbn. lia. Qed.

Section Whole.
  Context {V : Type} (op : V -> V -> V) (N : nat) (alg : nat -> list block) (nb : nat) (mcounts : nat -> nat).
  Context (F : nat -> nat -> nat).
  Notation memory := (@memory V).
  Local Notation blk m := (fun q => nth m (alg q) empty_block).
  Context (Hb : 1 <= nb) (SL : same_length N alg nb).
  Context (WM : forall m, 1 <= m < nb -> well_matched N (blk m)).
  (* the layout, including the first block *)
  Context (LAY : forall m q n, m < nb -> q < N -> n < num_lines (blk m q) -> frac (lines (blk m q) n) = F q n).
  Context (FN : forall q n, q < N -> F q n < N).
  Local Notation size_of := (mmsizes mcounts N).
  Local Notation K := (nb - 1).

  Lemma size_of_eq f : f < N -> size_of f = mcounts f.
  Proof. intros H. unfold mmsizes. now rewrite Nat.mod_small. Qed.
  Lemma st_off m q n : m < nb -> q < N -> n <= num_lines (blk m q) ->
    off mcounts (fun k => frac (lines (blk m q) k)) n = off size_of (F q) n.
  Proof.
    intros Hm Hq Hn. apply off_cong. intros k Hk. rewrite size_of_eq by auto. now rewrite (LAY m q k) by (auto; lia).
  Qed.
  Lemma hd_first q : hd empty_block (alg q) = blk 0 q.
  Proof. cbv beta. now destruct (alg q). Qed.
  Lemma last_nth q : q < N -> last (alg q) empty_block = blk K q.
  Proof.
    intros Hq. cbv beta. rewrite <- (SL q Hq). clear. induction (alg q) as [|b [|b' l] IH]; auto.
    cbn [last] in *. rewrite IH at 1. cbn [length last]. now replace (S (S (length l)) - 1) with (S (S (length l) - 1)) by lia.
  Qed.
  Lemma lay1 : forall m q n, 1 <= m < nb -> q < N -> n < num_lines (blk m q) -> frac (lines (blk m q) n) = F q n.
  Proof. intros; apply LAY; auto; lia. Qed.

  Section Any.
    Context (pre post : nat -> list instr) (Qpre : forall q, q < N -> forallb quiet (pre q) = true) (Qpost : forall q, q < N -> forallb quiet (post q) = true).
    Local Notation LL := (L N alg nb size_of pre post).
    Lemma whole_ok : phases_ok N K LL.
    Proof. apply (ok N alg nb size_of pre post); auto. Qed.
    Lemma whole_phased q : q < N -> program N alg size_of pre post q = phased K LL q.
    Proof. intros Hq. apply (program_phased N alg nb size_of pre post); auto. Qed.
    (* the end of the exchange *)
    Definition exchanged (mem0 : nat -> memory) (q : nat) : memory := amid N alg nb size_of pre post op mem0 K q.
    Lemma whole_end mem0 q : q < N -> exec_list op (LL K q) (memat op LL mem0 K q) = exec_list op (post q) (exchanged mem0 q).
    Proof. intros Hq. now apply (raw_end N alg nb size_of pre post op mem0). Qed.
    Lemma whole_user mem0 q a : q < N -> (forall k, fst a <> Shm k) -> exchanged mem0 q a = exec_list op (pre q) (mem0 q) a.
    Proof. intros Hq Ha. apply (user_kept N alg nb size_of pre post); auto. Qed.
    Lemma whole_cells mem0 i st0 :
      (forall q n, q < N -> i < size_of (F q n) -> exec_list op (pre q) (mem0 q) (Shm 0, off size_of (F q) n + i) = st0 q n) ->
      forall q n, q < N -> i < size_of (F q n) -> exchanged mem0 q (Shm 0, off size_of (F q) n + i) = execute op N alg nb st0 q n.
    Proof.
      intros S0 q n Hq Hi.
      refine (follows N alg nb size_of pre post Hb WM Qpre Qpost op mem0 F lay1 i st0 _ K (le_n _) q Hq n Hi).
      intros q' Hq' n' Hn'. now apply S0.
    Qed.
  End Any.

  (* ---------- reductions ---------- *)
  Local Notation tot := (moffset mcounts N).
  Context (IN : forall q n f, q < N -> n < num_lines (blk 0 q) -> input_line (blk 0 q) n = Some f -> off size_of (F q) (S n) <= tot).
  Local Notation pre_r := (fun q : nat => copyin_reduce N mcounts (blk 0 q)).
  Lemma pre_r_quiet q : q < N -> forallb quiet (pre_r q) = true.
  Proof. intros _. apply copyin_quiet. Qed.
  Lemma pre_r_cells mem0 q n i f : q < N -> n < num_lines (blk 0 q) -> input_line (blk 0 q) n = Some f -> i < mcounts f ->
    f = F q n /\ exec_list op (pre_r q) (mem0 q) (Shm 0, off size_of (F q) n + i) = mem0 q (Sendbuf, moffset mcounts f + i).
  Proof.
    intros Hq Hn I Hi. assert (Ef : frac (lines (blk 0 q) n) = f).
    { unfold input_line in I. destruct (existsb _ _); [|discriminate]. now injection I. }
    assert (EF : f = F q n) by (rewrite <- Ef; apply LAY; auto). split; auto.
    destruct (copyin_reduce_ok op N mcounts (blk 0 q) (mem0 q)) as [_ B].
    - intros k Hk. rewrite (LAY 0) by auto. auto.
    - cbv zeta in B. specialize (B n i Hn). rewrite Ef in B. rewrite <- (st_off 0 q n) by (auto; lia). apply B; auto.
      specialize (IN q n f Hq Hn I). rewrite off_S in IN. unfold sz in IN. rewrite <- EF in IN. rewrite size_of_eq in IN by (rewrite EF; auto).
      rewrite (st_off 0 q n) by (auto; lia). exact IN.
  Qed.
  (* cell i of the vectors, and of the lines *)
  Definition vec (mem0 : nat -> memory) (i t f : nat) : V :=
    if i <? mcounts f then mem0 t (Sendbuf, moffset mcounts f + i) else mem0 0 (Sendbuf, 0).
  Definition ini (pre : nat -> list instr) (mem0 : nat -> memory) (i q n : nat) : V :=
    if i <? mcounts (F q n) then exec_list op (pre q) (mem0 q) (Shm 0, off size_of (F q) n + i) else mem0 0 (Sendbuf, 0).
  Lemma ini_cells pre mem0 i q n : q < N -> i < size_of (F q n) ->
    exec_list op (pre q) (mem0 q) (Shm 0, off size_of (F q) n + i) = ini pre mem0 i q n.
  Proof. intros Hq Hi. rewrite size_of_eq in Hi by auto. unfold ini. apply Nat.ltb_lt in Hi. now rewrite Hi. Qed.
  Lemma ini_placed mem0 i t : t < N -> placed (first_block (alg t)) (vec mem0 i t) (ini pre_r mem0 i t).
  Proof.
    intros Ht n f Hn I. unfold first_block in *.
    assert (Ef : F t n = f).
    { rewrite <- (LAY 0) by auto. unfold input_line in I. destruct (existsb _ _); [|discriminate]. now injection I. }
    unfold ini, vec. rewrite Ef. destruct (Nat.ltb_spec i (mcounts f)) as [Hi|Hi]; auto.
    now apply (pre_r_cells mem0 t n i f).
  Qed.
  Lemma pre_r_user mem0 q a : q < N -> (forall k, fst a <> Shm k) -> exec_list op (pre_r q) (mem0 q) a = mem0 q a.
  Proof.
    intros Hq Ha. destruct (copyin_reduce_ok op N mcounts (blk 0 q) (mem0 q)) as [A _].
    - intros k Hk. rewrite (LAY 0) by auto. auto.
    - apply A. apply Ha.
  Qed.

  (* everything to everybody *)
  Section All.
    Local Notation post_a := (fun q : nat => copyout_all mcounts (blk K q) tot).
    Lemma post_a_quiet q : q < N -> forallb quiet (post_a q) = true.
    Proof. intros _. apply copyout_quiet. Qed.
    Lemma post_a_out (out : nat -> V) q (m : memory) : q < N ->
      (forall n i, n < num_lines (blk K q) -> output_line (blk K q) n = Some (F q n) -> i < mcounts (F q n) ->
         m (Shm 0, off size_of (F q) n + i) = out (moffset mcounts (F q n) + i)) ->
      (forall f, f < N -> exists n, n < num_lines (blk K q) /\ output_line (blk K q) n = Some f) ->
      receives_only tot m (exec_list op (post_a q) m) out.
    Proof.
      clear IN. intros Hq H HE. destruct (copyout_all_ok op N mcounts (blk K q) out m) as [A B].
      - intros n i Hn O Hi. rewrite (LAY K) in * by (auto; lia). split; auto.
        rewrite (st_off K q n) by (auto; lia). apply H; auto. unfold output_line. rewrite O. now rewrite (LAY K) by (auto; lia).
      - intros f Hf. destruct (HE f Hf) as (n & Hn & O). exists n. unfold output_line in O.
        destruct (existsb _ _); [|discriminate]. injection O as O. auto.
      - cbv zeta in *. split; [|split]; auto; intros; apply A; auto. left. discriminate.
    Qed.

    Definition allreduce_code (q : nat) : list instr := program N alg size_of pre_r post_a q.
    Context (SOLVE : forall x st, (forall t, t < N -> placed (first_block (alg t)) (x t) (st t)) -> forall t, t < N ->
      delivered (last_block (alg t)) (fun f => f < N) (fun f => total op (fun k => x k f) N) (execute op N alg nb st t)).
    Local Notation LL := (L N alg nb size_of pre_r post_a).
    Lemma allreduce_lock mem0 q : q < N ->
      receives_only tot (mem0 q) (exec_list op (LL K q) (memat op LL mem0 K q)) (fun j => total op (fun p => mem0 p (Sendbuf, j)) N).
    Proof.
      intros Hq. rewrite whole_end by auto.
      assert (D : forall i, delivered (blk K q) (fun f => f < N) (fun f => total op (fun k => vec mem0 i k f) N) (execute op N alg nb (ini pre_r mem0 i) q)).
      { intros i. rewrite <- last_nth by auto. apply SOLVE; auto. intros t Ht. now apply ini_placed. }
      assert (U : forall a, (forall k, fst a <> Shm k) -> exchanged pre_r post_a mem0 q a = mem0 q a).
      { intros a Ha. rewrite (whole_user pre_r post_a pre_r_quiet post_a_quiet) by auto. now apply pre_r_user. }
      destruct (post_a_out (fun j => total op (fun p => mem0 p (Sendbuf, j)) N) q (exchanged pre_r post_a mem0 q) Hq) as (A & B & C).
      - intros n i Hn O Hi. rewrite (whole_cells pre_r post_a pre_r_quiet post_a_quiet mem0 i (ini pre_r mem0 i)); auto.
        + destruct (D i) as [D1 _]. destruct (D1 n (F q n) Hn O) as [_ E]. rewrite E. apply total_cong; [lia|].
          intros k Hk. unfold vec. apply Nat.ltb_lt in Hi. now rewrite Hi.
        + intros q' n' Hq' Hn'. now apply (ini_cells pre_r mem0 i q' n').
        + now rewrite size_of_eq by auto.
      - destruct (D 0) as [_ D2]. exact D2.
      - split; [exact A|]. split; intros; [rewrite B by auto|rewrite C]; apply U; discriminate.
    Qed.
  End All.

  (* everybody its own fragment *)
  Section Own.
    Local Notation post_o := (fun q : nat => copyout_own mcounts (blk K q) (mcounts q)).
    Lemma post_o_quiet q : q < N -> forallb quiet (post_o q) = true.
    Proof. intros _. apply own_quiet. Qed.
    Context (out_n : nat -> nat).
    Context (OUT : forall q, q < N -> out_n q < num_lines (blk K q) /\ output_line (blk K q) (out_n q) = Some q /\
      forall n, n < out_n q -> sendto (lines (blk K q) n) = []).
    Context (SOLVE : forall x st, (forall t, t < N -> placed (first_block (alg t)) (x t) (st t)) -> forall t, t < N ->
      delivered (last_block (alg t)) (fun f => f = t) (fun f => total op (fun k => x k f) N) (execute op N alg nb st t)).
    Local Notation LL := (L N alg nb size_of pre_r post_o).
    Lemma reduce_scatter_lock mem0 q : q < N ->
      receives_only (mcounts q) (mem0 q) (exec_list op (LL K q) (memat op LL mem0 K q))
        (fun j => total op (fun p => mem0 p (Sendbuf, moffset mcounts q + j)) N).
    Proof.
      intros Hq. rewrite whole_end by auto.
      assert (D : forall i, delivered (blk K q) (fun f => f = q) (fun f => total op (fun k => vec mem0 i k f) N) (execute op N alg nb (ini pre_r mem0 i) q)).
      { intros i. rewrite <- last_nth by auto. apply SOLVE; auto. intros t Ht. now apply ini_placed. }
      assert (U : forall a, (forall k, fst a <> Shm k) -> exchanged pre_r post_o mem0 q a = mem0 q a).
      { intros a Ha. rewrite (whole_user pre_r post_o pre_r_quiet post_o_quiet) by auto. now apply pre_r_user. }
      destruct (OUT q Hq) as (Hn & O & Hf).
      assert (EF : F q (out_n q) = q).
      { rewrite <- (LAY K) by (auto; lia). unfold output_line in O. destruct (existsb _ _); [|discriminate]. now injection O. }
      destruct (copyout_own_ok op N mcounts (blk K q) (out_n q) (mcounts q) (exchanged pre_r post_o mem0 q)) as [A B]; auto.
      { intros E. unfold output_line in O. rewrite E in O. discriminate. }
      cbv zeta in *. split; [|split].
      - intros i Hi. rewrite B by auto. rewrite st_off by (auto; lia).
        rewrite (whole_cells pre_r post_o pre_r_quiet post_o_quiet mem0 i (ini pre_r mem0 i)); auto.
        + destruct (D i) as [D1 _]. destruct (D1 (out_n q) q Hn O) as [_ E]. rewrite E. apply total_cong; [lia|].
          intros k Hk. unfold vec. apply Nat.ltb_lt in Hi. now rewrite Hi.
        + intros q' n' Hq' Hn'. now apply (ini_cells pre_r mem0 i q' n').
        + rewrite EF. now rewrite size_of_eq by auto.
      - intros j Hj. rewrite A by auto. apply U. discriminate.
      - intros j. rewrite A by (left; discriminate). apply U. discriminate.
    Qed.
  End Own.

  (* ---------- allgather ---------- *)
  Section Gather.
    Local Notation pre_g := (fun q : nat => copyin_gather mcounts (blk 0 q) (mcounts q)).
    Local Notation post_a := (fun q : nat => copyout_all mcounts (blk K q) tot).
    Context (in_n : nat -> nat).
    Context (INP : forall q, q < N -> in_n q < num_lines (blk 0 q) /\ input_line (blk 0 q) (in_n q) = Some q /\
      forall n, n < num_lines (blk 0 q) -> n <> in_n q -> input_line (blk 0 q) n = None).
    Context (SOLVE : forall (x : nat -> V) st, (forall t, t < N -> placed (first_block (alg t)) (fun _ => x t) (st t)) -> forall t, t < N ->
      delivered (last_block (alg t)) (fun f => f < N) x (execute op N alg nb st t)).
    Lemma pre_g_quiet q : q < N -> forallb quiet (pre_g q) = true.
    Proof. intros _. apply gather_quiet. Qed.
    Lemma pre_g_ok mem0 q : q < N ->
      (forall a, fst a <> Shm 0 -> exec_list op (pre_g q) (mem0 q) a = mem0 q a) /\
      (forall i, i < mcounts q -> exec_list op (pre_g q) (mem0 q) (Shm 0, off size_of (F q) (in_n q) + i) = mem0 q (Sendbuf, i)).
    Proof.
      clear IN. intros Hq. destruct (INP q Hq) as (Hn & I & Ho).
      rewrite <- (st_off 0 q (in_n q)) by (auto; lia).
      apply (copyin_gather_ok op mcounts (blk 0 q) (in_n q) (mcounts q) (mem0 q)); auto.
      - unfold input_line in I. destruct (existsb _ _); auto; discriminate.
      - intros n Hlt. assert (X : input_line (blk 0 q) n = None) by (apply Ho; lia).
        unfold input_line in X. destruct (existsb _ _); auto; discriminate.
    Qed.
    Local Notation LL := (L N alg nb size_of pre_g post_a).
    Definition own (mem0 : nat -> memory) (i t : nat) : V := if i <? mcounts t then mem0 t (Sendbuf, i) else mem0 0 (Sendbuf, 0).
    Lemma gather_placed mem0 i t : t < N -> placed (first_block (alg t)) (fun _ => own mem0 i t) (ini pre_g mem0 i t).
    Proof.
      clear IN. intros Ht n f Hn I. unfold first_block in *. destruct (INP t Ht) as (H1 & H2 & H3).
      destruct (Nat.eq_dec n (in_n t)) as [->|Ne]; [|rewrite H3 in I by auto; discriminate].
      assert (Ef : F t (in_n t) = t).
      { rewrite <- (LAY 0) by auto. unfold input_line in H2. destruct (existsb _ _); [|discriminate]. now injection H2. }
      unfold ini, own. rewrite Ef. destruct (Nat.ltb_spec i (mcounts t)); auto. now apply pre_g_ok.
    Qed.
    Lemma allgather_lock mem0 q : q < N ->
      receives_only tot (mem0 q) (exec_list op (LL K q) (memat op LL mem0 K q))
        (fun j => exec_list op (LL K q) (memat op LL mem0 K q) (Recvbuf, j)) /\
      forall f i, f < N -> i < mcounts f ->
        exec_list op (LL K q) (memat op LL mem0 K q) (Recvbuf, moffset mcounts f + i) = mem0 f (Sendbuf, i).
    Proof.
      clear IN. intros Hq. rewrite whole_end by auto.
      assert (D : forall i, delivered (blk K q) (fun f => f < N) (own mem0 i) (execute op N alg nb (ini pre_g mem0 i) q)).
      { intros i. rewrite <- last_nth by auto. apply SOLVE; auto. intros t Ht. now apply gather_placed. }
      assert (U : forall a, (forall k, fst a <> Shm k) -> exchanged pre_g post_a mem0 q a = mem0 q a).
      { intros a Ha. rewrite (whole_user pre_g post_a pre_g_quiet post_a_quiet) by auto. apply pre_g_ok; auto. }
      (* the element at j *)
      set (out := fun j => match find (fun f => (moffset mcounts f <=? j) && (j <? moffset mcounts f + mcounts f)) (seq 0 N) with
                           | Some f => mem0 f (Sendbuf, j - moffset mcounts f)
                           | None => mem0 0 (Sendbuf, 0)
                           end).
      assert (O : forall f i, f < N -> i < mcounts f -> out (moffset mcounts f + i) = mem0 f (Sendbuf, i)).
      { intros f i Hf Hi. unfold out. destruct (find _ _) as [g|] eqn:Fd.
        - apply find_some in Fd. destruct Fd as [_ Fd]. apply andb_true_iff in Fd. rewrite Nat.leb_le, Nat.ltb_lt in Fd.
          rewrite !moffset_off in Fd.
          assert (g = f) by (apply (off_inj mcounts (fun n => n) g f i); auto). subst g. do 2 f_equal. lia.
        - exfalso. pose proof (find_none _ _ Fd f) as X. cbv beta in X.
          assert (Y : (moffset mcounts f <=? moffset mcounts f + i) && (moffset mcounts f + i <? moffset mcounts f + mcounts f) = true).
          { apply andb_true_iff. rewrite Nat.leb_le, Nat.ltb_lt. lia. }
          rewrite X in Y; [discriminate|]. apply in_seq. lia. }
      destruct (post_a_out out q (exchanged pre_g post_a mem0 q) Hq) as (A & B & C).
      - intros n i Hn Oq Hi. rewrite (whole_cells pre_g post_a pre_g_quiet post_a_quiet mem0 i (ini pre_g mem0 i)); auto.
        + destruct (D i) as [D1 _]. destruct (D1 n (F q n) Hn Oq) as [_ E]. rewrite E, O by auto.
          unfold own. apply Nat.ltb_lt in Hi. now rewrite Hi.
        + intros q' n' Hq' Hn'. now apply (ini_cells pre_g mem0 i q' n').
        + now rewrite size_of_eq by auto.
      - destruct (D 0) as [_ D2]. exact D2.
      - split.
        + split; [auto|]. split; intros; [rewrite B by auto|rewrite C]; apply U; discriminate.
        + intros f i Hf Hi. rewrite A by (pose proof (moffset_lt mcounts f N Hf); lia). now apply O.
    Qed.
  End Gather.
End Whole.
