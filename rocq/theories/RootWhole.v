(* Whole programs of the collectives with a root, for any schedule of which the
   backward interpreter leaves whole messages. *)
From Verif Require Import Base SchedModel SchedSpec SchedProofs RawModel MsgProofs PhaseProofs RawCode RawStage RawProofs RawEnd RawSpec RawWhole RawInst
  RootModel RootSpec RootCode RootLive RootValue.
Local Ltac Zify.zify_post_hook ::= idtac.

(* ---------- copying in and out looks at part of a block only ---------- *)
Section Same.
  Context (b b' : block) (E1 : num_lines b = num_lines b') (E2 : forall n, frac (lines b n) = frac (lines b' n)).
  Lemma copyin_same N mc : copyin_reduce N mc b = copyin_reduce N mc b'.
  Proof.
    unfold copyin_reduce. rewrite E1.
    assert (X : forall l a, copyin_lines N mc b l a = copyin_lines N mc b' l a); [|now rewrite X].
    induction l as [|n l IH]; intros a; [reflexivity|]. cbn [copyin_lines]. now rewrite E2, IH.
  Qed.
  Lemma copyout_same mc c : (forall n, sendto (lines b n) = sendto (lines b' n)) -> copyout_all mc b c = copyout_all mc b' c.
  Proof.
    intros E3. unfold copyout_all. rewrite E1.
    assert (X : forall l a, copyout_lines mc b c l a = copyout_lines mc b' c l a); [|now rewrite X].
    induction l as [|n l IH]; intros a; [reflexivity|]. cbn [copyout_lines]. now rewrite E2, E3, IH.
  Qed.
  Lemma gather_same mc c : (forall n, n < num_lines b' -> existsb is_user (recvfrom (lines b n)) = existsb is_user (recvfrom (lines b' n))) ->
    copyin_gather mc b c = copyin_gather mc b' c.
  Proof.
    intros E3. unfold copyin_gather. rewrite E1.
    assert (X : forall l a, (forall n, In n l -> n < num_lines b') -> before_user mc b l a = before_user mc b' l a).
    { induction l as [|n l IH]; intros a H; [reflexivity|]. cbn [before_user]. rewrite E2, E3 by (apply H; now left).
      rewrite IH by (intros; apply H; now right). reflexivity. }
    now rewrite X by (intros n Hn; apply in_seq in Hn; lia).
  Qed.
End Same.

Section Rooted.
  Context {V : Type} (op : V -> V -> V) (N root : nat) (alg : nat -> list block) (nb : nat) (mcounts : nat -> nat).
  Context (F : nat -> nat -> nat).
  Notation memory := (@memory V).
  Local Notation blk m := (block_at alg m).
  Context (Hr : root < N) (Hb : 2 <= nb) (SL : same_length N alg nb).
  Context (PL : forall i, 1 <= i < nb - 1 -> tidy N (blk i)).
  Context (LAST : forall q, q < N -> untouched (blk (nb - 1) q)).
  Context (WML : well_matched N (blk (nb - 1))).
  Context (NDL : forall p q, p < N -> q < N -> sent_lines (blk (nb - 1)) p q = []).
  Context (WHOLE : whole_messages N root alg nb) (CUT : cut_lines N root alg nb).
  Context (LAY : forall m q n, m < nb -> q < N -> n < num_lines (blk m q) -> frac (lines (blk m q) n) = F q n).
  Context (FN : forall q n, q < N -> F q n < N).
  Local Notation size_of := (mmsizes mcounts N).
  Local Notation K := (nb - 1).
  Local Notation tot := (moffset mcounts N).
  Local Notation tr := (trimmed N root alg nb).
  Local Notation kp := (kept N root alg nb).
  Local Notation bw := (backward N root alg nb).

  Lemma lay_1 : forall m q n, 1 <= m < nb -> q < N -> n < num_lines (blk m q) -> frac (lines (blk m q) n) = F q n.
  Proof. clear -LAY. intros; apply LAY; auto; lia. Qed.
  Lemma wm_all m : 1 <= m < nb -> well_matched N (blk m).
  Proof. exact (wm N alg nb PL WML m). Qed.
  Lemma Hb1 : 1 <= nb.
  Proof. clear -Hb. lia. Qed.
  Lemma bw_first q : hd empty_block (bw q) = nth 0 (bw q) empty_block.
  Proof. now destruct (bw q). Qed.
  Lemma bw_last q : last (bw q) empty_block = nth K (bw q) empty_block.
  Proof.
    assert (E := backward_length N root alg nb q). revert E. generalize (bw q). intros l E. rewrite <- E. clear. induction l as [|b [|b' l] IH]; auto.
    cbn [last] in *. rewrite IH at 1. cbn [length last]. now replace (S (S (length l)) - 1) with (S (S (length l) - 1)) by lia.
  Qed.
  Lemma bw_num i q : i < nb -> num_lines (nth i (bw q) empty_block) = num_lines (blk i q).
  Proof. clear. intros Hi. now rewrite backward_at by auto. Qed.
  Lemma bw_frac i q n : i < nb -> frac (lines (nth i (bw q) empty_block) n) = frac (lines (blk i q) n).
  Proof. clear. intros Hi. rewrite backward_at by auto. cbn. unfold prune_line. now destruct (_ =? 0). Qed.
  Lemma bw_copyout mc c q : copyout_all mc (last (bw q) empty_block) c = copyout_all mc (blk K q) c.
  Proof. clear -Hb.
    rewrite bw_last. apply copyout_same.
    - apply bw_num. lia.
    - intros n. apply bw_frac. lia.
    - intros n. rewrite backward_at by lia. cbn. unfold prune_line, middle_block. rewrite Nat.ltb_irrefl, andb_false_r. now destruct (_ =? 0).
  Qed.

  Definition post_root (q : nat) : list instr := if q =? root then copyout_all mcounts (blk K q) tot else [].
  Lemma post_root_quiet q : q < N -> forallb quiet (post_root q) = true.
  Proof. intros _. unfold post_root. destruct (q =? root); auto. apply copyout_quiet. Qed.

  Section Pre.
    Context (pre : nat -> list instr) (Qpre : forall q, q < N -> forallb quiet (pre q) = true).
    Context (mem0 : nat -> memory).
    Context (Upre : forall q a, q < N -> (forall k, fst a <> Shm k) -> exec_list op (pre q) (mem0 q) a = mem0 q a).
    Local Notation LL := (L2 N tr nb size_of pre post_root kp).
    Local Notation AM := (amid2 N tr nb size_of pre post_root kp op mem0).
    Lemma rooted_ok : phases_ok N K LL.
    Proof. apply ok2; auto using post_root_quiet; [lia|]. exact (bt_wm N root alg nb PL WML). Qed.
    Lemma rooted_phased q : q < N -> program2 N bw size_of pre post_root q = phased K LL q.
    Proof.
      intros Hq. apply program2_phased; auto using post_root_quiet; [lia| | |].
      - exact (bw_len N root alg nb).
      - exact (bt_wm N root alg nb PL WML).
      - exact (bt_pr N root alg nb Hb PL LAST WML WHOLE).
    Qed.
    Lemma rooted_user q a : q < N -> (forall k, fst a <> Shm k) -> AM K q a = mem0 q a.
    Proof.
      intros Hq Ha. rewrite (user_kept2 N tr bw nb size_of pre post_root ltac:(lia) (bt_wm N root alg nb PL WML) Qpre post_root_quiet kp
        (bt_pr N root alg nb Hb PL LAST WML WHOLE) op mem0 F (bt_lay N root alg nb F lay_1) (bt_nd N root alg nb PL NDL)) by auto. auto.
    Qed.
    Lemma rooted_other q : q < N -> q <> root -> unchanged (mem0 q) (exec_list op (LL K q) (memat op LL mem0 K q)).
    Proof.
      intros Hq D. rewrite raw_end2 by auto. unfold post_root at 1. apply Nat.eqb_neq in D. rewrite D.
      split; intros j; apply rooted_user; auto; discriminate.
    Qed.
    Context (out : nat -> V).
    Context (OUT : forall n i, n < num_lines (blk K root) -> output_line (blk K root) n = Some (F root n) -> i < mcounts (F root n) ->
      execute op N alg nb (ini op N mcounts F pre mem0 i) root n = out (moffset mcounts (F root n) + i)).
    Context (ALL : forall f, f < N -> exists n, n < num_lines (blk K root) /\ output_line (blk K root) n = Some f).
    Lemma rooted_root : receives_only tot (mem0 root) (exec_list op (LL K root) (memat op LL mem0 K root)) out.
    Proof.
      rewrite raw_end2 by auto. unfold post_root at 1. rewrite Nat.eqb_refl.
      destruct (post_a_out op N alg nb mcounts F Hb1 wm_all LAY FN out root (AM K root) Hr) as (A & B & C).
      - intros n i Hn O Hi. rewrite <- OUT by auto.
        assert (Hi' : i < size_of (F root n)) by (now rewrite (size_of_eq N mcounts) by auto).
        assert (U : existsb is_user (sendto (lines (blk K root) n)) = true).
        { unfold output_line, block_at in *. destruct (existsb is_user (sendto (lines (nth K (alg root) empty_block) n))); auto. discriminate. }
        apply (root_cells N root alg nb Hb PL LAST WML NDL WHOLE CUT size_of pre post_root Qpre post_root_quiet op mem0 F lay_1 i
                 (ini op N mcounts F pre mem0 i)); auto.
        intros q n' Hq Hn'. unfold cells, amid2. cbn [memat RawProofs.front Nat.eqb].
        now apply (ini_cells op N mcounts F FN pre mem0 i q n').
      - exact ALL.
      - split; [exact A|]. split; intros; [rewrite B by auto|rewrite C]; apply rooted_user; auto; discriminate.
    Qed.
  End Pre.

  (* ---------- Reduce ---------- *)
  Section Reduce.
    Context (IN : forall q n f, q < N -> n < num_lines (blk 0 q) -> input_line (blk 0 q) n = Some f -> off size_of (F q) (S n) <= tot).
    Context (SOLVE : forall x st, (forall t, t < N -> placed (first_block (alg t)) (x t) (st t)) -> forall t, t < N ->
      delivered (last_block (alg t)) (fun f => f < N) (fun f => total op (fun k => x k f) N) (execute op N alg nb st t)).
    Local Notation pre_r := (fun q : nat => copyin_reduce N mcounts (blk 0 q)).
    Definition reduce_code (q : nat) : list instr := program2 N bw size_of pre_r post_root q.
    Lemma reduce_rooted (prog : nat -> list instr) (m : nat -> memory) : (forall q, q < N -> prog q = reduce_code q) ->
      never_stuck op N prog m /\ leaves_nothing op N prog m /\
      computes op N prog m (reduced_at op N root tot m).
    Proof.
      intros PRG.
      assert (Q : forall q, q < N -> forallb quiet (pre_r q) = true) by (intros; apply copyin_quiet).
      assert (U : forall q a, q < N -> (forall k, fst a <> Shm k) -> exec_list op (pre_r q) (m q) a = m q a).
      { intros q a Hq Ha. apply (pre_r_user op N alg nb mcounts F Hb1 LAY FN); auto. }
      assert (OK := rooted_ok pre_r Q m U).
      assert (PH : forall q, q < N -> prog q = phased K (L2 N tr nb size_of pre_r post_root kp) q).
      { intros q Hq. rewrite PRG by auto. apply (rooted_phased pre_r Q m U q Hq). }
      split; [|split].
      - apply (once_progress op N K _ prog OK PH).
      - apply (once_clean op N K _ prog OK PH).
      - apply (once_result op N K _ prog OK PH). intros q mm Hq E. unfold reduced_at.
        destruct (Nat.eqb_spec q root) as [->|D].
        + apply (receives_only_ext tot _ _ _ _ E).
          assert (DL : forall i, delivered (blk K root) (fun f => f < N) (fun f => total op (fun k => vec mcounts m i k f) N) (execute op N alg nb (ini op N mcounts F pre_r m i) root)).
          { intros i. unfold block_at. rewrite <- (last_nth N alg nb SL) by auto. apply SOLVE; auto. intros t Ht.
            apply (ini_placed op N alg nb mcounts F Hb1 wm_all LAY FN IN m i t Ht). }
          apply rooted_root; auto.
          * intros n i Hn O Hi. destruct (DL i) as [D1 _]. destruct (D1 n (F root n) Hn O) as [_ X]. rewrite X. apply total_cong; [lia|].
            intros k Hk. unfold vec. apply Nat.ltb_lt in Hi. now rewrite Hi.
          * apply (DL 0).
        + destruct (rooted_other pre_r Q m U q Hq D) as [A B]. split; intros j; rewrite E; auto.
    Qed.
  End Reduce.

  (* ---------- Gather ---------- *)
  Section Gather.
    Context (in_n : nat -> nat).
    Context (INP : forall q, q < N -> in_n q < num_lines (blk 0 q) /\ input_line (blk 0 q) (in_n q) = Some q /\
      forall n, n < num_lines (blk 0 q) -> n <> in_n q -> input_line (blk 0 q) n = None).
    Context (SOLVE : forall (x : nat -> V) st, (forall t, t < N -> placed (first_block (alg t)) (fun _ => x t) (st t)) -> forall t, t < N ->
      delivered (last_block (alg t)) (fun f => f < N) x (execute op N alg nb st t)).
    Local Notation pre_g := (fun q : nat => copyin_gather mcounts (blk 0 q) (mcounts q)).
    Definition gather_code (q : nat) : list instr := program2 N bw size_of pre_g post_root q.
    Lemma gather_rooted (prog : nat -> list instr) (m : nat -> memory) : (forall q, q < N -> prog q = gather_code q) ->
      never_stuck op N prog m /\ leaves_nothing op N prog m /\
      computes op N prog m (gathered_at N root mcounts m).
    Proof.
      intros PRG.
      assert (Q : forall q, q < N -> forallb quiet (pre_g q) = true) by (intros; apply gather_quiet).
      assert (U : forall q a, q < N -> (forall k, fst a <> Shm k) -> exec_list op (pre_g q) (m q) a = m q a).
      { intros q a Hq Ha. apply (pre_g_ok op N alg nb mcounts F Hb1 wm_all LAY FN in_n INP); auto. }
      assert (OK := rooted_ok pre_g Q m U).
      assert (PH : forall q, q < N -> prog q = phased K (L2 N tr nb size_of pre_g post_root kp) q).
      { intros q Hq. rewrite PRG by auto. apply (rooted_phased pre_g Q m U q Hq). }
      split; [|split].
      - apply (once_progress op N K _ prog OK PH).
      - apply (once_clean op N K _ prog OK PH).
      - apply (once_result op N K _ prog OK PH). intros q mm Hq E. unfold gathered_at.
        destruct (Nat.eqb_spec q root) as [->|D].
        + assert (DL : forall i, delivered (blk K root) (fun f => f < N) (own mcounts m i) (execute op N alg nb (ini op N mcounts F pre_g m i) root)).
          { intros i. unfold block_at. rewrite <- (last_nth N alg nb SL) by auto. apply SOLVE; auto. intros t Ht.
            apply (gather_placed op N alg nb mcounts F Hb1 wm_all LAY FN in_n INP m i t Ht). }
          set (out := fun j => match find (fun f => (moffset mcounts f <=? j) && (j <? moffset mcounts f + mcounts f)) (seq 0 N) with
                               | Some f => m f (Sendbuf, j - moffset mcounts f)
                               | None => m 0 (Sendbuf, 0)
                               end).
          assert (O : forall f i, f < N -> i < mcounts f -> out (moffset mcounts f + i) = m f (Sendbuf, i)).
          { intros f i Hf Hi. unfold out. destruct (find _ _) as [g|] eqn:Fd.
            - apply find_some in Fd. destruct Fd as [_ Fd]. apply andb_true_iff in Fd. rewrite Nat.leb_le, Nat.ltb_lt in Fd.
              rewrite !moffset_off in Fd.
              assert (g = f) by (apply (off_inj mcounts (fun n => n) g f i); auto). subst g. do 2 f_equal. lia.
            - exfalso. pose proof (find_none _ _ Fd f) as X. cbv beta in X.
              assert (Y : (moffset mcounts f <=? moffset mcounts f + i) && (moffset mcounts f + i <? moffset mcounts f + mcounts f) = true).
              { apply andb_true_iff. rewrite Nat.leb_le, Nat.ltb_lt. lia. }
              rewrite X in Y; [discriminate|]. apply in_seq. lia. }
          assert (RO : receives_only tot (m root) mm out).
          { apply (receives_only_ext tot _ _ _ _ E). apply rooted_root; auto.
            * intros n i Hn Oq Hi. destruct (DL i) as [D1 _]. destruct (D1 n (F root n) Hn Oq) as [_ X]. rewrite X, O by auto.
              unfold own. apply Nat.ltb_lt in Hi. now rewrite Hi.
            * apply (DL 0). }
          destruct RO as (A & B & C). rewrite <- !moffset_first. split.
          * split; [reflexivity|]. split; auto.
          * intros f i Hf Hi. rewrite <- moffset_first, A; [now apply O|]. pose proof (moffset_lt mcounts f N Hf). lia.
        + destruct (rooted_other pre_g Q m U q Hq D) as [A B]. split; intros j; rewrite E; auto.
    Qed.
  End Gather.
End Rooted.
