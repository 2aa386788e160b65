(* Whole broadcast programs, for any schedule in which the data of the root
   reaches every output and no line is filled twice. *)
From Verif Require Import Base SchedModel SchedSpec SchedProofs RawModel MsgProofs PhaseProofs RawCode RawStage RawProofs RawEnd RawSpec RawWhole RawInst
  RootModel RootSpec RootCode RootLive RootValue RootWhole BcastModel BcastSpec BcastLive.
Local Ltac Zify.zify_post_hook ::= idtac.

(* ---------- the root copies its vector, from its own fragment on ---------- *)
Section CopyRoot.
  Context {V : Type} (op : V -> V -> V) (N root : nat) (mcounts : nat -> nat) (Hr : root < N).
  Notation memory := (@memory V).
  Local Notation mo := (moffset mcounts).
  Local Notation tot := (mo N).
  Definition turn (k : nat) : nat := (N + k + root) mod N.
  (* where fragment [turn k] is put *)
  Definition spot (k : nat) : nat := if root + k <=? N then mo (root + k) - mo root else tot - mo root + mo (root + k - N).
  Lemma mo_le f g : f <= g -> mo f <= mo g.
  Proof. clear. intros H. destruct (Nat.eq_dec f g) as [->|D]; auto. pose proof (moffset_lt mcounts f g ltac:(lia)). lia. Qed.
  Lemma turn_eq k : k < N -> turn k = if root + k <? N then root + k else root + k - N.
  Proof.
    intros Hk. unfold turn. destruct (Nat.ltb_spec (root + k) N).
    - replace (N + k + root) with (root + k + 1 * N) by lia. rewrite Nat.mod_add by lia. now apply Nat.mod_small.
    - replace (N + k + root) with (root + k - N + 2 * N) by lia. rewrite Nat.mod_add by lia. apply Nat.mod_small. lia.
  Qed.
  Lemma spot_S k : k < N -> spot (S k) = spot k + mcounts (turn k).
  Proof.
    intros Hk. rewrite turn_eq by auto. unfold spot. pose proof (mo_le root N ltac:(lia)).
    destruct (Nat.leb_spec (root + S k) N), (Nat.leb_spec (root + k) N), (Nat.ltb_spec (root + k) N); try lia.
    - replace (root + S k) with (S (root + k)) by lia. rewrite moffset_S. pose proof (mo_le root (root + k) ltac:(lia)). lia.
    - replace (root + S k - N) with (S (root + k - N)) by lia. rewrite moffset_S.
      assert (Z : root + k = N) by lia. rewrite Z. rewrite Nat.sub_diag. cbn [moffset seq fold_left]. lia.
    - replace (root + S k - N) with (S (root + k - N)) by lia. rewrite moffset_S. lia.
  Qed.
  Lemma spot_0 : spot 0 = 0.
  Proof. unfold spot. rewrite Nat.add_0_r. destruct (Nat.leb_spec root N); lia. Qed.
  Lemma spot_N : spot N = tot.
  Proof.
    unfold spot. pose proof (mo_le root N ltac:(lia)). replace (root + N - N) with root by lia.
    destruct (Nat.leb_spec (root + N) N) as [H'|H'].
    - assert (Z : root = 0) by lia. rewrite Z. cbn [plus]. change (mo 0) with 0. lia.
    - lia.
  Qed.
  (* the rotation *)
  Lemma spot_turn k i : k < N -> i < mcounts (turn k) -> (spot k + i + mo root) mod tot = mo (turn k) + i.
  Proof.
    intros Hk. rewrite turn_eq by auto. unfold spot. intros Hi. pose proof (mo_le root N ltac:(lia)).
    destruct (Nat.ltb_spec (root + k) N) as [L|L].
    - replace (root + k <=? N) with true by (symmetry; apply Nat.leb_le; lia). pose proof (mo_le root (root + k) ltac:(lia)).
      pose proof (moffset_lt mcounts (root + k) N ltac:(lia)). rewrite Nat.mod_small by lia. lia.
    - set (f := root + k - N) in *. pose proof (moffset_lt mcounts f N ltac:(lia)).
      assert (E : (if root + k <=? N then mo (root + k) - mo root else tot - mo root + mo f) = tot - mo root + mo f).
      { destruct (Nat.leb_spec (root + k) N); auto. assert (Z : root + k = N) by lia. assert (f = 0) by (unfold f; lia). rewrite Z, H2. change (mo 0) with 0. lia. }
      rewrite E. replace (tot - mo root + mo f + i + mo root) with (mo f + i + 1 * tot) by lia. rewrite Nat.mod_add by lia. apply Nat.mod_small. lia.
  Qed.
  Lemma copyin_from_ok : forall k n0 (m : memory), n0 + k <= N ->
    let m' := exec_list op (copyin_from mcounts N root (seq n0 k) (spot n0)) m in
    (forall a, fst a <> Shm 0 \/ snd a < spot n0 -> m' a = m a) /\
    (forall n i, n0 <= n < n0 + k -> i < mcounts (turn n) -> m' (Shm 0, spot n + i) = m (Recvbuf, mo (turn n) + i)).
  Proof.
    induction k as [|k IH]; intros n0 m HN; cbv zeta; [split; auto; intros; lia|].
    cbn [seq copyin_from]. fold (turn n0). rewrite <- spot_S by lia.
    set (m1 := exec_local op (Memcpy (Shm 0, spot n0) (Recvbuf, mo (turn n0)) (mcounts (turn n0))) m).
    change (exec_list op (Memcpy (Shm 0, spot n0) (Recvbuf, mo (turn n0)) (mcounts (turn n0)) :: copyin_from mcounts N root (seq (S n0) k) (spot (S n0))) m)
      with (exec_list op (copyin_from mcounts N root (seq (S n0) k) (spot (S n0))) m1).
    destruct (IH (S n0) m1) as [A B]; [lia|]. cbv zeta in A, B. clear IH.
    assert (C : forall a, fst a <> Shm 0 \/ snd a < spot n0 -> m1 a = m a).
    { intros a Ha. unfold m1. cbn [exec_local]. destruct (inside _ _ _) eqn:I; auto. apply inside_spec in I. cbn in I.
      exfalso. destruct Ha as [Ha|Ha]; [apply Ha; symmetry; tauto|lia]. }
    split.
    - intros a Ha. rewrite A; [now apply C|]. destruct Ha; auto. right. rewrite spot_S by lia. lia.
    - intros n i Hn Hi. destruct (Nat.eq_dec n n0) as [->|D].
      + rewrite A by (right; cbn [snd]; rewrite spot_S by lia; lia). unfold m1. cbn [exec_local].
        rewrite (inside_pair (Shm 0) (spot n0) (mcounts (turn n0)) i) by lia. cbn [snd]. unfold at_off. cbn [fst snd]. do 2 f_equal. lia.
      + rewrite B by (auto; lia). apply C. left. discriminate.
  Qed.
  Lemma spot_cover j : j < tot -> exists n i, n < N /\ i < mcounts (turn n) /\ j = spot n + i.
  Proof.
    rewrite <- spot_N. assert (X : forall K, K <= N -> j < spot K -> exists n i, n < K /\ i < mcounts (turn n) /\ j = spot n + i).
    { induction K as [|K IH]; intros HK H; [rewrite spot_0 in H; lia|]. rewrite spot_S in H by lia.
      destruct (le_lt_dec (spot K) j) as [Le|Lt].
      - exists K, (j - spot K). repeat split; lia.
      - destruct (IH ltac:(lia) Lt) as (n & i & ? & ? & ?). exists n, i. repeat split; auto. }
    apply X. lia.
  Qed.
  Lemma exec_barriers l (m : memory) : exec_list op (Barrier :: l ++ [Barrier]) m = exec_list op l m.
  Proof. change (exec_list op (Barrier :: l ++ [Barrier]) m) with (exec_list op (l ++ [Barrier]) m). now rewrite exec_list_app. Qed.
  Lemma copyin_root_ok q (m : memory) :
    (forall a, fst a <> Shm 0 -> exec_list op (copyin_root mcounts N root q) m a = m a) /\
    (q = root -> forall j, j < tot -> exec_list op (copyin_root mcounts N root q) m (Shm 0, j) = m (Recvbuf, (j + mo root) mod tot)).
  Proof.
    unfold copyin_root. rewrite exec_barriers. destruct (Nat.eqb_spec q root) as [E|D].
    - rewrite E. destruct (copyin_from_ok N 0 m) as [A B]; [lia|]. cbv zeta in *. rewrite spot_0 in *. split.
      + intros a Ha. apply A. now left.
      + intros _ j Hj. destruct (spot_cover j Hj) as (n & i & Hn & Hi & ->). rewrite B by (auto; lia). now rewrite spot_turn.
    - split; [reflexivity|]. congruence.
  Qed.
  Lemma copyin_root_quiet q : forallb quiet (copyin_root mcounts N root q) = true.
  Proof.
    unfold copyin_root. cbn [forallb quiet andb]. rewrite forallb_app. cbn. rewrite andb_true_r. destruct (q =? root); auto.
    generalize 0 at 2. induction (seq 0 N) as [|n l IH]; intros c; auto. cbn. apply IH.
  Qed.
End CopyRoot.

Section Bcast.
  Context {V : Type} (op : V -> V -> V) (N root : nat) (alg : nat -> list block) (nb : nat) (mcounts : nat -> nat).
  Context (F : nat -> nat -> nat).
  Notation memory := (@memory V).
  Local Notation blk m := (block_at alg m).
  Local Notation FL := (filled N root alg nb).
  Local Notation GO := (got N root alg nb).
  Context (Hr : root < N) (Hb : 2 <= nb).
  Context (PL : forall i, 1 <= i < nb - 1 -> tidy N (blk i)).
  Context (FIRST : forall q n, q < N -> sendto (lines (blk 0 q) n) = [] /\ reducefrom (lines (blk 0 q) n) = [] /\ copyreducefrom (lines (blk 0 q) n) = []).
  Context (LAST : forall q, q < N -> untouched (blk (nb - 1) q)).
  Context (WML : well_matched N (blk (nb - 1))).
  Context (NDL : forall p q, p < N -> q < N -> sent_lines (blk (nb - 1)) p q = []).
  Context (WHOLE : forall i, 1 <= i < nb - 1 -> whole_sends N (blk i) (FL (i - 1))).
  Context (ONE : forall i, 1 <= i < nb - 1 -> one_filled N (blk i) (GO i)).
  Context (LAY : forall m q n, m < nb -> q < N -> n < num_lines (blk m q) -> frac (lines (blk m q) n) = F q n).
  Context (FN : forall q n, q < N -> F q n < N).
  Local Notation size_of := (mmsizes mcounts N).
  Local Notation K := (nb - 1).
  Local Notation tot := (moffset mcounts N).
  Local Notation fd := (fed N root alg nb).
  Local Notation fw := (forward N root alg nb).
  Local Notation kp := (sends_filled N root alg nb).
  Local Notation pre := (copyin_root mcounts N root).
  Definition post_others (q : nat) : list instr := if q =? root then [] else copyout_all mcounts (blk K q) tot.

  Lemma bc_wm m : 1 <= m < nb -> well_matched N (blk m).
  Proof. clear -PL WML. intros H. destruct (Nat.eq_dec m (nb - 1)) as [->|D]; auto. apply (pl_match _ _ (PL m ltac:(lia))). Qed.
  Lemma fd_block m : m < nb -> (forall q, nth m (fd q) empty_block = fed_block N root alg nb m q).
  Proof. intros H q. now apply fed_at. Qed.
  Lemma fd_wm m : 1 <= m < nb -> well_matched N (fun q => nth m (fd q) empty_block).
  Proof.
    intros H. assert (W := fed_matched N root alg nb Hb PL FIRST LAST m H (bc_wm m H)). destruct W as [W1 W2]. split.
    - intros p q Hp Hq D. destruct (W1 p q Hp Hq D) as [A B].
      unfold sent_lines, recv_lines in *. rewrite !fd_block by lia. split; auto.
    - intros q n Hq. cbv beta. rewrite fd_block by lia. now apply W2.
  Qed.
  Lemma fd_lay : forall m q n, 1 <= m < nb -> q < N -> n < num_lines (nth m (fd q) empty_block) -> frac (lines (nth m (fd q) empty_block) n) = F q n.
  Proof. intros m q n Hm Hq. rewrite fd_block by lia. rewrite fed_frac. cbn [fed_block num_lines]. intros Hn. apply LAY; auto. lia. Qed.
  Lemma fd_nd : forall m p q, 1 <= m < nb -> p < N -> q < N -> NoDup (sent_lines (fun q => nth m (fd q) empty_block) p q).
  Proof.
    intros m p q Hm Hp Hq. replace (sent_lines (fun q => nth m (fd q) empty_block) p q) with (sent_lines (blk m) p q).
    - destruct (Nat.eq_dec m (nb - 1)) as [->|D]; [rewrite NDL by auto; constructor|]. apply (pl_nodup _ _ (PL m ltac:(lia))); auto.
    - rewrite <- (fed_sent N root alg nb). unfold sent_lines. now rewrite fd_block by lia.
  Qed.
  Lemma fd_pr : forall m q, 1 <= m < nb -> q < N -> prunes (kp m) q (nth m (fd q) empty_block) (nth m (fw q) empty_block).
  Proof. intros m q Hm Hq. apply (forward_ok N root alg nb Hb PL FIRST LAST WHOLE m q Hm Hq (bc_wm m Hm)). Qed.
  Lemma pre_quiet q : q < N -> forallb quiet (pre q) = true.
  Proof. intros _. apply copyin_root_quiet. Qed.
  Lemma post_quiet q : q < N -> forallb quiet (post_others q) = true.
  Proof. intros _. unfold post_others. destruct (q =? root); auto. apply copyout_quiet. Qed.

  Section Run.
  Context (mem0 : nat -> memory).
  (* where the elements of the root's vector go *)
  Context (src : nat -> nat).
  Context (INP : forall n i, FL 0 root n -> i < mcounts (F root n) ->
    off size_of (F root) n + i < tot /\ (off size_of (F root) n + i + moffset mcounts root) mod tot = src (moffset mcounts (F root n) + i)).
  Local Notation LL := (L2 N fd nb size_of pre post_others kp).
  Local Notation AM := (amid2 N fd nb size_of pre post_others kp op mem0).
  Local Notation C := (cells N fd nb size_of pre post_others kp op mem0 F).
  Local Notation data i f := (mem0 root (Recvbuf, src (moffset mcounts f + i))).

  Lemma bc_next i m q : m < K -> q < N -> exists st,
    (forall p x, p < N -> p <> q -> kp (S m) p q = true -> x < num_lines (blk (S m) p) -> i < size_of (frac (lines (blk (S m) p) x)) -> st p x = C i m p x) /\
    (forall n, i < size_of (F q n) -> st q n = C i m q n) /\
    (forall n, i < size_of (F q n) -> C i (S m) q n = stage op N (fed_block N root alg nb (S m)) st q n).
  Proof.
    intros Hm Hq.
    destruct (next_cells N fd fw nb size_of pre post_others ltac:(lia) fd_wm pre_quiet post_quiet kp fd_pr op mem0 F fd_lay fd_nd i m q Hm Hq)
      as (st & A & B & D).
    exists st. split; [|split]; auto.
    - intros p x Hp Np Kp Hx Hi. apply A; auto; cbv beta; rewrite fd_block by lia; auto. now rewrite fed_frac.
    - intros n Hi. rewrite D by auto. assert (X : forall b b' : nat -> block, (forall p, b p = b' p) -> stage op N b st q n = stage op N b' st q n).
      { clear. intros b b' E. unfold stage, copyreduced, copyreduce_line, reduced, reduce_line. rewrite (E q). 
        replace (received op N b st q) with (received op N b' st q); [reflexivity|].
        unfold received. apply fold_ext. intros mm p _. unfold unpack, recv_lines, message, sent_lines, reduces_into. now rewrite !E. }
      apply X. intros p. now apply fd_block; lia.
  Qed.
  Lemma bc_cells i m : m <= nb - 2 -> forall q n, FL m q n -> i < mcounts (F q n) -> C i m q n = data i (F q n).
  Proof.
    induction m as [|m IH]; intros Hm q n Fi Hi; destruct (filled_range N root alg nb _ q n Fi) as [Hq Hn].
    - pose proof (proj1 (filled_first N root alg nb FIRST q n) Fi) as (E & _). rewrite E in *. destruct (INP n i Fi Hi) as [I1 I2].
      unfold cells, amid2, RawProofs.front. cbn [memat Nat.eqb].
      destruct (copyin_root_ok op N root mcounts Hr root (mem0 root)) as [_ X]. rewrite X by auto. now rewrite I2.
    - assert (Hm' : 1 <= S m < nb - 1) by lia. pose proof (PL (S m) Hm') as P.
      assert (FL1 := flows_at N root alg nb Hb PL FIRST LAST (S m) Hm'). replace (S m - 1) with m in FL1 by lia.
      destruct (bc_next i m q ltac:(lia) Hq) as (st & A & B & D).
      rewrite D by (rewrite (size_of_eq N mcounts) by auto; auto).
      destruct (fed_stage N root alg nb Hb PL FIRST LAST WHOLE ONE op (S m) st q n Hm' Hq Hn Fi) as (r & Ir & Gr & ->).
      assert (Hr' : r < num_lines (blk (S m) q) /\ F q r = F q n).
      { destruct Ir as [->|Ir]; auto. destruct (pl_match _ _ P) as [_ W]. destruct (W q n Hq Hn) as [_ W']. rewrite Forall_forall in W'.
        destruct (W' r) as [Hr1 Fr]; [apply in_or_app; now left|]. split; auto. rewrite <- (LAY (S m) q r), <- (LAY (S m) q n) by (auto; lia). exact Fr. }
      destruct Hr' as [Hr1 Fr]. rewrite <- Fr in *.
      assert (Hi' : i < size_of (F q r)) by (rewrite (size_of_eq N mcounts) by auto; auto).
      destruct (line_cases N (blk (S m)) P q r Hq Hr1) as [R|(p & x & e & Hp & Dp & R & _ & _ & J)].
      + rewrite (value_kept N (blk (S m)) P op st q r Hq R). rewrite B by auto. apply IH; auto; [lia|].
        now apply (fl_kept _ _ _ _ _ FL1 q r Hq Hr1 R).
      + rewrite (value_received N (blk (S m)) P op st p q x r Hp Hq Dp J).
        apply (fl_recv _ _ _ _ _ FL1 p q x r Hp Hq Dp J) in Gr.
        destruct (pair_in (blk (S m)) p q x r J) as [J1 _]. pose proof (proj1 (in_sent (blk (S m)) p q x) J1) as (Hx & _).
        pose proof (pair_frac N (blk (S m)) P p q x r Hp Hq Dp J) as Fx. rewrite (LAY (S m) q r), (LAY (S m) p x) in Fx by (auto; lia).
        rewrite A; auto.
        * rewrite (IH ltac:(lia) p x Gr) by congruence. now rewrite Fx.
        * rewrite (sends_eq N root alg nb Hb PL FIRST LAST WHOLE (S m) p q x) by auto. apply negb_true_iff, Nat.eqb_neq.
          apply (m1_filled N root alg nb Hb PL FIRST LAST (S m) p x Hm' Hp Hx). now replace (S m - 1) with m by lia.
        * rewrite (LAY (S m) p x) by (auto; lia). now rewrite Fx.
  Qed.
  (* the last block exchanges nothing *)
  Lemma bc_last i q n : q < N -> i < mcounts (F q n) -> FL (nb - 2) q n -> C i K q n = data i (F q n).
  Proof.
    intros Hq Hi Fi. rewrite <- (bc_cells i (nb - 2)) by auto. destruct (bc_next i (nb - 2) q ltac:(lia) Hq) as (st & _ & B & D).
    assert (Hi' : i < size_of (F q n)) by (rewrite (size_of_eq N mcounts) by auto; auto).
    replace K with (S (nb - 2)) by lia. rewrite D by auto. rewrite <- B by auto. replace (S (nb - 2)) with K by lia.
    apply idle; auto.
    - intros k. destruct (LAST q Hq k) as (R1 & R2 & R3). rewrite fed_recv.
      destruct (fed_reduce N root alg nb K q k) as [-> ->].
      + intros j. apply (LAST q Hq).
      + rewrite R1, R2. cbn [filter]. now destruct (lit _ _ _ _ _ _ _).
    - intros p. rewrite fed_recvl. apply no_recv. now apply LAST.
  Qed.
  Lemma bc_user q a : q < N -> (forall k, fst a <> Shm k) -> AM K q a = mem0 q a.
  Proof.
    intros Hq Ha. rewrite (user_kept2 N fd fw nb size_of pre post_others ltac:(lia) fd_wm pre_quiet post_quiet kp
      fd_pr op mem0 F fd_lay fd_nd) by auto.
    apply (copyin_root_ok op N root mcounts Hr q (mem0 q)). apply Ha.
  Qed.
  Context (OUT : forall q n, q < N -> n < num_lines (blk K q) -> output_line (blk K q) n = Some (F q n) -> FL (nb - 2) q n).
  Context (ALL : forall q f, q < N -> f < N -> exists n, n < num_lines (blk K q) /\ output_line (blk K q) n = Some f).
  Lemma bcast_run (prog : nat -> list instr) : (forall q, q < N -> prog q = program2 N fw size_of pre post_others q) ->
    never_stuck op N prog mem0 /\ leaves_nothing op N prog mem0 /\
    computes op N prog mem0 (fun q new => if q =? root then unchanged (mem0 q) new else receives_only tot (mem0 q) new (fun j => mem0 root (Recvbuf, src j))).
  Proof.
    intros PRG.
    assert (OK : phases_ok N K LL). { apply ok2; auto using post_quiet, pre_quiet; [lia|]. exact fd_wm. }
    assert (PH : forall q, q < N -> prog q = phased K LL q).
    { intros q Hq. rewrite PRG by auto. apply program2_phased; auto using post_quiet, pre_quiet; [lia| | |].
      - intros t _. apply forward_length.
      - exact fd_wm.
      - exact fd_pr. }
    split; [|split].
    - apply (once_progress op N K _ prog OK PH).
    - apply (once_clean op N K _ prog OK PH).
    - apply (once_result op N K _ prog OK PH). intros q mm Hq E.
      rewrite raw_end2 in E by auto. unfold post_others at 1 in E. destruct (Nat.eqb_spec q root) as [->|D].
      + split; intros j; rewrite E; apply bc_user; auto; discriminate.
      + apply (receives_only_ext tot _ _ _ _ E).
        destruct (post_a_out op N alg nb mcounts F ltac:(lia) bc_wm LAY FN (fun j => mem0 root (Recvbuf, src j)) q (AM K q) Hq) as (X & Y & Z).
        * intros n i Hn O Hi. apply (bc_last i q n); auto.
        * intros f. now apply ALL.
        * split; [exact X|]. split; intros; [rewrite Y by auto|rewrite Z]; apply bc_user; auto; discriminate.
  Qed.
  End Run.
End Bcast.
