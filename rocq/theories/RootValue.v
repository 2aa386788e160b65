(* The values that the code of the pruned schedule computes for the root are
   those of the whole schedule. *)
From Verif Require Import Base SchedModel SchedSpec SchedProofs RawModel MsgProofs PhaseProofs RawCode RawStage RawProofs RootModel RootCode RootLive.
Local Ltac Zify.zify_post_hook ::= idtac.

(* [b'] is [b] with fewer reductions *)
Record thinner (b b' : block) : Prop := {
  th_num : num_lines b' = num_lines b;
  th_frac : forall n, frac (lines b' n) = frac (lines b n);
  th_send : forall n, sendto (lines b' n) = sendto (lines b n);
  th_recv : forall n, recvfrom (lines b' n) = recvfrom (lines b n);
  th_red : forall n, reducefrom (lines b' n) = reducefrom (lines b n) \/ reducefrom (lines b' n) = [];
  th_copy : forall n, copyreducefrom (lines b' n) = copyreducefrom (lines b n) \/ copyreducefrom (lines b' n) = [] }.
Lemma trim_thinner live b : thinner b (trim_block live b).
Proof. split; intros; auto using trim_send, trim_recv, trim_frac; cbn; destruct (live n =? 0); auto. Qed.

Section Thin.
  Context (N : nat) (b b' : nat -> block) (T : forall q, q < N -> thinner (b q) (b' q)).
  Lemma thin_sent p q : p < N -> sent_lines b' p q = sent_lines b p q.
  Proof.
    intros Hp. unfold sent_lines. rewrite (th_num _ _ (T p Hp)). apply flat_ext. intros n _. now rewrite (th_send _ _ (T p Hp)).
  Qed.
  Lemma thin_recv q p : q < N -> recv_lines b' q p = recv_lines b q p.
  Proof.
    intros Hq. unfold recv_lines. rewrite (th_num _ _ (T q Hq)). apply filter_ext. intros n. now rewrite (th_recv _ _ (T q Hq)).
  Qed.
  Lemma thin_matched : well_matched N b -> well_matched N b'.
  Proof.
    intros [W1 W2]. split.
    - intros p q Hp Hq D. destruct (W1 p q Hp Hq D) as [A B]. rewrite thin_sent, thin_recv by auto. split; auto.
      rewrite (map_ext _ (fun n => frac (lines (b p) n))) by (intros; apply (th_frac _ _ (T p Hp))).
      rewrite A. apply map_ext. intros. symmetry. apply (th_frac _ _ (T q Hq)).
    - intros p n Hp Hn. rewrite (th_num _ _ (T p Hp)) in Hn. destruct (W2 p n Hp Hn) as [A B].
      rewrite (th_send _ _ (T p Hp)), (th_recv _ _ (T p Hp)). split; auto.
      rewrite Forall_forall in *. intros r I. rewrite (th_num _ _ (T p Hp)), !(th_frac _ _ (T p Hp)). apply B.
      apply in_app_iff in I. apply in_app_iff. destruct I as [I|I].
      + destruct (th_red _ _ (T p Hp) n) as [E|E]; rewrite E in I; [auto|destruct I].
      + destruct (th_copy _ _ (T p Hp) n) as [E|E]; rewrite E in I; [auto|destruct I].
  Qed.
  Lemma thin_tidy : tidy N b -> tidy N b'.
  Proof.
    intros P. split.
    - apply thin_matched, P.
    - intros q Hq p Hp D. destruct (pl_simple _ _ P q Hq p Hp D) as [A B]. rewrite thin_recv by auto. split; auto.
      unfold reduces_into in *. now rewrite (th_recv _ _ (T q Hq)).
    - intros q n Hq. destruct (th_copy _ _ (T q Hq) n) as [E|E]; auto. rewrite E. now apply P.
    - intros q n r Hq I. destruct (th_red _ _ (T q Hq) r) as [E|E]; auto. rewrite E.
      destruct (th_red _ _ (T q Hq) n) as [E'|E']; rewrite E' in I; [|destruct I]. now apply (pl_source _ _ P q n).
    - intros q n Hq. rewrite (th_num _ _ (T q Hq)), (th_recv _ _ (T q Hq)), (th_send _ _ (T q Hq)). now apply P.
    - intros q n Hq. rewrite (th_num _ _ (T q Hq)), (th_recv _ _ (T q Hq)). now apply P.
    - intros p q Hp Hq. rewrite thin_sent by auto. now apply P.
    - intros q n e Hq. rewrite (th_num _ _ (T q Hq)), (th_recv _ _ (T q Hq)), (th_send _ _ (T q Hq)). now apply P.
  Qed.
  Lemma thin_pairs p q : p < N -> q < N -> pairs b' p q = pairs b p q.
  Proof. intros Hp Hq. unfold pairs. now rewrite thin_sent, thin_recv. Qed.
End Thin.

Section Agree.
  Context (N root : nat) (alg : nat -> list block) (count : nat).
  Local Notation blk i := (block_at alg i).
  Context (Hc : 2 <= count).
  Context (PL : forall i, 1 <= i < count - 1 -> tidy N (blk i)).
  Context (LAST : forall q, q < N -> untouched (blk (count - 1) q)).
  Context (WML : well_matched N (blk (count - 1))).
  Context (NDL : forall p q, p < N -> q < N -> sent_lines (blk (count - 1)) p q = []).
  Local Notation live1 := (lv1 N root alg count).
  Local Notation live2 := (lv2 N root alg count).
  Context (WHOLE : whole_messages N root alg count).
  (* a line that is needed in the next block but does not exist yet is received there *)
  Definition cut_lines : Prop := forall i q n, 1 <= i < count - 1 -> q < N -> live2 (S i) q n <> 0 ->
    num_lines (blk i q) <= n -> recvfrom (lines (blk (S i) q) n) <> [].
  Context (CUT : cut_lines).
  Context (size_of : nat -> nat) (pre post : nat -> list instr).
  Context (Qpre : forall q, q < N -> forallb quiet (pre q) = true) (Qpost : forall q, q < N -> forallb quiet (post q) = true).
  Context {V : Type} (op : V -> V -> V) (mem0 : nat -> @memory V) (F : nat -> nat -> nat).
  Context (LAY : forall m q n, 1 <= m < count -> q < N -> n < num_lines (blk m q) -> frac (lines (blk m q) n) = F q n).
  Local Notation tr := (trimmed N root alg count).
  Local Notation kp := (kept N root alg count).
  Local Notation bt m := (fun q => nth m (tr q) empty_block).
  Local Notation bq m q := (nth m (tr q) empty_block).
  Local Notation C := (cells N tr count size_of pre post kp op mem0 F).
  Local Notation K := (count - 1).

  Lemma bt_thin m q : m < count -> thinner (blk m q) (bq m q).
  Proof. clear. intros Hm. cbv beta. rewrite (trimmed_at N root alg count m q Hm). apply trim_thinner. Qed.
  Lemma wm m : 1 <= m < count -> well_matched N (blk m).
  Proof. clear -PL WML. intros Hm. destruct (Nat.eq_dec m (count - 1)) as [->|D]; auto. apply PL. lia. Qed.
  Lemma bt_wm m : 1 <= m < count -> well_matched N (bt m).
  Proof. clear -PL WML. intros Hm. apply (thin_matched N (blk m)); [|now apply wm]. intros q Hq. apply bt_thin. lia. Qed.
  Lemma bt_pl m : 1 <= m < count - 1 -> tidy N (bt m).
  Proof. clear -PL. intros Hm. apply (thin_tidy N (blk m)); auto. intros q Hq. apply bt_thin. lia. Qed.
  Lemma bt_pr m q : 1 <= m < count -> q < N -> prunes (kp m) q (bq m q) (nth m (backward N root alg count q) empty_block).
  Proof. clear -Hc PL LAST WML WHOLE. intros Hm Hq. apply pruned_ok; auto. now apply wm. Qed.
  Lemma bt_lay m q n : 1 <= m < count -> q < N -> n < num_lines (bq m q) -> frac (lines (bq m q) n) = F q n.
  Proof. clear -LAY.
    intros Hm Hq Hn. rewrite (th_num _ _ (bt_thin m q ltac:(lia))) in Hn. rewrite (th_frac _ _ (bt_thin m q ltac:(lia))). now apply LAY.
  Qed.
  Lemma bt_nd m p q : 1 <= m < count -> p < N -> q < N -> NoDup (sent_lines (bt m) p q).
  Proof. clear -PL NDL.
    intros Hm Hp Hq. rewrite (thin_sent N (blk m)) by (auto; intros; apply bt_thin; lia).
    destruct (Nat.eq_dec m (count - 1)) as [->|D]; [rewrite NDL by auto; constructor|]. apply (pl_nodup _ _ (PL m ltac:(lia))); auto.
  Qed.
  Lemma bt_len : same_length N tr count.
  Proof. intros q Hq. apply trimmed_length. Qed.
  Lemma bw_len : same_length N (backward N root alg count) count.
  Proof. intros q Hq. apply backward_length. Qed.

  Section Cell.
    Context (i : nat) (st0 : nat -> nat -> V).
    Context (S0 : forall q n, q < N -> i < size_of (F q n) -> C i 0 q n = st0 q n).
    Definition whole (m : nat) : nat -> nat -> V := run op N (map (fun m q => nth m (alg q) empty_block) (seq 1 m)) st0.
    Lemma whole_S m : whole (S m) = stage op N (blk (S m)) (whole m).
    Proof. unfold whole, run. rewrite seq_S, map_app, fold_left_app. reflexivity. Qed.

    Lemma agree m : m < K -> forall q n, q < N -> i < size_of (F q n) -> live2 (S m) q n <> 0 ->
      recvfrom (lines (blk (S m) q) n) = [] -> C i m q n = whole m q n.
    Proof.
      induction m as [|m IH]; intros Hm q n Hq Hi Lv R.
      - now apply S0.
      - assert (Hm' : 1 <= S m < count - 1) by lia. assert (IHm : m < K) by lia. specialize (IH IHm).
        pose proof (PL (S m) Hm') as Pm. pose proof (bt_pl (S m) Hm') as Pt.
        assert (TH : forall q, q < N -> thinner (blk (S m) q) (bq (S m) q)) by (intros; apply bt_thin; lia).
        destruct (le_lt_dec (num_lines (blk (S m) q)) n) as [Le|Hn].
        { exfalso. now apply (CUT (S m) q n Hm' Hq Lv Le). }
        assert (L1 : live1 (S m) q n <> 0).
        { apply (RootLive.live1 N root alg count Hc PL LAST (S m) q n Hm'). auto. }
        assert (L2' : live2 (S m) q n <> 0) by (now apply (live_12 N root alg count Hc PL LAST)).
        destruct (next_cells N tr (backward N root alg count) count size_of pre post ltac:(lia) bt_wm Qpre Qpost kp bt_pr op mem0 F bt_lay bt_nd i m q IHm Hq) as (st & A & B & E).
        rewrite E by auto. rewrite whole_S.
        assert (Hnt : n < num_lines (bq (S m) q)) by (now rewrite (th_num _ _ (TH q Hq))).
        rewrite (value_stage N (bt (S m)) Pt op st q n Hq Hnt), (value_stage N (blk (S m)) Pm op (whole m) q n Hq Hn).
        (* the reductions are not trimmed *)
        assert (ER : reducefrom (lines (bq (S m) q) n) = reducefrom (lines (blk (S m) q) n)).
        { cbv beta. rewrite (trimmed_at N root alg count (S m) q) by lia. cbn. destruct (Nat.eqb_spec (live2 (S m) q n) 0); congruence. }
        rewrite ER. clear ER.
        (* the values received *)
        assert (G : forall r, r < num_lines (blk (S m) q) -> live1 (S m) q r <> 0 -> i < size_of (F q r) ->
          received op N (bt (S m)) st q r = received op N (blk (S m)) (whole m) q r).
        { intros r Hr Lr Hir. assert (Lr2 : live2 (S m) q r <> 0) by (now apply (live_12 N root alg count Hc PL LAST)).
          destruct (recvfrom (lines (blk (S m) q) r)) as [|e es] eqn:Er.
          - rewrite (value_kept N (blk (S m)) Pm op (whole m) q r Hq Er).
            rewrite (value_kept N (bt (S m)) Pt op st q r Hq); [|now rewrite (th_recv _ _ (TH q Hq))].
            rewrite B by auto. now apply IH.
          - assert (Ie : In e (recvfrom (lines (blk (S m) q) r))) by (rewrite Er; now left).
            destruct (entry_node N (blk (S m)) Pm q r e Hq Hr) as (Ne & Hp & D); [apply in_or_app; now right|].
            set (p := partner_of e) in *. assert (Dp : p <> q) by auto.
            assert (Ir : In r (recv_lines (blk (S m)) q p)) by (apply in_recv; eauto).
            destruct (pair_of_recv N (blk (S m)) Pm p q r Hp Hq Dp Ir) as (x & Ix).
            rewrite (value_received N (blk (S m)) Pm op (whole m) p q x r) by auto.
            rewrite (value_received N (bt (S m)) Pt op st p q x r); auto; [|now rewrite (thin_pairs N (blk (S m))) by auto].
            destruct (pair_in (blk (S m)) p q x r Ix) as [Ixs _]. apply in_sent in Ixs. destruct Ixs as (Hx & ex & Iex & Nex).
            assert (FR := pair_frac N (blk (S m)) Pm p q x r Hp Hq Dp Ix).
            assert (Fx : i < size_of (F p x)).
            { rewrite <- (LAY (S m) p x) by (auto; lia). rewrite FR. now rewrite (LAY (S m) q r) by (auto; lia). }
            rewrite A; auto.
            + apply IH; auto.
              * apply (RootLive.live2 N root alg count Hc PL LAST (S m) p x Hm'). split; auto. split; auto. right. exists q, r. auto.
              * destruct (recvfrom (lines (blk (S m) p) x)) eqn:Rx; auto. exfalso.
                rewrite (pl_apart _ _ Pm p x) in Iex; auto. rewrite Rx. discriminate.
            + rewrite (kept_eq N root alg count Hc PL LAST WHOLE (S m) p q r) by auto. apply negb_true_iff. now apply Nat.eqb_neq.
            + now rewrite (th_num _ _ (TH p Hp)).
            + rewrite (th_frac _ _ (TH p Hp)). now rewrite (LAY (S m) p x) by (auto; lia). }
        rewrite (G n) by auto.
        assert (GR : forall r, In r (reducefrom (lines (blk (S m) q) n)) -> received op N (bt (S m)) st q r = received op N (blk (S m)) (whole m) q r).
        { intros r Ir. destruct (pl_match _ _ Pm) as [_ W]. destruct (W q n Hq Hn) as [_ W']. rewrite Forall_forall in W'.
          destruct (W' r) as [Hr Fr]; [apply in_or_app; now left|]. apply G; auto.
          - apply (RootLive.live1 N root alg count Hc PL LAST (S m) q r Hm'). split; auto. split; auto. right. exists n. auto.
          - rewrite <- (LAY (S m) q r) by (auto; lia). rewrite Fr. now rewrite (LAY (S m) q n) by (auto; lia). }
        revert GR. generalize (received op N (blk (S m)) (whole m) q n). induction (reducefrom (lines (blk (S m) q) n)) as [|r l IHl]; intros a GR; [reflexivity|].
        cbn. rewrite GR by now left. apply IHl. intros; apply GR; now right.
    Qed.

    (* the last block exchanges nothing *)
    Lemma idle b st q n : q < N -> untouched (b q) -> (forall p, recv_lines b q p = []) -> stage op N b st q n = st q n.
    Proof.
      intros Hq U R. unfold stage. rewrite copyreduced_id by (intros; apply U). rewrite reduced_nil by apply U.
      unfold received. generalize (map (fun o => (N + q - o) mod N) (seq 0 N)). induction l as [|p l IH] using rev_ind; [reflexivity|].
      rewrite fold_left_app. cbn. unfold unpack at 1. rewrite R. destruct (p =? q); auto.
    Qed.
    Lemma no_recv b q : untouched (b q) -> forall p, recv_lines b q p = [].
    Proof. intros U p. unfold recv_lines. apply filter_none. intros n _. destruct (U n) as (-> & _). reflexivity. Qed.
    Lemma root_cells n : root < N -> n < num_lines (blk K root) -> existsb is_user (sendto (lines (blk K root) n)) = true -> i < size_of (F root n) ->
      C i K root n = execute op N alg count st0 root n.
    Proof.
      intros Hr Hn O Hi.
      assert (E : execute op N alg count st0 = whole K) by reflexivity. rewrite E. clear E.
      assert (HK : K - 1 < K) by lia.
      destruct (next_cells N tr (backward N root alg count) count size_of pre post ltac:(lia) bt_wm Qpre Qpost kp bt_pr op mem0 F bt_lay bt_nd i (K - 1) root HK Hr) as (st & _ & B & E).
      replace (S (K - 1)) with K in E by lia. rewrite E by auto.
      assert (T := bt_thin K root ltac:(lia)). assert (U := LAST root Hr).
      assert (UT : untouched (bq K root)).
      { intros k. destruct (U k) as (U1 & U2 & U3). rewrite (th_recv _ _ T). split; auto. split.
        - destruct (th_red _ _ T k) as [X|X]; congruence.
        - destruct (th_copy _ _ T k) as [X|X]; congruence. }
      rewrite idle by (auto using no_recv). rewrite B by auto.
      replace (whole K) with (whole (S (K - 1))) by (f_equal; lia). rewrite whole_S. replace (S (K - 1)) with K by lia.
      rewrite idle by (auto using no_recv). apply agree; auto.
      - replace (S (K - 1)) with K by lia. now apply (live_last N root alg count Hc PL LAST).
      - replace (S (K - 1)) with K by lia. apply U.
    Qed.
  End Cell.
End Agree.
