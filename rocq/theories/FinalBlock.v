(* One block of a schedule whose lines are columns of N lines: the messages and
   reductions of the final code, in terms of places. *)
From Verif Require Import Base SchedModel SchedSpec RawModel MsgProofs RawCode RawStage RawProofs FinalModel FinalPass FinalMerge FinalShape FinalRename.
Local Ltac Zify.zify_post_hook ::= idtac.

(* What the schedule has to satisfy; lines n, n + N, ... hold the same fragment.
   In the second column only the lines w0, ..., w0 + wk - 1 of a node are used. *)
Record tidy (N : nat) (w0 wk : nat -> nat) (blk : nat -> block) : Prop := {
  td_sent : forall q p, q < N -> p < N -> p <> q -> exists a k, sent_lines blk q p = seq a k /\ a mod N + k <= N;
  td_recv : forall q p, q < N -> p < N -> p <> q -> exists a k, recv_lines blk q p = seq a k /\ a mod N + k <= N;
  td_above : forall q p n, q < N -> p < N -> p <> q -> In n (recv_lines blk q p) -> N <= n;
  td_used_sent : forall q p n, q < N -> p < N -> p <> q -> In n (sent_lines blk q p) -> N <= n < 2 * N -> N + w0 q <= n < N + w0 q + wk q;
  td_used_recv : forall q p n, q < N -> p < N -> p <> q -> In n (recv_lines blk q p) -> N <= n < 2 * N -> N + w0 q <= n < N + w0 q + wk q;
  td_used_red : forall q n r x, q < N -> n < num_lines (blk q) -> In r (reducefrom (lines (blk q) n)) ->
    x = n \/ x = r -> N <= x < 2 * N -> N + w0 q <= x < N + w0 q + wk q;
  td_apart : forall q p p' n, q < N -> p < N -> p <> q -> p' < N -> p' <> q ->
    In n (recv_lines blk q p) -> In n (sent_lines blk q p') -> False;
  td_once : forall q p p' n, q < N -> p < N -> p <> q -> p' < N -> p' <> q ->
    In n (recv_lines blk q p) -> In n (recv_lines blk q p') -> p = p';
  td_self : forall q n e, q < N -> In e (recvfrom (lines (blk q) n)) -> is_node q e = false;
  td_red : forall q, q < N -> exists c, 1 <= c /\ forall n r, n < num_lines (blk q) -> In r (reducefrom (lines (blk q) n)) -> n / N = c /\ r / N <> c;
  td_nocopy : forall q n, q < N -> n < num_lines (blk q) -> copyreducefrom (lines (blk q) n) = [] }.

Section Columns.
  Context (N : nat) (size_of : nat -> nat) (HN : 0 < N).
  Local Notation sz := (sz size_of (fun n => n mod N)).
  Local Notation off := (off size_of (fun n => n mod N)).
  Definition whole : nat := off N.
  Lemma off_next n : off (n + N) = off n + whole.
  Proof.
    induction n as [|n IH]; [reflexivity|]. cbn [Nat.add]. rewrite !off_S, IH. unfold RawStage.sz.
    replace ((n + N) mod N) with (n mod N); [lia|].
    replace (n + N) with (n + 1 * N) by lia. now rewrite Nat.mod_add by lia.
  Qed.
  Lemma off_col c j : off (c * N + j) = c * whole + off j.
  Proof.
    induction c as [|c IH]; [reflexivity|]. replace (S c * N + j) with (c * N + j + N) by lia. rewrite off_next, IH. lia.
  Qed.
  Context (w0 wk : nat) (big : bool) (Hw : w0 + wk <= N) (Hbig : big = true -> w0 = 0) (Hsmall : big = false -> wk <= 1).
  Definition lo : nat := off (N + w0).
  Definition hi : nat := off (N + w0 + wk).
  Lemma off_two : off (N + N) = 2 * whole.
  Proof. rewrite off_next. unfold whole. lia. Qed.
  Lemma window : window_ok whole lo hi big.
  Proof.
    unfold window_ok, lo, hi, whole. repeat split.
    - apply off_le. lia.
    - apply off_le. lia.
    - change (RawStage.off size_of (fun n => n mod N) N) with whole. rewrite <- off_two. apply off_le. lia.
    - intros B. rewrite Hbig by exact B. now rewrite Nat.add_0_r.
  Qed.
  Lemma range_usable a k : a mod N + k <= N -> off a < off (a + k) ->
    (forall n, a <= n < a + k -> N <= n < 2 * N -> N + w0 <= n < N + w0 + wk) ->
    usable whole lo hi big (off a) (off (a + k) - off a).
  Proof.
    intros H P U. split; [lia|]. assert (K0 : 0 < k) by (destruct k; [rewrite Nat.add_0_r in P; lia|lia]).
    pose proof (Nat.div_mod a N ltac:(lia)) as E. assert (HM := Nat.mod_upper_bound a N ltac:(lia)).
    assert (C : a / N = 0 \/ a / N = 1 \/ 2 <= a / N) by (destruct (a / N) as [|[|]]; auto; right; right; lia). destruct C as [C|[C|C]].
    - left. rewrite C in E. replace (off a + _) with (off (a + k)) by lia. apply off_le. lia.
    - right. left. rewrite C in E.
      assert (UA := U a). assert (UK := U (a + k - 1)). unfold lo, hi.
      split; [apply off_le; lia|]. split; [replace (off a + _) with (off (a + k)) by lia; apply off_le; lia|].
      intros B. specialize (Hsmall B). f_equal. lia.
    - right. right. rewrite <- off_two. apply off_le. assert (2 * N <= N * (a / N)) by (rewrite Nat.mul_comm; apply Nat.mul_le_mono_l; lia). lia.
  Qed.
End Columns.

Lemma flat_map_none {A B} (f : A -> list B) l : (forall x, In x l -> f x = []) -> flat_map f l = [].
Proof. induction l as [|x l IH]; cbn [flat_map]; intros H; [reflexivity|]. rewrite H, IH; auto. intros; apply H; now right. now left. Qed.

Section Block.
  Context (N : nat) (size_of : nat -> nat) (HN : 0 < N) (w0 wk : nat -> nat) (big : bool) (blk : nat -> block).
  Context (Hw : forall q, q < N -> w0 q + wk q <= N) (Hbig : big = true -> forall q, q < N -> w0 q = 0) (Hsmall : big = false -> forall q, q < N -> wk q <= 1).
  Context (TD : tidy N w0 wk blk) (WM : well_matched N blk).
  Context (LAY : forall q n, q < N -> n < num_lines (blk q) -> frac (lines (blk q) n) = n mod N).
  Local Notation sz := (sz size_of (fun n => n mod N)).
  Local Notation off := (off size_of (fun n => n mod N)).
  Local Notation T := (whole N size_of).
  Local Notation us q := (usable T (lo N size_of (w0 q)) (hi N size_of (w0 q) (wk q)) big).
  Local Notation rn q := (ren T (lo N size_of (w0 q)) (hi N size_of (w0 q) (wk q))).

  Lemma win q : q < N -> window_ok T (lo N size_of (w0 q)) (hi N size_of (w0 q) (wk q)) big.
  Proof. intros Hq. apply window; auto. Qed.
  Lemma lsz q n : q < N -> n < num_lines (blk q) -> line_size size_of (blk q) n = sz n.
  Proof. intros Hq Hn. unfold line_size, RawStage.sz. now rewrite LAY. Qed.
  Lemma lst q n : q < N -> n <= num_lines (blk q) -> line_start size_of (blk q) n = off n.
  Proof. intros Hq Hn. apply (lstart_off size_of N blk q); auto. Qed.
  Lemma recv_lt q p n : In n (recv_lines blk q p) -> n < num_lines (blk q).
  Proof. unfold recv_lines. intros I. apply filter_In in I. destruct I as [I _]. apply in_seq in I. lia. Qed.
  Lemma sent_lt q p n : In n (sent_lines blk q p) -> n < num_lines (blk q).
  Proof.
    intros H. unfold sent_lines in H. apply in_flat_map in H. destruct H as (x & Hx & H).
    apply in_map_iff in H. destruct H as (e & <- & _). apply in_seq in Hx. lia.
  Qed.
  Lemma sum_off q a k : q < N -> (forall n, In n (seq a k) -> n < num_lines (blk q)) ->
    sum (map (line_size size_of (blk q)) (seq a k)) = off (a + k) - off a.
  Proof.
    intros Hq H. rewrite off_seq. replace (map _ (seq a k)) with (map sz (seq a k)); [lia|].
    apply map_ext_in. intros n In_. symmetry. apply lsz; auto.
  Qed.

  (* a received message *)
  Lemma recv_facts q p : q < N -> p < N -> recv_size size_of q (blk q) p <> 0 ->
    p <> q /\ exists a k, recv_lines blk q p = seq a k /\ recv_size size_of q (blk q) p = off (a + k) - off a /\
      first_start size_of q (blk q) p (seq 0 (num_lines (blk q))) 0 = off a /\ us q (off a) (off (a + k) - off a) /\ off a < off (a + k) /\
      a + k <= num_lines (blk q).
  Proof.
    intros Hq Hp Z.
    assert (Np : p <> q) by (intros ->; apply Z; rewrite rsize_eq, rlines_self; reflexivity).
    split; [exact Np|]. destruct (td_recv _ _ _ _ TD q p Hq Hp Np) as (a & k & E & M). exists a, k.
    assert (LT : forall n, In n (seq a k) -> n < num_lines (blk q)) by (intros n I; apply (recv_lt q p); now rewrite E).
    assert (SZ : recv_size size_of q (blk q) p = off (a + k) - off a).
    { rewrite rsize_eq, rlines_recv by auto. rewrite E. now apply sum_off. }
    assert (P : off a < off (a + k)) by lia.
    assert (EX : exists k', k = S k') by (destruct k; [rewrite Nat.add_0_r in P; lia|eauto]). destruct EX as [k' ->].
    split; [exact E|]. split; [exact SZ|].
    assert (AL : a < num_lines (blk q)) by (apply LT; left; reflexivity).
    split.
    { cbn [seq] in E. rewrite <- rlines_recv in E by auto.
      pose proof (first_start_at size_of N blk q _ (fun n => LAY q n Hq) Hq p a 0 (num_lines (blk q)) _ (le_n _) E) as X.
      rewrite !lst in X by (auto; lia). exact X. }
    split; [|split; [exact P|]].
    - apply range_usable; auto. intros n Hn H2. apply (td_used_recv _ _ _ _ TD q p); auto. rewrite E. apply in_seq. lia.
    - assert (In (a + k') (seq a (S k'))) by (apply in_seq; lia). specialize (LT _ H). lia.
  Qed.
  (* a sent message *)
  Lemma send_facts q p : q < N -> p < N -> ssize size_of q (blk q) p <> 0 ->
    p <> q /\ exists a k, sent_lines blk q p = seq a k /\ slines q (blk q) p = seq a k /\ ssize size_of q (blk q) p = off (a + k) - off a /\
      line_start size_of (blk q) (hd 0 (slines q (blk q) p)) = off a /\ us q (off a) (off (a + k) - off a) /\ off a < off (a + k) /\
      a + k <= num_lines (blk q).
  Proof.
    intros Hq Hp Z.
    assert (Np : p <> q) by (intros ->; apply Z; unfold ssize; rewrite slines_self; reflexivity).
    split; [exact Np|]. destruct (td_sent _ _ _ _ TD q p Hq Hp Np) as (a & k & E & M). exists a, k.
    assert (SL : slines q (blk q) p = sent_lines blk q p) by (apply (slines_sent (fun x => [blk x]) 0); auto).
    assert (LT : forall n, In n (seq a k) -> n < num_lines (blk q)) by (intros n I; apply (sent_lt q p); now rewrite E).
    assert (SZ : ssize size_of q (blk q) p = off (a + k) - off a).
    { unfold ssize. rewrite SL, E. now apply sum_off. }
    assert (P : off a < off (a + k)) by lia.
    assert (EX : exists k', k = S k') by (destruct k; [rewrite Nat.add_0_r in P; lia|eauto]). destruct EX as [k' ->].
    split; [exact E|]. split; [congruence|]. split; [exact SZ|].
    assert (AL : a < num_lines (blk q)) by (apply LT; left; reflexivity).
    split; [rewrite SL, E; cbn [seq hd]; apply lst; auto; lia|].
    split; [|split; [exact P|]].
    - apply range_usable; auto. intros n Hn H2. apply (td_used_sent _ _ _ _ TD q p); auto. rewrite E. apply in_seq. lia.
    - assert (In (a + k') (seq a (S k'))) by (apply in_seq; lia). specialize (LT _ H). lia.
  Qed.
  Lemma slines_contiguous q o : q < N -> exists a k, slines q (blk q) (to_node N q o) = seq a k.
  Proof.
    intros Hq. destruct (Nat.eq_dec (to_node N q o) q) as [E|Ne].
    - rewrite E. exists 0, 0. apply slines_self.
    - assert (L : to_node N q o < N) by (unfold to_node; apply Nat.mod_upper_bound; lia).
      destruct (td_sent _ _ _ _ TD q _ Hq L Ne) as (a & k & E & _). exists a, k. rewrite <- E.
      apply (slines_sent (fun x => [blk x]) 0); auto.
  Qed.
  Lemma never_self q : q < N -> no_self q (blk q).
  Proof.
    intros Hq p. destruct (recvfrom _) as [|e es] eqn:E; [exact I|]. eapply (td_self _ _ _ _ TD q); auto. rewrite E. now left.
  Qed.
  Lemma never_copy q : q < N -> copyreduces size_of (blk q) = [].
  Proof.
    intros Hq. unfold copyreduces. apply flat_map_none. intros n I. apply in_seq in I.
    rewrite (td_nocopy _ _ _ _ TD q n) by (auto; lia). now destruct (_ =? 0).
  Qed.

  (* ---------- the reductions ---------- *)
  Lemma reduces_ascending q : q < N -> exists c ts, 1 <= c /\ reduces size_of (blk q) = map (red_line T c) ts /\
    ascending T (lo N size_of (w0 q)) (hi N size_of (w0 q) (wk q)) big c 0 ts.
  Proof.
    intros Hq. destruct (td_red _ _ _ _ TD q Hq) as (c & C1 & C). exists c.
    assert (G : forall k n0, n0 + k <= num_lines (blk q) -> exists ts,
      flat_map (fun n => flat_map (fun r => if line_size size_of (blk q) n =? 0 then []
        else [Reduce_ (Shm 0, line_start size_of (blk q) n) (Shm 0, line_start size_of (blk q) r) (line_size size_of (blk q) n)])
        (reducefrom (lines (blk q) n))) (seq n0 k) = map (red_line T c) ts /\
      ascending T (lo N size_of (w0 q)) (hi N size_of (w0 q) (wk q)) big c (off n0 - c * T) ts).
    { induction k as [|k IH]; intros n0 Hk; [exists []; split; [reflexivity|exact I]|].
      destruct (IH (S n0)) as (ts & E & A); [lia|]. cbn [seq flat_map]. rewrite E.
      assert (Hn : n0 < num_lines (blk q)) by lia.
      assert (X : exists ts0, flat_map (fun r => if line_size size_of (blk q) n0 =? 0 then []
        else [Reduce_ (Shm 0, line_start size_of (blk q) n0) (Shm 0, line_start size_of (blk q) r) (line_size size_of (blk q) n0)])
        (reducefrom (lines (blk q) n0)) = map (red_line T c) ts0 /\
        ascending T (lo N size_of (w0 q)) (hi N size_of (w0 q) (wk q)) big c (off n0 - c * T) (ts0 ++ ts)).
      { assert (A' : ascending T (lo N size_of (w0 q)) (hi N size_of (w0 q) (wk q)) big c (off n0 - c * T) ts).
        { pose proof (off_le size_of (fun n => n mod N) n0 (S n0) ltac:(lia)) as LE.
          destruct ts as [|t ts]; [exact I|]. cbn [ascending] in *. destruct A as (A1 & A2). split; [lia|exact A2]. }
        assert (R : forall r, In r (reducefrom (lines (blk q) n0)) -> r < num_lines (blk q) /\ r mod N = n0 mod N /\ n0 / N = c /\ r / N <> c).
        { intros r I. destruct WM as [_ W]. destruct (W q n0 Hq Hn) as [_ F]. rewrite Forall_forall in F.
          destruct (F r) as [F1 F2]; [apply in_or_app; now left|]. destruct (C n0 r Hn I) as [X1 X2].
          rewrite !LAY in F2 by auto. auto. }
        assert (U : forall r x, In r (reducefrom (lines (blk q) n0)) -> x = n0 \/ x = r -> N <= x < 2 * N -> N + w0 q <= x < N + w0 q + wk q)
          by (intros; eapply (td_used_red _ _ _ _ TD); eauto).
        destruct (Nat.eqb_spec (line_size size_of (blk q) n0) 0) as [Z|Z].
        { exists []. split; [|exact A']. apply flat_map_none. reflexivity. }
        rewrite lsz in * by auto. rewrite lst by (auto; lia).
        clear IH E A C. revert R U. induction (reducefrom (lines (blk q) n0)) as [|r rs IHr]; intros R U; [exists []; split; [reflexivity|exact A']|].
        destruct IHr as (ts0 & E & A); [intros; apply R; now right|intros; eapply U; eauto; now right|].
        destruct (R r (or_introl eq_refl)) as (R1 & R2 & R3 & R4).
        assert (M := Nat.mod_upper_bound n0 N ltac:(lia)).
        assert (EN : n0 = c * N + n0 mod N) by (rewrite <- R3; pose proof (Nat.div_mod n0 N ltac:(lia)); lia).
        assert (ER : r = r / N * N + n0 mod N) by (rewrite <- R2; pose proof (Nat.div_mod r N ltac:(lia)); lia).
        assert (ON : off n0 = c * T + off (n0 mod N)) by (rewrite EN at 1; apply off_col; auto).
        assert (OR : off r = r / N * T + off (n0 mod N)) by (rewrite ER at 1; apply off_col; auto).
        assert (SR : sz r = sz n0) by (unfold RawStage.sz; now rewrite R2).
        assert (FIT : off (n0 mod N) + sz n0 <= T).
        { unfold whole. replace (sz n0) with (sz (n0 mod N)) by (unfold RawStage.sz; now rewrite Nat.mod_mod by lia). now apply off_lt. }
        exists (PieceRed (r / N) (off (n0 mod N)) (sz n0) :: ts0). split.
        - cbn [flat_map map]. rewrite E. unfold red_line at 2. cbn [pc pj pn]. unfold sm. rewrite <- ON, <- OR. rewrite lst by (auto; lia). reflexivity.
        - cbn [app ascending pj]. split; [lia|]. split.
          + unfold red_ok. cbn [pc pj pn]. split; [exact R4|]. split; [exact FIT|]. rewrite <- ON, <- OR.
            assert (Q : forall x, x mod N = n0 mod N -> x = n0 \/ x = r -> us q (off x) (sz n0)).
            { intros x Hx Hc. replace (sz n0) with (off (x + 1) - off x).
              - apply range_usable; auto; [lia|rewrite Nat.add_1_r, off_S; unfold RawStage.sz in *; rewrite Hx; lia|].
                intros n Hn2 H2. replace n with x in * by lia. apply (U r x); auto. now left.
              - rewrite Nat.add_1_r, off_S. unfold RawStage.sz. rewrite Hx. lia. }
            split; apply Q; auto.
          + replace (off (n0 mod N)) with (off n0 - c * T) by lia. exact A. }
      destruct X as (ts0 & E0 & A0). exists (ts0 ++ ts). rewrite map_app, E0. split; [reflexivity|exact A0]. }
    destruct (G (num_lines (blk q)) 0) as (ts & E & A); [lia|]. exists ts. split; [exact C1|]. split; [exact E|].
    exact A.
  Qed.
End Block.
