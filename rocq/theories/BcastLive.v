(* Which lines the forward interpreter regards as filled, and the schedule that
   it leaves. *)
From Verif Require Import Base SchedModel SchedSpec SchedProofs RawModel MsgProofs PhaseProofs RawCode RawStage RawProofs RootModel RootCode RootLive RootValue BcastModel.
Local Ltac Zify.zify_post_hook ::= idtac.

Lemma is_nil_spec {A} (l : list A) : is_nil l = true <-> l = [].
Proof. destruct l; cbn; split; congruence. Qed.
Lemma filter_nil_ex {A} (f : A -> bool) l : filter f l <> [] <-> exists x, In x l /\ f x = true.
Proof.
  split.
  - intros H. destruct (filter f l) as [|x r] eqn:E; [congruence|]. exists x. apply filter_In. rewrite E. now left.
  - intros (x & I & E) X. assert (Y : In x (filter f l)) by (apply filter_In; auto). rewrite X in Y. destruct Y.
Qed.

(* ---------- the reductions of one node ---------- *)
Section Settle.
  Context (b : block).
  Context (NC : forall n, copyreducefrom (lines b n) = []).
  Context (SRC : forall n r, In r (reducefrom (lines b n)) -> reducefrom (lines b r) = []).
  Implicit Type v : nat -> nat.
  Definition live (v : nat -> nat) (r : nat) : bool := negb (v r =? 0).

  Lemma settle_eq v n : settle_line (lines b n) n v =
    if v n =? 0 then ((if is_nil (filter (live v) (reducefrom (lines b n))) then 0 else 1), ([], filter (live v) (reducefrom (lines b n))))
    else (v n, (filter (live v) (reducefrom (lines b n)), [])).
  Proof.
    unfold settle_line. rewrite NC. cbn [is_nil]. rewrite andb_true_r. destruct (Nat.eqb_spec (v n) 0) as [Z|Z].
    - destruct (reducefrom (lines b n)) as [|r l] eqn:R; [reflexivity|].
      change (negb (is_nil (r :: l))) with true. cbv iota. change (is_nil (r :: l)) with false. cbv iota.
      change (fun r0 => negb (v r0 =? 0)) with (live v). destruct (filter (live v) (r :: l)) eqn:F; cbn [is_nil filter]; reflexivity.
    - cbn [is_nil]. apply Nat.eqb_neq in Z. rewrite Z. do 2 f_equal. apply filter_ext. intros r. unfold live, upd.
      destruct (Nat.eq_dec r n) as [->|]; reflexivity.
  Qed.
  Lemma settled_S v k : settled b v (S k) = upd Nat.eq_dec (settled b v k) k (fst (settle_line (lines b k) k (settled b v k))).
  Proof. unfold settled. now rewrite seq_S, fold_left_app. Qed.
  Lemma settled_above v k n : k <= n -> settled b v k n = v n.
  Proof. induction k as [|k IH]; intros H; [reflexivity|]. rewrite settled_S, upd_other by lia. apply IH. lia. Qed.
  Lemma settled_source v k r : reducefrom (lines b r) = [] -> settled b v k r = v r.
  Proof.
    intros R. induction k as [|k IH]; [reflexivity|]. rewrite settled_S. unfold upd. destruct (Nat.eq_dec r k) as [<-|D]; [|exact IH].
    rewrite settle_eq, R. cbn [filter is_nil]. rewrite IH. destruct (Nat.eqb_spec (v r) 0) as [Z|Z]; auto.
  Qed.
  (* a line is settled with the values that its sources had at first *)
  Lemma settle_at v n : settle_line (lines b n) n (settled b v n) = settle_line (lines b n) n v.
  Proof.
    rewrite !settle_eq. rewrite settled_above by auto.
    replace (filter (live (settled b v n)) (reducefrom (lines b n))) with (filter (live v) (reducefrom (lines b n))); [reflexivity|].
    apply filter_ext_in. intros r Hr. unfold live. rewrite settled_source; auto. now apply SRC with n.
  Qed.
  Lemma settled_below v k n : n < k -> settled b v k n = fst (settle_line (lines b n) n v).
  Proof.
    induction k as [|k IH]; intros H; [lia|]. rewrite settled_S. unfold upd. destruct (Nat.eq_dec n k) as [->|D].
    - now rewrite settle_at.
    - apply IH. lia.
  Qed.
  Lemma settled_spec v k n : n < k -> (settled b v k n <> 0 <-> v n <> 0 \/ exists r, In r (reducefrom (lines b n)) /\ v r <> 0).
  Proof.
    intros H. rewrite settled_below by auto. rewrite settle_eq.
    assert (X : filter (live v) (reducefrom (lines b n)) <> [] <-> exists r, In r (reducefrom (lines b n)) /\ v r <> 0).
    { rewrite filter_nil_ex. unfold live. split; intros (r & I & E); exists r; split; auto.
      - now apply negb_true_iff, Nat.eqb_neq in E.
      - now apply negb_true_iff, Nat.eqb_neq. }
    rewrite <- X. destruct (Nat.eqb_spec (v n) 0) as [Z|Z].
    - cbn [fst]. destruct (filter (live v) (reducefrom (lines b n))); cbn [is_nil]; split.
      + intros X'. now contradiction X'.
      + intros [X'|X']; now contradiction X'.
      + intros _. right. discriminate.
      + intros _. discriminate.
    - cbn [fst]. tauto.
  Qed.
End Settle.

(* ---------- the messages of one block ---------- *)
Section OneBlock.
  Context (N : nat) (b : nat -> block) (P : tidy N b).

  Lemma spoken_eq v p q : spoken b v p q = map (at_ v p) (sent_lines b p q).
  Proof.
    unfold spoken, sent_lines. generalize (seq 0 (num_lines (b p))). induction l as [|n l IH]; [reflexivity|].
    cbn [flat_map]. rewrite map_app, IH, map_map. reflexivity.
  Qed.
  Lemma listening_eq p q : q < N -> listening b q p = recv_lines b q p.
  Proof.
    intros Hq. unfold listening, recv_lines.
    assert (X : forall l, (forall n, In n l -> n < num_lines (b q)) ->
      flat_map (fun j => map (fun _ => j) (filter (is_node p) (recvfrom (lines (b q) j)))) l =
      filter (fun n => existsb (is_node p) (recvfrom (lines (b q) n))) l).
    { induction l as [|n l IH]; intros H; [reflexivity|]. cbn [flat_map filter]. rewrite IH by (intros; apply H; now right).
      pose proof (pl_one _ _ P q n Hq (H n (or_introl eq_refl))) as O.
      destruct (recvfrom (lines (b q) n)) as [|e [|e' es]]; [reflexivity| |cbn in O; lia]. cbn. rewrite orb_false_r.
      destruct (is_node p e); reflexivity. }
    apply X. intros n Hn. apply in_seq in Hn. lia.
  Qed.
  Lemma heard_in v p q x n : p < N -> q < N -> p <> q -> In (x, n) (pairs b p q) -> heard b v q p n = at_ v p x.
  Proof.
    intros Hp Hq D I. unfold heard. rewrite listening_eq, spoken_eq by auto.
    assert (L := pair_len N b P p q Hp Hq D). apply find_last.
    - rewrite map_fst_combine by (rewrite map_length; auto). unfold recv_lines. apply NoDup_filter, seq_NoDup.
    - apply in_combine_map. unfold pairs in I. revert I. clear. generalize (sent_lines b p q), (recv_lines b q p).
      induction l as [|a l IH]; intros [|c l']; cbn; auto. intros [E|I]; [left; congruence|right; auto].
  Qed.
  (* every line is kept or received from one node *)
  Lemma line_cases q n : q < N -> n < num_lines (b q) ->
    recvfrom (lines (b q) n) = [] \/
    exists p x e, p < N /\ p <> q /\ recvfrom (lines (b q) n) = [e] /\ partner_of e = p /\ is_node p e = true /\ In (x, n) (pairs b p q).
  Proof.
    intros Hq Hn. pose proof (pl_one _ _ P q n Hq Hn) as O.
    destruct (recvfrom (lines (b q) n)) as [|e [|e' es]] eqn:R; [auto| |cbn in O; lia]. right.
    destruct (entry_node N b P q n e Hq Hn) as (A & B & C); [apply in_or_app; right; rewrite R; now left|].
    destruct (pair_of_recv N b P (partner_of e) q n) as (x & I); auto.
    { apply in_recv. split; auto. exists e. rewrite R. split; [now left|auto]. }
    exists (partner_of e), x, e. repeat split; auto.
  Qed.
  Lemma informed_kept v q n : recvfrom (lines (b q) n) = [] -> informed b v q n = at_ v q n.
  Proof. intros R. unfold informed. now rewrite R. Qed.
  Lemma informed_recv v p q x n : p < N -> q < N -> p <> q -> In (x, n) (pairs b p q) ->
    informed b v q n = if at_ v p x =? 0 then if is_nil (reducefrom (lines (b q) n)) then 0 else at_ v q n else 2.
  Proof.
    intros Hp Hq D I. destruct (pair_in b p q x n I) as [_ I']. pose proof (proj1 (in_recv b p q n) I') as (Hn & e0 & I0 & N0).
    destruct (line_cases q n Hq Hn) as [R|(p' & x' & e & Hp' & D' & R & Pe & Ne & J)].
    - rewrite R in I0. destruct I0.
    - rewrite R in I0. destruct I0 as [<-|[]]. pose proof (node_partner p e N0) as Pp.
      unfold informed. rewrite R. cbn [fold_left].
      assert (Z : (0 <= fst e)%Z). { apply (pl_nodes _ _ P q n e Hq Hn). apply in_or_app. right. rewrite R. now left. }
      replace (0 <=? fst e)%Z with true by (symmetry; now apply Z.leb_le).
      replace (is_node q e) with false.
      2:{ symmetry. apply not_true_is_false. intros X. apply node_partner in X. congruence. }
      cbn [andb negb]. rewrite Pp, (heard_in v p q x n) by auto. rewrite (pl_nocopy _ _ P) by auto. cbn [is_nil]. rewrite andb_true_r.
      now destruct (at_ v p x =? 0).
  Qed.
End OneBlock.

(* B: the lines filled before the block, G: after its messages, A: after its reductions *)
Record flows (N : nat) (b : nat -> block) (B G A : nat -> nat -> Prop) : Prop := {
  fl_kept : forall q n, q < N -> n < num_lines (b q) -> recvfrom (lines (b q) n) = [] -> (G q n <-> B q n);
  fl_recv : forall p q x n, p < N -> q < N -> p <> q -> In (x, n) (pairs b p q) -> (G q n <-> B p x);
  fl_after : forall q n, q < N -> n < num_lines (b q) -> (A q n <-> G q n \/ exists r, In r (reducefrom (lines (b q) n)) /\ G q r) }.
(* all lines of a message are filled, or none *)
Definition whole_sends (N : nat) (b : nat -> block) (B : nat -> nat -> Prop) : Prop :=
  forall p q x x', p < N -> q < N -> p <> q -> In x (sent_lines b p q) -> In x' (sent_lines b p q) -> B p x -> B p x'.
(* at most one of the lines that are reduced is filled *)
Definition one_filled (N : nat) (b : nat -> block) (G : nat -> nat -> Prop) : Prop :=
  forall q n, q < N -> n < num_lines (b q) -> NoDup (reducefrom (lines (b q) n)) /\
    forall r r', In r (n :: reducefrom (lines (b q) n)) -> In r' (n :: reducefrom (lines (b q) n)) -> G q r -> G q r' -> r = r'.

(* ---------- all blocks ---------- *)
Section Levels.
  Context (N root : nat) (alg : nat -> list block) (count : nat).
  Local Notation blk i := (block_at alg i).
  Local Notation marks := (marks N root alg count).
  Definition m1 (i : nat) : table := fst (fst (fst (marks i))).
  Definition m2 (i : nat) : table := snd (fst (fst (marks i))).
  Definition m3 (i : nat) : table := snd (fst (marks i)).
  Definition m4 (i : nat) : table := snd (marks i).
  Definition filled (i q n : nat) : Prop := at_ (m4 i) q n <> 0.
  Definition got (i q n : nat) : Prop := at_ (m3 i) q n <> 0.
  Context (Hc : 2 <= count).
  Context (PL : forall i, 1 <= i < count - 1 -> tidy N (blk i)).
  Context (FIRST : forall q n, q < N -> sendto (lines (blk 0 q) n) = [] /\ reducefrom (lines (blk 0 q) n) = [] /\ copyreducefrom (lines (blk 0 q) n) = []).
  Context (LAST : forall q, q < N -> untouched (blk (count - 1) q)).

  Lemma from_S i q : 1 <= i -> from_block root alg i q = blk i q.
  Proof. clear. intros H. unfold from_block. destruct i; [lia|reflexivity]. Qed.
  Lemma from_fun i : 1 <= i -> from_block root alg i = blk i.
  Proof. clear. intros H. unfold from_block. destruct i; [lia|reflexivity]. Qed.
  Lemma middle_yes i : 1 <= i < count - 1 -> middle_block count i = true.
  Proof. clear. intros H. unfold middle_block. apply andb_true_iff. split; apply Nat.ltb_lt; lia. Qed.

  Lemma m1_eq i q n : 1 <= i < count - 1 -> q < N -> n < num_lines (blk i q) -> at_ (m1 i) q n = if at_ (m4 (i - 1)) q n =? 0 then 0 else 1.
  Proof.
    intros Hi Hq Hn. unfold m1. destruct i as [|i]; [lia|]. cbn [BcastModel.marks fst].
    rewrite at_tab. apply Nat.ltb_lt in Hq as Hq', Hn as Hn'. rewrite Hq', Hn'. cbn [andb]. unfold outputs. rewrite from_S by lia.
    replace (S i - 1) with i by lia. unfold carried. fold (m4 i).
    destruct (sendto (lines (blk (S i) q) n)) as [|e l] eqn:E; auto.
    replace (is_user e) with false; auto. symmetry. apply Z.eqb_neq.
    assert (Z : (0 <= fst e)%Z). { apply (pl_nodes _ _ (PL (S i) Hi) q n e Hq Hn). rewrite E. now left. } lia.
  Qed.
  Lemma m1_filled i q n : 1 <= i < count - 1 -> q < N -> n < num_lines (blk i q) -> (at_ (m1 i) q n <> 0 <-> filled (i - 1) q n).
  Proof. intros Hi Hq Hn. rewrite m1_eq by auto. unfold filled. destruct (Nat.eqb_spec (at_ (m4 (i - 1)) q n) 0); split; congruence. Qed.
  Lemma m1_small i q n : 1 <= i < count - 1 -> q < N -> n < num_lines (blk i q) -> at_ (m1 i) q n < 2.
  Proof. intros Hi Hq Hn. rewrite m1_eq by auto. destruct (_ =? 0); lia. Qed.
  Lemma m2_eq i q n : 1 <= i < count - 1 -> q < N -> n < num_lines (blk i q) -> at_ (m2 i) q n = informed (blk i) (m1 i) q n.
  Proof.
    intros Hi Hq Hn. unfold m1, m2. destruct i as [|i]; [lia|]. cbn [BcastModel.marks fst snd]. rewrite middle_yes by auto.
    rewrite at_tab. apply Nat.ltb_lt in Hq as Hq', Hn as Hn'. rewrite Hq', Hn'. cbn [andb]. now rewrite from_fun by lia.
  Qed.
  Lemma m3_eq i q n : q < N -> n < num_lines (blk i q) -> at_ (m3 i) q n = dropped (from_block root alg i) (m2 i) q n.
  Proof.
    clear. intros Hq Hn. unfold m2, m3. apply Nat.ltb_lt in Hq, Hn. destruct i as [|i]; cbn [BcastModel.marks fst snd]; rewrite at_tab, Hq, Hn; reflexivity.
  Qed.
  Lemma m4_eq i q n : q < N -> n < num_lines (blk i q) ->
    at_ (m4 i) q n = settled (from_block root alg i q) (at_ (m3 i) q) (num_lines (from_block root alg i q)) n.
  Proof.
    clear. intros Hq Hn. unfold m3, m4. apply Nat.ltb_lt in Hq, Hn. destruct i as [|i]; cbn [BcastModel.marks fst snd]; rewrite at_tab, Hq, Hn; reflexivity.
  Qed.
  Lemma filled_range i q n : filled i q n -> q < N /\ n < num_lines (blk i q).
  Proof.
    clear. unfold filled, m4. destruct i as [|i]; cbn [BcastModel.marks fst snd]; rewrite at_tab;
      (destruct (Nat.ltb_spec q N); cbn [andb]; [|congruence]); match goal with |- context [n <? ?k] => destruct (Nat.ltb_spec n k) end; auto; congruence.
  Qed.
  Lemma filled_first q n : filled 0 q n <-> q = root /\ q < N /\ n < num_lines (blk 0 q) /\ existsb is_user (recvfrom (lines (blk 0 q) n)) = true.
  Proof.
    assert (M2 : forall m, q < N -> m < num_lines (blk 0 q) -> at_ (m2 0) q m = origin root (blk 0) q m).
    { intros m Hq Hm. unfold m2. cbn [BcastModel.marks fst snd]. change (middle_block count 0) with false. cbv iota.
      rewrite at_tab. apply Nat.ltb_lt in Hq as Hq', Hm. rewrite Hq', Hm. cbn [andb]. unfold outputs, from_block. cbn [Nat.eqb].
      replace (sendto (lines (opened root (blk 0) q) m)) with (@nil (Z * nat)); [reflexivity|].
      destruct (FIRST q m Hq) as (S0 & _). cbn. destruct (negb (q =? root) && _); now rewrite S0. }
    assert (M3 : forall m, q < N -> m < num_lines (blk 0 q) -> at_ (m3 0) q m = origin root (blk 0) q m).
    { intros m Hq Hm. rewrite m3_eq by auto. unfold dropped. rewrite M2 by auto. unfold origin.
      destruct ((q =? root) && existsb is_user (recvfrom (lines (blk 0 q) m))); [reflexivity|]. now destruct (_ && _). }
    assert (NCR : q < N -> forall m, reducefrom (lines (from_block root alg 0 q) m) = [] /\ copyreducefrom (lines (from_block root alg 0 q) m) = []).
    { intros Hq m. destruct (FIRST q m Hq) as (_ & R & C). unfold from_block. cbn. destruct (negb (q =? root) && _); now rewrite R, C. }
    assert (M4 : q < N -> n < num_lines (blk 0 q) -> at_ (m4 0) q n = origin root (blk 0) q n).
    { intros Hq Hn. rewrite m4_eq by auto. rewrite settled_source; [now apply M3| |].
      - intros m. now apply NCR.
      - now apply NCR. }
    split.
    - intros H. destruct (filled_range 0 q n H) as [Hq Hn]. unfold filled in H. rewrite M4 in H by auto. unfold origin in H.
      destruct (Nat.eqb_spec q root); cbn [andb] in H; [|congruence]. destruct (existsb _ _); [auto|congruence].
    - intros (E & Hq & Hn & U). unfold filled. rewrite M4 by auto. unfold origin. rewrite U. apply Nat.eqb_eq in E. rewrite E. discriminate.
  Qed.

  Lemma got_kept i q n : 1 <= i < count - 1 -> q < N -> n < num_lines (blk i q) -> recvfrom (lines (blk i q) n) = [] ->
    at_ (m2 i) q n = at_ (m1 i) q n /\ at_ (m3 i) q n = at_ (m1 i) q n.
  Proof.
    intros Hi Hq Hn R. assert (E : at_ (m2 i) q n = at_ (m1 i) q n) by (rewrite m2_eq by auto; now apply informed_kept).
    split; auto. rewrite m3_eq by auto. unfold dropped. rewrite from_S by lia. rewrite R. cbn [is_nil negb]. now rewrite andb_false_r.
  Qed.
  Lemma got_recv i p q x n : 1 <= i < count - 1 -> p < N -> q < N -> p <> q -> In (x, n) (pairs (blk i) p q) ->
    (at_ (m1 i) p x = 0 -> at_ (m2 i) q n < 2 /\ at_ (m3 i) q n = 0) /\
    (at_ (m1 i) p x <> 0 -> at_ (m2 i) q n = 2 /\ at_ (m3 i) q n = 2).
  Proof.
    intros Hi Hp Hq D I. destruct (pair_in (blk i) p q x n I) as [_ I']. apply in_recv in I'. destruct I' as (Hn & e & Ie & Ne).
    assert (E : at_ (m3 i) q n = if at_ (m2 i) q n <? 2 then 0 else at_ (m2 i) q n).
    { rewrite m3_eq by auto. unfold dropped. rewrite from_S by lia. destruct (recvfrom (lines (blk i q) n)); [destruct Ie|]. cbn [is_nil negb].
      now rewrite andb_true_r. }
    rewrite E. rewrite m2_eq by auto. rewrite (informed_recv N (blk i) (PL i Hi) (m1 i) p q x n) by auto. split; intros Z.
    - rewrite Z. cbn [Nat.eqb]. pose proof (m1_small i q n Hi Hq Hn) as S. destruct (is_nil _).
      + split; [lia|reflexivity].
      + split; auto. apply Nat.ltb_lt in S. now rewrite S.
    - apply Nat.eqb_neq in Z. rewrite Z. split; reflexivity.
  Qed.

  Lemma flows_at i : 1 <= i < count - 1 -> flows N (blk i) (filled (i - 1)) (got i) (filled i).
  Proof.
    intros Hi. constructor.
    - intros q n Hq Hn R. unfold got. destruct (got_kept i q n Hi Hq Hn R) as [_ ->]. now apply m1_filled.
    - intros p q x n Hp Hq D I. destruct (got_recv i p q x n Hi Hp Hq D I) as [A B]. unfold got.
      destruct (pair_in (blk i) p q x n I) as [I' _]. apply in_sent in I'. destruct I' as (Hx & _).
      rewrite <- m1_filled by auto. split.
      + intros H Z. destruct (A Z) as [_ X]. congruence.
      + intros H. destruct (B H) as [_ X]. congruence.
    - intros q n Hq Hn. unfold filled, got. rewrite m4_eq by auto. rewrite from_S by lia.
      apply settled_spec; auto; pose proof (PL i Hi) as P.
      + intros m. now apply (pl_nocopy _ _ P).
      + intros m r. now apply (pl_source _ _ P).
  Qed.

  (* ----- the adapted schedule with all its messages ----- *)
  Definition fed_block (i q : nat) : block :=
    Block (num_lines (blk i q)) (fun n => let l := lines (blk i q) n in
      let '(red, cred) := snd (settle_line l n (at_ (m3 i) q)) in Line (frac l) (sendto l) (recvfrom l) red cred).
  Definition fed (q : nat) : list block := map (fun i => fed_block i q) (seq 0 count).
  Definition sends_filled (i p q : nat) : bool :=
    if i <? count - 1 then existsb (fun n => negb (at_ (m1 i) p n =? 0)) (sent_lines (blk i) p q) else true.

  Lemma fed_at i q : i < count -> nth i (fed q) empty_block = fed_block i q.
  Proof.
    clear. intros Hi. unfold fed. set (f := fun i => fed_block i q).
    rewrite (nth_indep _ empty_block (f 0)) by (rewrite map_length, seq_length; lia). now rewrite map_nth, seq_nth by lia.
  Qed.
  Lemma fed_length q : length (fed q) = count.
  Proof. unfold fed. now rewrite map_length, seq_length. Qed.
  Lemma forward_length q : length (forward N root alg count q) = count.
  Proof. unfold forward. now rewrite map_length, seq_length. Qed.
  Lemma forward_at i q : i < count -> nth i (forward N root alg count q) empty_block = forward_block (from_block root alg i) (m2 i) (m3 i) q.
  Proof.
    clear. intros Hi. unfold forward.
    set (f := fun i => let '(_, v2, v3, _) := marks i in forward_block (from_block root alg i) v2 v3 q).
    rewrite (nth_indep _ empty_block (f 0)) by (rewrite map_length, seq_length; lia).
    rewrite map_nth, seq_nth by lia. unfold f, m2, m3. cbn [plus]. now destruct (marks i) as [[[a b] c] d].
  Qed.
  Lemma fed_send i q n : sendto (lines (fed_block i q) n) = sendto (lines (blk i q) n).
  Proof. cbn. now destruct (snd _). Qed.
  Lemma fed_recv i q n : recvfrom (lines (fed_block i q) n) = recvfrom (lines (blk i q) n).
  Proof. cbn. now destruct (snd _). Qed.
  Lemma fed_frac i q n : frac (lines (fed_block i q) n) = frac (lines (blk i q) n).
  Proof. cbn. now destruct (snd _). Qed.
  Definition lit (i q r : nat) : bool := live (at_ (m3 i) q) r.
  Lemma lit_got i q r : lit i q r = true <-> got i q r.
  Proof. unfold lit, live, got. rewrite negb_true_iff. apply Nat.eqb_neq. Qed.
  Lemma fed_reduce i q n : (forall m, copyreducefrom (lines (blk i q) m) = []) ->
    reducefrom (lines (fed_block i q) n) = (if lit i q n then filter (lit i q) (reducefrom (lines (blk i q) n)) else []) /\
    copyreducefrom (lines (fed_block i q) n) = (if lit i q n then [] else filter (lit i q) (reducefrom (lines (blk i q) n))).
  Proof.
    intros NC. cbn. rewrite settle_eq by auto. change (live (at_ (m3 i) q)) with (lit i q).
    replace (lit i q n) with (negb (at_ (m3 i) q n =? 0)) by reflexivity. destruct (at_ (m3 i) q n =? 0); cbn; auto.
  Qed.
  Lemma nocopy_all i q : 1 <= i < count -> q < N -> forall m, copyreducefrom (lines (blk i q) m) = [].
  Proof.
    intros Hi Hq m. destruct (Nat.eq_dec i (count - 1)) as [->|D]; [apply (LAST q Hq)|]. now apply (pl_nocopy _ _ (PL i ltac:(lia))).
  Qed.
  Lemma source_all i q : 1 <= i < count -> q < N -> forall n r, In r (reducefrom (lines (blk i q) n)) -> reducefrom (lines (blk i q) r) = [].
  Proof.
    intros Hi Hq n r. destruct (Nat.eq_dec i (count - 1)) as [->|D]; [intros _; apply (LAST q Hq)|]. now apply (pl_source _ _ (PL i ltac:(lia))).
  Qed.

  Context (WHOLE : forall i, 1 <= i < count - 1 -> whole_sends N (blk i) (filled (i - 1))).
  Lemma sends_eq i p q x : 1 <= i < count - 1 -> p < N -> q < N -> p <> q -> In x (sent_lines (blk i) p q) ->
    sends_filled i p q = negb (at_ (m1 i) p x =? 0).
  Proof.
    intros Hi Hp Hq D I. unfold sends_filled. replace (i <? count - 1) with true by (symmetry; apply Nat.ltb_lt; lia).
    destruct (Nat.eqb_spec (at_ (m1 i) p x) 0) as [Z|Z]; cbn [negb].
    - apply not_true_is_false. intros X. apply existsb_exists in X. destruct X as (x' & I' & X). apply negb_true_iff, Nat.eqb_neq in X.
      pose proof (proj1 (in_sent (blk i) p q x) I) as (Hx & _). pose proof (proj1 (in_sent (blk i) p q x') I') as (Hx' & _).
      apply (proj1 (m1_filled i p x' Hi Hp Hx')) in X.
      apply (proj2 (m1_filled i p x Hi Hp Hx)); [|exact Z]. exact (WHOLE i Hi p q x' x Hp Hq D I' I X).
    - apply existsb_exists. exists x. split; auto. apply negb_true_iff. now apply Nat.eqb_neq.
  Qed.
  Lemma strike_all es : (forall e, In e es -> (0 <= fst e)%Z) -> strike_nodes es = map strike es.
  Proof. clear. intros H. apply map_ext_in. intros e I. apply H in I. apply Z.leb_le in I. now rewrite I. Qed.

  Lemma forward_ok i q : 1 <= i < count -> q < N -> well_matched N (blk i) ->
    prunes (sends_filled i) q (nth i (fed q) empty_block) (nth i (forward N root alg count q) empty_block).
  Proof.
    intros Hi Hq WM. rewrite forward_at, fed_at by lia. rewrite from_fun by lia.
    assert (RG : forall n e, n < num_lines (blk i q) -> In e (sendto (lines (blk i q) n) ++ recvfrom (lines (blk i q) n)) -> (-1 <= fst e)%Z).
    { intros n e Hn I. destruct WM as [_ W]. destruct (W q n Hq Hn) as [R _]. rewrite Forall_forall in R. apply R in I. lia. }
    assert (ST : forall n, settle_line (lines (blk i q) n) n (settled (blk i q) (at_ (m3 i) q) n) = settle_line (lines (blk i q) n) n (at_ (m3 i) q)).
    { intros n. apply settle_at; [now apply nocopy_all|now apply source_all]. }
    split; change (num_lines (fed_block i q)) with (num_lines (blk i q)).
    - reflexivity.
    - intros n Hn. rewrite fed_frac. cbn. unfold forward_line. now destruct (snd _).
    - intros n Hn. cbn. unfold forward_line. rewrite ST. now destruct (snd _).
    - intros n Hn. cbn. unfold forward_line. rewrite ST. now destruct (snd _).
    - intros n e Hn I. rewrite fed_send, fed_recv in I. now apply RG with n.
    - intros n Hn. exists (negb (at_ (m2 i) q n <? 2)). rewrite fed_recv.
      assert (E : recvfrom (lines (forward_block (blk i) (m2 i) (m3 i) q) n) = if at_ (m2 i) q n <? 2 then strike_nodes (recvfrom (lines (blk i q) n)) else recvfrom (lines (blk i q) n)).
      { cbn. unfold forward_line. now destruct (snd _). }
      rewrite E. clear E. destruct (Nat.eq_dec i (count - 1)) as [->|D].
      + destruct (LAST q Hq n) as (R & _). rewrite R. split; [now destruct (_ <? 2)|]. intros p e [].
      + assert (Hi' : 1 <= i < count - 1) by lia. pose proof (PL i Hi') as P. split.
        * rewrite strike_all; [now destruct (_ <? 2)|]. intros e I. apply (pl_nodes _ _ P q n e Hq Hn). apply in_or_app; auto.
        * intros p e I Ne. destruct (line_cases N (blk i) P q n Hq Hn) as [R|(p' & x & e' & Hp & Dp & R & Pe & Ne' & J)].
          -- rewrite R in I. destruct I.
          -- rewrite R in I. destruct I as [<-|[]]. pose proof (node_partner p e' Ne) as Pp. rewrite Pp in Pe. rewrite <- Pe in *. clear p' Pe.
             destruct (pair_in (blk i) p q x n J) as [J' _]. rewrite (sends_eq i p q x) by auto.
             destruct (got_recv i p q x n Hi' Hp Hq Dp J) as [A B]. f_equal.
             destruct (Nat.eqb_spec (at_ (m1 i) p x) 0) as [Z|Z].
             ++ apply Nat.ltb_lt. now apply A.
             ++ apply Nat.ltb_ge. destruct (B Z) as [-> _]. lia.
    - intros n Hn. rewrite fed_send.
      assert (E : sendto (lines (forward_block (blk i) (m2 i) (m3 i) q) n) = if at_ (m2 i) q n =? 0 then strike_nodes (sendto (lines (blk i q) n)) else sendto (lines (blk i q) n)).
      { cbn. unfold forward_line. now destruct (snd _). }
      rewrite E. clear E. exists (fun e => if (0 <=? fst e)%Z then negb (at_ (m2 i) q n =? 0) else true). split.
      + destruct (at_ (m2 i) q n =? 0); cbn [negb].
        * unfold strike_nodes. apply map_ext. intros e. now destruct (0 <=? fst e)%Z.
        * symmetry. erewrite map_ext; [apply map_id|]. intros e. now destruct (0 <=? fst e)%Z.
      + intros p e I Ne. assert (Z : (0 <=? fst e)%Z = true). { apply Z.eqb_eq in Ne. rewrite Ne. apply Z.leb_le. lia. }
        rewrite Z. destruct (Nat.eq_dec i (count - 1)) as [->|D].
        * exfalso. destruct WM as [W1 W]. destruct (W q n Hq Hn) as [R _]. rewrite Forall_forall in R.
          assert (Ip : In e (sendto (lines (blk (count - 1) q) n) ++ recvfrom (lines (blk (count - 1) q) n))) by (apply in_or_app; auto).
          destruct (R e Ip) as [R1 R2]. apply Z.eqb_eq in Ne. assert (Hp : p < N) by lia. assert (Dp : q <> p) by lia.
          destruct (W1 q p Hq Hp Dp) as [E _]. rewrite (no_recv (blk (count - 1)) p (LAST p Hp)) in E.
          assert (Is : In n (sent_lines (blk (count - 1)) q p)). { apply in_sent. split; auto. exists e. split; auto. apply Z.eqb_eq. auto. }
          destruct (sent_lines (blk (count - 1)) q p); [destruct Is|discriminate].
        * assert (Hi' : 1 <= i < count - 1) by lia. pose proof (PL i Hi') as P.
          destruct (entry_node N (blk i) P q n e Hq Hn) as (_ & A & B); [apply in_or_app; now left|].
          rewrite (node_partner p e Ne) in A, B.
          assert (R : recvfrom (lines (blk i q) n) = []).
          { destruct (recvfrom (lines (blk i q) n)) eqn:R; auto. exfalso. rewrite (pl_apart _ _ P q n) in I; auto. rewrite R. discriminate. }
          destruct (got_kept i q n Hi' Hq Hn R) as [-> _]. symmetry. apply sends_eq; auto. apply in_sent. eauto.
  Qed.

  (* ----- its stages ----- *)
  Lemma fed_sent i p q : sent_lines (fed_block i) p q = sent_lines (blk i) p q.
  Proof. clear. unfold sent_lines. cbn [num_lines fed_block]. apply flat_ext. intros n _. now rewrite fed_send. Qed.
  Lemma fed_recvl i q p : recv_lines (fed_block i) q p = recv_lines (blk i) q p.
  Proof. clear. unfold recv_lines. cbn [num_lines fed_block]. apply filter_ext. intros n. now rewrite fed_recv. Qed.
  Lemma fed_matched i : 1 <= i < count -> well_matched N (blk i) -> well_matched N (fed_block i).
  Proof.
    intros Hi [W1 W2]. split.
    - intros p q Hp Hq D. destruct (W1 p q Hp Hq D) as [A B]. rewrite fed_sent, fed_recvl. split; auto.
      rewrite (map_ext _ (fun n => frac (lines (blk i p) n))) by (intros; apply fed_frac).
      rewrite A. apply map_ext. intros. symmetry. apply fed_frac.
    - intros q n Hq Hn. destruct (W2 q n Hq Hn) as [A B]. rewrite fed_send, fed_recv. split; auto.
      apply Forall_forall. intros r I. rewrite Forall_forall in B. change (num_lines (fed_block i q)) with (num_lines (blk i q)). rewrite !fed_frac. apply B.
      destruct (fed_reduce i q n (nocopy_all i q Hi Hq)) as [E1 E2]. rewrite E1, E2 in I. apply in_or_app. left.
      destruct (lit i q n); rewrite ?app_nil_r in I; cbn [app] in I; apply filter_In in I; tauto.
  Qed.
  Lemma fed_received {V} (op : V -> V -> V) i st q : received op N (fed_block i) st q = received op N (blk i) st q.
  Proof.
    clear. unfold received. apply fold_ext. intros mem p _. unfold unpack. rewrite fed_recvl. destruct (p =? q); auto.
    destruct (recv_lines (blk i) q p) as [|a l] eqn:E; auto. unfold reduces_into. rewrite fed_recv. unfold message. now rewrite fed_sent.
  Qed.
  (* what a stage does with a filled line *)
  Context (ONE : forall i, 1 <= i < count - 1 -> one_filled N (blk i) (got i)).
  Lemma fed_reduce_nil i q n : 1 <= i < count - 1 -> q < N -> n < num_lines (blk i q) -> reducefrom (lines (fed_block i q) n) = [].
  Proof.
    intros Hi Hq Hn. destruct (fed_reduce i q n) as [-> _]; [apply nocopy_all; auto; lia|].
    destruct (lit i q n) eqn:L; auto. destruct (filter _ _) as [|r l] eqn:Fl; auto. exfalso.
    assert (Ir : In r (filter (lit i q) (reducefrom (lines (blk i q) n)))) by (rewrite Fl; now left).
    apply filter_In in Ir. destruct Ir as [Ir Lr]. destruct (ONE i Hi q n Hq Hn) as [_ U].
    assert (n = r) by (apply U; [now left|now right|now apply lit_got|now apply lit_got]). subst r.
    pose proof (pl_source _ _ (PL i Hi) q n n Hq Ir) as X. rewrite X in Ir. destruct Ir.
  Qed.
  Lemma fed_copy i q n : 1 <= i < count - 1 -> q < N -> n < num_lines (blk i q) ->
    (got i q n /\ copyreducefrom (lines (fed_block i q) n) = []) \/
    (~ got i q n /\ exists r, In r (reducefrom (lines (blk i q) n)) /\ got i q r /\ copyreducefrom (lines (fed_block i q) n) = [r]) \/
    (~ filled i q n).
  Proof.
    intros Hi Hq Hn. destruct (fed_reduce i q n) as [_ ->]; [apply nocopy_all; auto; lia|].
    destruct (lit i q n) eqn:L; [left; split; auto; now apply lit_got|]. right.
    assert (NG : ~ got i q n) by (intros X; apply lit_got in X; congruence).
    destruct (ONE i Hi q n Hq Hn) as [ND U].
    destruct (filter (lit i q) (reducefrom (lines (blk i q) n))) as [|r l] eqn:Fl.
    - right. intros X. apply (fl_after _ _ _ _ _ (flows_at i Hi) q n Hq Hn) in X. destruct X as [X|(r & I & X)]; [contradiction|].
      assert (Y : In r (filter (lit i q) (reducefrom (lines (blk i q) n)))) by (apply filter_In; split; auto; now apply lit_got).
      rewrite Fl in Y. destruct Y.
    - left. split; auto. exists r.
      assert (Y : forall y, In y (r :: l) -> In y (reducefrom (lines (blk i q) n)) /\ got i q y).
      { intros y. rewrite <- Fl. intros I. apply filter_In in I. destruct I as [I J]. split; auto. now apply lit_got. }
      destruct (Y r (or_introl eq_refl)) as [I G]. split; auto. split; auto. f_equal. destruct l as [|r' l]; auto. exfalso.
      destruct (Y r' (or_intror (or_introl eq_refl))) as [I' G'].
      assert (r = r') by (apply U; auto; now right). subst r'.
      assert (X : NoDup (filter (lit i q) (reducefrom (lines (blk i q) n)))) by (now apply NoDup_filter). rewrite Fl in X.
      inversion X; subst. apply H1. now left.
  Qed.
  Lemma source_copy i q n r : 1 <= i < count - 1 -> q < N -> In r (reducefrom (lines (blk i q) n)) -> copyreducefrom (lines (fed_block i q) r) = [].
  Proof.
    intros Hi Hq I. destruct (fed_reduce i q r) as [_ ->]; [apply nocopy_all; auto; lia|].
    rewrite (pl_source _ _ (PL i Hi) q n r Hq I). now destruct (lit i q r).
  Qed.
  Context {V : Type} (op : V -> V -> V).
  Lemma copyreduced_source bb q mem r : copyreducefrom (lines (bb q) r) = [] -> copyreduced op bb q mem r = mem r.
  Proof.
    clear. intros E. unfold copyreduced. generalize (seq 0 (num_lines (bb q))) as l. intros l. revert mem.
    induction l as [|n l IH]; intros mem; [reflexivity|]. cbn [fold_left]. rewrite IH. unfold copyreduce_line.
    destruct (Nat.eq_dec r n) as [<-|D]; [now rewrite E|].
    destruct (copyreducefrom (lines (bb q) n)) as [|r0 rs]; auto.
    assert (X : forall rs m, fold_left (fun m r => upd Nat.eq_dec m n (op (m n) (m r))) rs m r = m r).
    { clear -D. induction rs as [|x rs IH]; intros m; [reflexivity|]. cbn [fold_left]. rewrite IH. now apply upd_other. }
    rewrite X. now apply upd_other.
  Qed.
  Lemma copyreduced_one bb q mem n r : n < num_lines (bb q) -> copyreducefrom (lines (bb q) n) = [r] -> copyreducefrom (lines (bb q) r) = [] ->
    copyreduced op bb q mem n = mem r.
  Proof.
    clear. intros Hn E Er. unfold copyreduced. replace (num_lines (bb q)) with (n + S (num_lines (bb q) - n - 1)) by lia.
    rewrite seq_app, fold_left_app. cbn [seq fold_left plus]. 
    assert (X : forall l m, ~ In n l -> fold_left (copyreduce_line op bb q) l m n = m n).
    { clear. induction l as [|k l IH]; intros m H; [reflexivity|]. cbn [fold_left]. rewrite IH by (intros X; apply H; now right).
      unfold copyreduce_line. destruct (copyreducefrom (lines (bb q) k)) as [|r0 rs]; auto.
      assert (D : n <> k) by (intros ->; apply H; now left).
      assert (X : forall rs m, fold_left (fun m r => upd Nat.eq_dec m k (op (m k) (m r))) rs m n = m n).
      { clear -D. induction rs as [|x rs IH]; intros m; [reflexivity|]. cbn [fold_left]. rewrite IH. now apply upd_other. }
      rewrite X. now apply upd_other. }
    rewrite X by (rewrite in_seq; lia). unfold copyreduce_line at 1. rewrite E. cbn [fold_left]. rewrite upd_same.
    assert (Y : forall l m, fold_left (copyreduce_line op bb q) l m r = m r).
    { clear -Er. induction l as [|k l IH]; intros m; [reflexivity|]. cbn [fold_left]. rewrite IH. unfold copyreduce_line.
      destruct (Nat.eq_dec r k) as [<-|D]; [now rewrite Er|].
      destruct (copyreducefrom (lines (bb q) k)) as [|r0 rs]; auto.
      assert (X : forall rs m, fold_left (fun m r => upd Nat.eq_dec m k (op (m k) (m r))) rs m r = m r).
      { clear -D. induction rs as [|x rs IH]; intros m; [reflexivity|]. cbn [fold_left]. rewrite IH. now apply upd_other. }
      rewrite X. now apply upd_other. }
    apply Y.
  Qed.
  (* a filled line is a copy of one filled line *)
  Lemma fed_stage i st q n : 1 <= i < count - 1 -> q < N -> n < num_lines (blk i q) -> filled i q n ->
    exists r, (r = n \/ In r (reducefrom (lines (blk i q) n))) /\ got i q r /\ stage op N (fed_block i) st q n = received op N (blk i) st q r.
  Proof.
    intros Hi Hq Hn Fi. unfold stage.
    assert (RN : forall m, m < num_lines (blk i q) -> reduced op (fed_block i) q (received op N (fed_block i) st q) m = received op N (blk i) st q m).
    { intros m Hm. rewrite reduced_nil by (now apply fed_reduce_nil). now rewrite fed_received. }
    destruct (fed_copy i q n Hi Hq Hn) as [[G E]|[(NG & r & I & G & E)|NF]]; [| |contradiction].
    - exists n. split; auto. split; auto. rewrite copyreduced_source by auto. auto.
    - exists r. split; auto. split; auto. rewrite (copyreduced_one (fed_block i) q _ n r); auto; [|now apply source_copy with n].
      apply RN. destruct (pl_match _ _ (PL i Hi)) as [_ W]. destruct (W q n Hq Hn) as [_ W']. rewrite Forall_forall in W'.
      destruct (W' r) as [Hr _]; [apply in_or_app; now left|]. exact Hr.
  Qed.
End Levels.
