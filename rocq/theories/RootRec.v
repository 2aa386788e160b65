(* The recursive schedules under the backward interpreter: which lines the
   root needs, and that these make up whole messages. *)
From Verif Require Import Base SchedModel SchedSpec SchedProofs RecursiveModel RecursiveSpec RecursiveArith RecursiveProofs ReduceProofs AllreduceProofs MatchProofs
  RawModel MsgProofs PhaseProofs RawCode RawStage RawProofs RawEnd RawSpec RawWhole RawInst RootModel RootSpec RootCode RootLive RootValue RootWhole.
Local Ltac Zify.zify_post_hook ::= idtac.

(* ---------- blocks made of assignments ---------- *)
Lemma recv_of_writes b ws n : blanks b -> recvfrom (apply_writes b ws n) = [] \/ exists v, In (n, Recv v) ws /\ recvfrom (apply_writes b ws n) = v.
Proof.
  intros Hb. induction ws as [|w ws IH] using rev_ind.
  - left. unfold apply_writes. cbn. destruct (Hb n) as (f & ->). reflexivity.
  - rewrite apply_writes_snoc. unfold apply_write. destruct w as [m f]. cbn [fst snd].
    assert (IH' : recvfrom (apply_writes b ws n) = [] \/ (exists v, In (n, Recv v) (ws ++ [(m, f)]) /\ recvfrom (apply_writes b ws n) = v)).
    { destruct IH as [E|(v & I & E)]; [auto|]. right. exists v. split; auto. apply in_or_app; auto. }
    destruct (Nat.eqb_spec n m) as [<-|D]; [|exact IH']. destruct f as [v|v|v|v]; cbn [set_field recvfrom]; try exact IH'.
    right. exists v. split; auto. apply in_or_app. right. now left.
Qed.
Lemma no_self N b p : well_matched N b -> p < N -> sent_lines b p p = [].
Proof.
  intros [_ W] Hp. apply sent_lines_nil. intros n Hn. apply filter_none. intros e I.
  destruct (W p n Hp Hn) as [R _]. rewrite Forall_forall in R. destruct (R e) as [_ X]; [apply in_or_app; auto|].
  unfold is_node. now apply Z.eqb_neq.
Qed.
Definition node_entry (e : Z * nat) : Prop := (0 <= fst e)%Z.
Lemma tidy_writes N NL b ws blk : blanks b -> (forall q, blk q = Block NL (apply_writes b (ws q))) ->
  well_matched N blk -> (forall q, q < N -> simple_recv N blk q) ->
  (forall q n v, q < N -> ~ In (n, CopyReduce v) (ws q)) ->
  (forall q n v, q < N -> In (n, Send v) (ws q) -> Forall node_entry v) ->
  (forall q n v, q < N -> In (n, Recv v) (ws q) -> Forall node_entry v /\ length v <= 1) ->
  (forall q n v w, q < N -> In (n, Recv v) (ws q) -> ~ In (n, Send w) (ws q)) ->
  (forall q n r v w, q < N -> In (n, Reduce v) (ws q) -> In r v -> ~ In (r, Reduce w) (ws q)) ->
  (forall p q, p < N -> q < N -> p <> q -> NoDup (sent_lines blk p q)) ->
  tidy N blk.
Proof.
  intros Hb E WM SR NC SE RE AP SO ND.
  assert (Blank : forall n, sendto (b n) = [] /\ recvfrom (b n) = [] /\ reducefrom (b n) = [] /\ copyreducefrom (b n) = []).
  { intros n. destruct (Hb n) as (f & ->). repeat split; reflexivity. }
  assert (EW : forall q n, lines (blk q) n = apply_writes b (ws q) n) by (intros; rewrite E; reflexivity).
  assert (S1 : forall q n e, In e (sendto (lines (blk q) n)) -> exists v, In (n, Send v) (ws q) /\ In e v).
  { intros q n e I. rewrite EW in I. destruct (entries_of_writes b (ws q) n) as (I1 & _). destruct (I1 e I) as [X|X]; auto.
    destruct (Blank n) as (B1 & _). rewrite B1 in X. destruct X. }
  assert (S2 : forall q n e, In e (recvfrom (lines (blk q) n)) -> exists v, In (n, Recv v) (ws q) /\ In e v).
  { intros q n e I. rewrite EW in I. destruct (entries_of_writes b (ws q) n) as (_ & I1 & _). destruct (I1 e I) as [X|X]; auto.
    destruct (Blank n) as (_ & B1 & _). rewrite B1 in X. destruct X. }
  assert (S3 : forall q n e, In e (reducefrom (lines (blk q) n)) -> exists v, In (n, Reduce v) (ws q) /\ In e v).
  { intros q n e I. rewrite EW in I. destruct (entries_of_writes b (ws q) n) as (_ & _ & I1 & _). destruct (I1 e I) as [X|X]; auto.
    destruct (Blank n) as (_ & _ & B1 & _). rewrite B1 in X. destruct X. }
  assert (S4 : forall q n e, In e (copyreducefrom (lines (blk q) n)) -> exists v, In (n, CopyReduce v) (ws q) /\ In e v).
  { intros q n e I. rewrite EW in I. destruct (entries_of_writes b (ws q) n) as (_ & _ & _ & I1). destruct (I1 e I) as [X|X]; auto.
    destruct (Blank n) as (_ & _ & _ & B1). rewrite B1 in X. destruct X. }
  assert (Nil : forall A (l : list A), (forall e, ~ In e l) -> l = []).
  { intros A [|a l] H; auto. destruct (H a). now left. }
  constructor; auto.
  - intros q n Hq. apply Nil. intros e I. apply S4 in I. destruct I as (v & I & _). exact (NC q n v Hq I).
  - intros q n r Hq I. apply S3 in I. destruct I as (v & I & Ir). apply Nil. intros e J. apply S3 in J. destruct J as (w & J & _).
    exact (SO q n r v w Hq I Ir J).
  - intros q n Hq _ R. apply Nil. intros e I. apply S1 in I. destruct I as (w & I & _).
    destruct (recvfrom (lines (blk q) n)) as [|e' l] eqn:Er; [congruence|].
    destruct (S2 q n e') as (v & J & _); [rewrite Er; now left|]. exact (AP q n v w Hq J I).
  - intros q n Hq _. rewrite EW. destruct (recv_of_writes b (ws q) n Hb) as [->|(v & I & ->)]; [cbn; lia|]. apply (RE q n v Hq I).
  - intros p q Hp Hq. destruct (Nat.eq_dec p q) as [->|D]; [|auto]. rewrite (no_self N blk q WM Hq). constructor.
  - intros q n e Hq _ I. apply in_app_or in I. destruct I as [I|I].
    + apply S1 in I. destruct I as (v & I & J). pose proof (SE q n v Hq I) as X. rewrite Forall_forall in X. exact (X e J).
    + apply S2 in I. destruct I as (v & I & J). destruct (RE q n v Hq I) as [X _]. rewrite Forall_forall in X. exact (X e J).
Qed.
Lemma node_zn u l : node_entry (zn u, l).
Proof. unfold node_entry, zn. cbn. lia. Qed.
Lemma nodes_map (f : nat -> nat) l s : Forall node_entry (map (fun i => (zn (f i), l)) s).
Proof. apply Forall_forall. intros e I. apply in_map_iff in I. destruct I as (i & <- & _). apply node_zn. Qed.

Lemma tidy_ag N NL off g p b blk : 0 < g -> N mod (g * (p + 1)) = 0 -> off + N <= NL -> blanks b ->
  (forall q, blk q = Block NL (apply_writes b (ag_writes off g p q))) -> tidy N blk.
Proof.
  intros Hg HN HNL Hb E. apply (tidy_writes N NL b (ag_writes off g p)); auto.
  - apply (matched_ag N NL off g p b); auto.
  - intros q _. apply (ag_simple off g p Hg b Hb N NL HN HNL blk E).
  - intros q n v _ I. apply (in_ag_writes off g p Hg) in I. destruct I as (l & _ & _ & X). destruct (l / g =? q / g); discriminate.
  - intros q n v _ I. apply (in_ag_writes off g p Hg) in I. destruct I as (l & _ & _ & X). destruct (l / g =? q / g); [|discriminate].
    injection X as ->. apply nodes_map.
  - intros q n v _ I. apply (in_ag_writes off g p Hg) in I. destruct I as (l & _ & _ & X). destruct (l / g =? q / g); [discriminate|].
    injection X as ->. split; [|cbn; lia]. repeat constructor. apply node_zn.
  - intros q n v w _ I J. apply (in_ag_writes off g p Hg) in I, J. destruct I as (l & _ & En & X), J as (l' & _ & En' & Y).
    assert (l = l') by (clear - En En'; lia). subst l'. destruct (l / g =? q / g); discriminate.
  - intros q n r v w _ I. apply (in_ag_writes off g p Hg) in I. destruct I as (l & _ & En & X). destruct (l / g =? q / g); discriminate.
  - intros u q Hu Hq D. destruct (ag_sent off g p Hg b Hb N NL HN HNL blk E u q Hu D) as (S1 & S2).
    destruct (peers_dec g p u q) as [P|P]; [rewrite S1 by auto; apply seq_NoDup|rewrite S2 by auto; constructor].
Qed.
Lemma rs_slot_soff p N first last i : rs_slot p first last i * N <> rs_soff N first \/ N = 0.
Proof. rewrite rs_soff_slot. unfold rs_slot. destruct N; [auto|left]. destruct last, first; try destruct (i =? p - 1); nia. Qed.

Lemma rs_columns p N first last l r : In r (rs_rlist p N first last l) -> exists c, c <> rs_dest last /\ r = l + c * N.
Proof.
  unfold rs_rlist, rs_dest. destruct last, first; intros H;
    try (destruct H as [<-|H]; [exists 0; lia|]);
    apply in_map_iff in H; destruct H as (i & <- & Hi); apply in_seq in Hi;
    eexists; (split; [|reflexivity]); lia.
Qed.
Lemma mid_columns p N first l r : In r (mid_rlist p N first l) -> exists c, c <> 1 /\ r = l + c * N.
Proof.
  unfold mid_rlist. destruct first; intros H; apply in_map_iff in H; destruct H as (i & <- & Hi).
  - destruct (Nat.eqb_spec i 0); [exists 0; lia|]. exists (i + 1). split; [lia|reflexivity].
  - exists (i + 2). split; [lia|reflexivity].
Qed.

Lemma rs_rlist_room p N first last l r : 0 < p -> l < N -> In r (rs_rlist p N first last l) -> r < (if last then 2 + p else 3 + p) * N /\ r mod N = l.
Proof.
  intros Hp Hl Hr.
  assert (E : exists c, r = l + c * N /\ c < (if last then 2 + p else 3 + p)).
  { unfold rs_rlist in Hr. destruct last, first;
      try (destruct Hr as [<-|Hr]; [exists 0; split; lia|]);
      apply in_map_iff in Hr; destruct Hr as (i & <- & Hi); apply in_seq in Hi;
      eexists; (split; [reflexivity|lia]). }
  destruct E as (c & -> & Hc). split; [|apply slot_mod; assumption].
  apply Nat.lt_le_trans with ((c + 1) * N); [lia|apply Nat.mul_le_mono_r; lia].
Qed.
Lemma mid_rlist_room p N first l r : 0 < p -> l < N -> In r (mid_rlist p N first l) -> r < (if first then p + 1 else p + 2) * N /\ r mod N = l.
Proof.
  intros Hp Hl Hr.
  assert (E : exists c, r = l + c * N /\ c < (if first then p + 1 else p + 2)).
  { unfold mid_rlist in Hr. destruct first; apply in_map_iff in Hr; destruct Hr as (i & <- & Hi); apply in_seq in Hi.
    - destruct (i =? 0); [exists 0; split; lia|exists (i + 1); split; lia].
    - exists (i + 2); split; lia. }
  destruct E as (c & -> & Hc). split; [|apply slot_mod; assumption].
  apply Nat.lt_le_trans with ((c + 1) * N); [lia|apply Nat.mul_le_mono_r; lia].
Qed.

Section TidyRS.
  Context (g p N : nat) (Hg : 0 < g) (Hp : 0 < p) (first last : bool) (HN : N mod (g * (p + 1)) = 0).
  Context (b : nat -> line) (Hb : blanks b) (Hf : forall n, frac (b n) = n mod N).
  Local Notation NL := ((if last then 2 + p else 3 + p) * N).
  Local Notation G := (g * (p + 1)).
  Context (blk : nat -> block) (Hblk : forall q, blk q = Block NL (apply_writes b (rs_writes N G p first last q))).
  Lemma rs_recv_of q i : q < N -> i < p -> recv_lines blk q (partner G g q i) = seq (q / g * g + rs_slot p first last i * N) g.
  Proof.
    clear Hf. intros Hq Hi.
    apply (slots_recv_lines g p N NL g Hg HN (fun q => q / g * g) (rs_slot p first last)
             (rs_base g p N Hg Hp first last HN b) (rs_slot_inj g p N Hg Hp first last HN b)
             (rs_slot_fit g p N Hg Hp first last HN b) blk); auto.
    - intros u. rewrite Hblk. reflexivity.
    - apply (rs_hit' g p N Hg Hp first last HN b blk Hblk).
    - apply (rs_miss' g p N Hg Hp first last HN b Hb blk Hblk).
  Qed.
  Lemma tidy_rs : tidy N blk.
  Proof.
    apply (tidy_writes N NL b (rs_writes N G p first last)); auto.
    - apply (matched_rs g p N Hg Hp first last HN b Hb blk Hblk Hf).
    - intros q Hq.
      apply (slots_simple g p N NL g Hg HN (fun q => q / g * g) (rs_slot p first last)
               (rs_base g p N Hg Hp first last HN b) (rs_slot_inj g p N Hg Hp first last HN b)
               (rs_slot_fit g p N Hg Hp first last HN b) blk); auto.
      + intros u. rewrite Hblk. reflexivity.
      + apply (rs_hit' g p N Hg Hp first last HN b blk Hblk).
      + apply (rs_miss' g p N Hg Hp first last HN b Hb blk Hblk).
    - intros q n v _ I. apply (in_rs_writes g p N Hg Hp first last HN) in I.
      destruct I as (l & _ & [(_ & _ & [=])|[(_ & i & _ & _ & [=])|(_ & _ & [=])]]).
    - intros q n v _ I. apply (in_rs_writes g p N Hg Hp first last HN) in I.
      destruct I as (l & _ & [(_ & _ & [= ->])|[(_ & i & _ & _ & [=])|(_ & _ & [=])]]). repeat constructor. apply node_zn.
    - intros q n v _ I. apply (in_rs_writes g p N Hg Hp first last HN) in I.
      destruct I as (l & _ & [(_ & _ & [=])|[(_ & i & _ & _ & [= ->])|(_ & _ & [=])]]).
      split; [|cbn; lia]. repeat constructor. apply node_zn.
    - intros q n v w Hq I J. apply (in_rs_writes g p N Hg Hp first last HN) in I, J.
      destruct I as (l & Hl & [(_ & _ & [=])|[(_ & i & Hi & En & _)|(_ & _ & [=])]]).
      destruct J as (l' & Hl' & [(_ & En' & _)|[(_ & j & _ & _ & [=])|(_ & _ & [=])]]).
      rewrite rs_soff_slot in En'. rewrite En in En'. apply slot_eq in En'.
      + destruct En' as [_ X]. clear - X Hi. unfold rs_slot in X. destruct last, first; try destruct (i =? p - 1); lia.
      + apply (rs_line_lt g p N Hg HN q); auto.
      + apply (rs_line_lt g p N Hg HN q); auto.
    - intros q n r v w Hq I Ir J. apply (in_rs_writes g p N Hg Hp first last HN) in I, J.
      destruct I as (l & Hl & [(_ & _ & [=])|[(_ & i & _ & _ & [=])|(_ & En & [= ->])]]).
      destruct J as (l' & Hl' & [(_ & _ & [=])|[(_ & j & _ & _ & [=])|(_ & En' & _)]]).
      apply rs_columns in Ir. destruct Ir as (c & D & ->). apply slot_eq in En'.
      + now destruct En' as [_ X].
      + apply (rs_line_lt g p N Hg HN q); auto.
      + apply (rs_line_lt g p N Hg HN q); auto.
    - intros t q Ht Hq D. destruct (div_mod_dec g G t q) as [(P1 & P2)|P].
      + rewrite (rs_sent g p N Hg Hp first last HN b Hb blk Hblk) by auto. apply seq_NoDup.
      + rewrite (rs_sent_none g p N Hg Hp first last HN b Hb blk Hblk) by auto. constructor.
  Qed.
End TidyRS.

Section TidyMid.
  Context (g p M N : nat) (Hg : 0 < g) (Hp : 0 < p) (HM : 0 < M) (first : bool).
  Context (HGM : M mod (g * (p + 1)) = 0) (HMN : N mod M = 0).
  Context (b : nat -> line) (Hb : blanks b) (Hf : forall n, frac (b n) = n mod N).
  Local Notation NL := ((if first then p + 1 else p + 2) * N).
  Local Notation G := (g * (p + 1)).
  Context (blk : nat -> block) (Hblk : forall q, blk q = Block NL (apply_writes b (mid_writes N M g p first q))).
  Lemma mid_recv_of q i : q < N -> i < p -> recv_lines blk q (partner G g q i) = seq (q / M * M + mid_slot first i * N) M.
  Proof.
    clear Hf. intros Hq Hi. assert (HN := mid_HN g p M N Hg Hp HM first HGM HMN b).
    apply (slots_recv_lines g p N NL M Hg HN (fun q => q / M * M) (mid_slot first)); auto.
    - intros; apply group_fits; assumption.
    - intros i' j _ _. unfold mid_slot; destruct first; lia.
    - intros i' Hi'. unfold mid_slot; destruct first; apply Nat.mul_le_mono_r; lia.
    - intros u. rewrite Hblk. reflexivity.
    - apply (mid_hit' g p M N Hg Hp HM first HGM HMN b blk Hblk).
    - apply (mid_miss' g p M N Hg Hp HM first HGM HMN b Hb blk Hblk).
  Qed.
  Lemma tidy_mid : tidy N blk.
  Proof.
    assert (HN := mid_HN g p M N Hg Hp HM first HGM HMN b).
    assert (IW := in_mid_writes g p M N Hg Hp HM first HGM HMN).
    apply (tidy_writes N NL b (mid_writes N M g p first)); auto.
    - apply (matched_mid g p M N Hg Hp HM first HGM HMN b Hb blk Hblk Hf).
    - intros q Hq.
      apply (slots_simple g p N NL M Hg HN (fun q => q / M * M) (mid_slot first)); auto.
      + intros; apply group_fits; assumption.
      + intros i' j _ _. unfold mid_slot; destruct first; lia.
      + intros i' Hi'. unfold mid_slot; destruct first; apply Nat.mul_le_mono_r; lia.
      + intros u. rewrite Hblk. reflexivity.
      + apply (mid_hit' g p M N Hg Hp HM first HGM HMN b blk Hblk).
      + apply (mid_miss' g p M N Hg Hp HM first HGM HMN b Hb blk Hblk).
    - intros q n v _ I. apply IW in I. destruct I as (l & _ & [(_ & [=])|[(i & _ & _ & [=])|(_ & [=])]]).
    - intros q n v _ I. apply IW in I. destruct I as (l & _ & [(_ & [= ->])|[(i & _ & _ & [=])|(_ & [=])]]). apply nodes_map.
    - intros q n v _ I. apply IW in I. destruct I as (l & _ & [(_ & [=])|[(i & _ & _ & [= ->])|(_ & [=])]]).
      split; [|cbn; lia]. repeat constructor. apply node_zn.
    - intros q n v w Hq I J. apply IW in I, J.
      destruct I as (l & Hl & [(_ & [=])|[(i & Hi & En & _)|(_ & [=])]]).
      destruct J as (l' & Hl' & [(En' & _)|[(j & _ & _ & [=])|(_ & [=])]]).
      rewrite mid_soff_slot in En'. rewrite En in En'. apply slot_eq in En'.
      + destruct En' as [_ X]. clear - X Hi. unfold mid_slot in X. destruct first; lia.
      + apply group_lt with M q; auto.
      + apply group_lt with M q; auto.
    - intros q n r v w Hq I Ir J. apply IW in I, J.
      destruct I as (l & Hl & [(_ & [=])|[(i & _ & _ & [=])|(En & [= ->])]]).
      destruct J as (l' & Hl' & [(_ & [=])|[(j & _ & _ & [=])|(En' & _)]]).
      apply mid_columns in Ir. destruct Ir as (c & D & ->). apply slot_eq in En'.
      + now destruct En' as [_ X].
      + apply group_lt with M q; auto.
      + apply group_lt with M q; auto.
    - intros t q Ht Hq D. destruct (div_mod_dec g G t q) as [(P1 & P2)|P].
      + rewrite (mid_sent g p M N Hg Hp HM first HGM HMN b Hb blk Hblk) by auto. apply seq_NoDup.
      + rewrite (mid_sent_none g p M N Hg Hp HM first HGM HMN b Hb blk Hblk) by auto. constructor.
  Qed.
End TidyMid.

(* ---------- one block, backwards ---------- *)
Lemma in_combine_seq a a' k x n : In (x, n) (combine (seq a k) (seq a' k)) <-> exists j, j < k /\ x = a + j /\ n = a' + j.
Proof.
  revert a a'. induction k as [|k IH]; intros a a'; cbn [seq combine In].
  - split; [intros []|intros (j & H & _); lia].
  - rewrite IH. split.
    + intros [E|(j & Hj & -> & ->)]; [injection E as <- <-; exists 0; lia|exists (S j); lia].
    + intros (j & Hj & -> & ->). destruct j; [left; f_equal; lia|right; exists j; lia].
Qed.

(* A: the lines needed after the block, L: before its reductions, B: before its messages *)
Record links (N : nat) (b : nat -> block) (A L B : nat -> nat -> Prop) : Prop := {
  lk_mid : forall q n, L q n <-> q < N /\ n < num_lines (b q) /\
    (A q n \/ exists n', n' < num_lines (b q) /\ A q n' /\ In n (reducefrom (lines (b q) n')));
  lk_before : forall p x, B p x <-> p < N /\ x < num_lines (b p) /\
    (L p x \/ exists q n, q < N /\ p <> q /\ In (x, n) (pairs b p q) /\ L q n) }.
Definition whole_at (N : nat) (b : nat -> block) (L : nat -> nat -> Prop) : Prop :=
  forall p q n n', p < N -> q < N -> p <> q -> In n (recv_lines b q p) -> In n' (recv_lines b q p) -> L q n -> L q n'.

Lemma mod_of_mod g p x : 0 < g -> (x mod (g * (p + 1))) mod g = x mod g.
Proof.
  intros Hg. rewrite Nat.mod_mul_r by lia. rewrite (Nat.mul_comm g), Nat.mod_add, Nat.mod_mod by lia. reflexivity.
Qed.
Lemma mod_coarse g p x y : 0 < g -> x mod (g * (p + 1)) = y mod (g * (p + 1)) -> x mod g = y mod g.
Proof. intros Hg E. rewrite <- (mod_of_mod g p x), <- (mod_of_mod g p y) by auto. now rewrite E. Qed.

(* the member of q's group that stands for the root *)
Lemma root_peer N G q root : 0 < G -> N mod G = 0 -> q < N ->
  exists u, u < N /\ u / G = q / G /\ u mod G = root mod G.
Proof.
  intros HG HN Hq. assert (M := Nat.mod_upper_bound root G ltac:(lia)).
  exists (q / G * G + root mod G). rewrite node_div, node_mod by auto. split; auto.
  apply group_lt with G q; auto. now apply node_div.
Qed.

Section BackAG.
  Context (N root off g p NL : nat) (b : nat -> line) (blk : nat -> block) (A L B : nat -> nat -> Prop).
  Local Notation G := (g * (p + 1)).
  Context (Hg : 0 < g) (HN : N mod G = 0) (HNL : off + N <= NL) (Hb : blanks b).
  Context (Hblk : forall q, blk q = Block NL (apply_writes b (ag_writes off g p q))) (LK : links N blk A L B).

  Lemma ag_pairs u q : u < N -> q < N -> u <> q ->
    (peers g p u q /\ forall x n, In (x, n) (pairs blk u q) <-> x = n /\ exists l, l / g = u / g /\ x = l + off) \/
    (~ peers g p u q /\ pairs blk u q = []).
  Proof.
    intros Hu Hq D. destruct (ag_sent off g p Hg b Hb N NL HN HNL blk Hblk u q Hu D) as (S1 & S2).
    destruct (ag_recv off g p Hg b Hb N NL HN HNL blk Hblk q u Hu ltac:(auto)) as (R1 & R2). unfold pairs.
    destruct (peers_dec g p u q) as [P|P]; [left|right]; split; auto.
    - intros x n. rewrite S1, R1 by auto. rewrite in_combine_seq. split.
      + intros (j & Hj & -> & ->). split; auto. exists (u / g * g + j). split; [|lia]. apply group_range; auto. lia.
      + intros (<- & l & Hl & ->). apply (group_range g u Hg) in Hl. exists (l - u / g * g). lia.
    - now rewrite S2.
  Qed.
  Lemma ag_mid q n : L q n <-> q < N /\ n < NL /\ A q n.
  Proof.
    rewrite (lk_mid _ _ _ _ _ LK). rewrite Hblk. cbn [num_lines lines]. split.
    - intros (Hq & Hn & [H|(n' & _ & _ & I)]); auto. exfalso.
      pose proof (ag_no_reduce off g p Hg b Hb q n') as X. cbv zeta in X. rewrite X in I. destruct I.
    - tauto.
  Qed.

  Definition needed_up (g : nat) (A : nat -> nat -> Prop) : Prop :=
    (forall q l, q < N -> q mod g = root mod g -> l / g = q / g -> A q (l + off)) /\
    (forall q n, q < N -> A q n -> q mod g = root mod g /\ n < NL).
  Lemma back_ag : needed_up G A -> needed_up g B /\ whole_at N blk L.
  Proof.
    assert (Gp := step_pos g p Hg). assert (NG := group_lt N G). assert (Ng : N mod g = 0) by (apply mod_of_factor with (p + 1); auto; lia).
    intros (A1 & A2).
    assert (LL : forall q l, q < N -> q mod G = root mod G -> l / G = q / G -> L q (l + off)).
    { intros q l Hq E El. apply ag_mid. split; auto. split; [|auto]. assert (l < N) by (apply (NG q l); auto). lia. }
    split; [split|].
    - intros q l Hq E El. assert (Hl : l < N) by (apply group_lt with g q; auto).
      apply (lk_before _ _ _ _ _ LK). split; auto. split; [rewrite Hblk; cbn [num_lines]; lia|].
      assert (EL : l / G = q / G) by (apply (small_in_big g p Hg); auto).
      destruct (root_peer N G q root) as (u & Hu & Eu & Mu); auto.
      destruct (Nat.eq_dec q u) as [->|D]; [left; now apply LL|]. right. exists u, (l + off). split; auto. split; auto.
      assert (P : peers g p q u). { split; auto. rewrite E. now apply mod_coarse with p. }
      split; [|apply LL; auto; congruence].
      destruct (ag_pairs q u Hq Hu D) as [[_ X]|[X _]]; [|contradiction]. apply X. split; auto. exists l. auto.
    - intros q n Hq H. apply (lk_before _ _ _ _ _ LK) in H. destruct H as (_ & Hn & H). rewrite Hblk in Hn. cbn [num_lines] in Hn. split; auto.
      destruct H as [H|(u & m & Hu & D & I & H)].
      + apply ag_mid in H. destruct H as (_ & _ & H). apply A2 in H; auto. now apply mod_coarse with p.
      + apply ag_mid in H. destruct H as (_ & _ & H). apply A2 in H; auto. destruct H as [H _].
        destruct (ag_pairs q u Hq Hu D) as [[P _]|[_ X]]; [|rewrite X in I; destruct I].
        destruct P as [_ P]. rewrite <- P. now apply mod_coarse with p.
    - intros u q n n' Hu Hq D I I' H. apply ag_mid in H. destruct H as (_ & _ & H). apply A2 in H; auto. destruct H as [H _].
      destruct (ag_recv off g p Hg b Hb N NL HN HNL blk Hblk q u Hu ltac:(auto)) as (R1 & R2).
      destruct (peers_dec g p u q) as [P|P]; [|rewrite R2 in I by auto; destruct I].
      rewrite R1 in I' by auto. apply in_seq in I'. replace n' with ((n' - off) + off) by (clear - I'; glia).
      apply LL; auto. destruct P as [P _]. rewrite P. apply (small_in_big g p Hg). apply group_range; auto. clear - I'; glia.
  Qed.
End BackAG.

Section BackMid.
  Context (N root g p M : nat) (first : bool) (b : nat -> line) (blk : nat -> block) (A L B : nat -> nat -> Prop).
  Local Notation G := (g * (p + 1)).
  Local Notation NL := ((if first then p + 1 else p + 2) * N).
  Context (Hg : 0 < g) (Hp : 0 < p) (HM : 0 < M) (HGM : M mod G = 0) (HMN : N mod M = 0) (Hb : blanks b).
  Context (Hblk : forall q, blk q = Block NL (apply_writes b (mid_writes N M g p first q))) (LK : links N blk A L B).

  (* s: where the lines to be sent start *)
  Definition needed_mid (g s : nat) (A : nat -> nat -> Prop) : Prop :=
    (forall q l, q < N -> q mod g = root mod g -> l / M = q / M -> A q (l + s)) /\
    (forall q n, q < N -> A q n -> q mod g = root mod g) /\
    (forall q n, q < N -> A q n -> 2 * N <= n -> (n mod N) / M = q / M).

  Lemma mid_pairs u q i : q < N -> i < p -> partner G g q i = u ->
    forall x n, In (x, n) (pairs blk u q) <-> exists l, l / M = q / M /\ x = l + mid_soff N first /\ n = l + mid_slot first i * N.
  Proof.
    intros Hq Hi <- x n. unfold pairs.
    rewrite (mid_sent' g p M N Hg Hp HM first HGM HMN b Hb blk Hblk), (mid_recv_of g p M N Hg Hp HM first HGM HMN b Hb blk Hblk) by auto.
    rewrite in_combine_seq. split.
    - intros (j & Hj & -> & ->). exists (q / M * M + j). split; [|lia]. apply group_range; auto. lia.
    - intros (l & Hl & -> & ->). apply (group_range M q HM) in Hl. exists (l - q / M * M). lia.
  Qed.
  Lemma mid_reduce_in q n n' : q < N -> In n (reducefrom (lines (blk q) n')) -> exists l, l / M = q / M /\ In n (mid_rlist p N first l).
  Proof.
    intros Hq I. rewrite Hblk in I. cbn [lines] in I.
    destruct (entries_of_writes b (mid_writes N M g p first q) n') as (_ & _ & I1 & _).
    destruct (I1 n I) as [X|(v & Hv & Iv)]; [destruct (Hb n') as (f & Ef); rewrite Ef in X; destruct X|].
    apply (in_mid_writes g p M N Hg Hp HM first HGM HMN) in Hv. destruct Hv as (l & Hl & [(_ & [=])|[(i & _ & _ & [=])|(_ & [= ->])]]). eauto.
  Qed.
  Lemma mid_lines q l : q < N -> l / M = q / M -> l < N.
  Proof. intros. apply group_lt with M q; auto. Qed.
  Lemma mid_room : 2 * N <= NL.
  Proof. apply Nat.mul_le_mono_r. destruct first; lia. Qed.

  Lemma back_mid : needed_mid G N A -> needed_mid g (mid_soff N first) B /\ whole_at N blk L /\
    (first = false -> forall q n, q < N -> B q n -> 2 * N <= n -> recvfrom (lines (blk q) n) <> []).
  Proof.
    assert (Gp := step_pos g p Hg). assert (HN := mid_HN g p M N Hg Hp HM first HGM HMN b). assert (RM := mid_room).
    intros (A1 & A2 & A3).
    assert (NLq : forall q, num_lines (blk q) = NL) by (intros; rewrite Hblk; reflexivity).
    assert (BM : forall t q, q / G = t / G -> q / M = t / M) by (intros t q Et; eapply (big_in_middle g p M N); eauto).
    (* the destination, and what it is reduced from *)
    assert (LD : forall q l, q < N -> q mod G = root mod G -> l / M = q / M -> L q (l + N)).
    { intros q l Hq E El. apply (lk_mid _ _ _ _ _ LK). rewrite NLq. assert (l < N) by (now apply mid_lines with q).
      split; auto. split; [lia|]. left. auto. }
    assert (LR : forall q l r, q < N -> q mod G = root mod G -> l / M = q / M -> In r (mid_rlist p N first l) -> L q r).
    { intros q l r Hq E El I. apply (lk_mid _ _ _ _ _ LK). rewrite NLq. assert (l < N) by (now apply mid_lines with q).
      split; auto. split.
      - exact (proj1 (mid_rlist_room p N first l r Hp H I)).
      - right. exists (l + N). split; [lia|]. split; auto.
        rewrite Hblk. cbn [lines]. replace (l + N) with (l + 1 * N) by lia.
        rewrite (mid_reduce_hit g p M N Hg Hp HM first HGM HMN b q l) by auto. exact I. }
    assert (LS : forall q l i, q < N -> i < p -> q mod G = root mod G -> l / M = q / M -> L q (l + mid_slot first i * N)).
    { intros q l i Hq Hi E El. unfold mid_slot. destruct first eqn:Ef.
      - destruct (Nat.eq_dec i 0) as [->|Di].
        + replace ((0 + 1) * N) with N by lia. now apply LD.
        + apply (LR q l); auto. unfold mid_rlist. apply in_map_iff. exists i. split; [|apply in_seq; lia].
          apply Nat.eqb_neq in Di. now rewrite Di.
      - apply (LR q l); auto. unfold mid_rlist. apply in_map_iff. exists i. split; [reflexivity|apply in_seq; lia]. }
    assert (LQ : forall q n, L q n -> q < N /\ q mod G = root mod G).
    { intros q n H. apply (lk_mid _ _ _ _ _ LK) in H. destruct H as (Hq & _ & [H|(n' & _ & H & _)]); split; auto; now apply A2 in H. }
    assert (LU : forall q n, L q n -> 2 * N <= n -> (n mod N) / M = q / M).
    { intros q n H Hn. apply (lk_mid _ _ _ _ _ LK) in H. destruct H as (Hq & _ & [H|(n' & _ & _ & I)]); [now apply A3|].
      apply mid_reduce_in in I; auto. destruct I as (l & El & I). assert (Hl : l < N) by (now apply mid_lines with q).
      destruct (mid_rlist_room p N first l n Hp Hl I) as [_ ->]. exact El. }
    assert (BU : forall q n, q < N -> B q n -> 2 * N <= n -> (n mod N) / M = q / M).
    { intros q n Hq H Hn. apply (lk_before _ _ _ _ _ LK) in H. destruct H as (_ & _ & [H|(u & m & Hu & D & I & H)]); [now apply LU|]. exfalso.
      destruct (partner_dec g p Hg u q) as [(i & Hi & Ei)|X].
      - apply (mid_pairs q u i Hu Hi Ei) in I. destruct I as (l & El & -> & _). assert (l < N) by (now apply mid_lines with u).
        unfold mid_soff in Hn. destruct first; lia.
      - apply pair_in in I. destruct I as [I _]. rewrite (mid_sent_none g p M N Hg Hp HM first HGM HMN b Hb blk Hblk) in I by
          (auto; intros [P1 P2]; destruct (partner_surj g p Hg u q) as (i & Hi & Ei); auto; exact (X i Hi Ei)).
        destruct I. }
    split; [split; [|split; auto]|split].
    - intros q l Hq E El. assert (Hl : l < N) by (now apply mid_lines with q).
      apply (lk_before _ _ _ _ _ LK). rewrite NLq. split; auto. split; [unfold mid_soff; destruct first; lia|].
      destruct (root_peer N G q root) as (u & Hu & Eu & Mu); auto. assert (EM := BM q u Eu).
      destruct (Nat.eq_dec q u) as [->|D].
      + left. unfold mid_soff. destruct first eqn:Ef; [|now apply LD].
        apply (LR u l); auto. unfold mid_rlist. apply in_map_iff. exists 0. split; [cbn; lia|apply in_seq; lia].
      + right. destruct (partner_surj g p Hg u q) as (i & Hi & Ei); auto.
        { rewrite E. symmetry. now apply mod_coarse with p. }
        exists u, (l + mid_slot first i * N). split; auto. split; auto. split; [|apply LS; auto; congruence].
        apply (mid_pairs q u i Hu Hi Ei). exists l. split; [congruence|auto].
    - intros q n Hq H. apply (lk_before _ _ _ _ _ LK) in H. destruct H as (_ & _ & [H|(u & m & Hu & D & I & H)]).
      + apply LQ in H. now apply mod_coarse with p.
      + apply LQ in H. destruct H as [_ H]. apply mod_coarse in H; auto. rewrite <- H.
        destruct (div_mod_dec g G q u) as [[_ P]|P]; [now symmetry|]. exfalso.
        apply pair_in in I. destruct I as [I _].
        rewrite (mid_sent_none g p M N Hg Hp HM first HGM HMN b Hb blk Hblk) in I by auto. destruct I.
    - intros u q n n' Hu Hq D I I' H. apply LQ in H. destruct H as [_ H].
      destruct (partner_dec g p Hg q u) as [(i & Hi & Ei)|X].
      + rewrite <- Ei in I'. rewrite (mid_recv_of g p M N Hg Hp HM first HGM HMN b Hb blk Hblk) in I' by auto. apply in_seq in I'.
        set (c := mid_slot first i * N) in *.
        replace n' with ((n' - c) + c) by (clear - I'; clearbody c; glia). apply LS; auto. apply group_range; auto. clear - I'; clearbody c; glia.
      + exfalso. apply in_recv in I. destruct I as (_ & e & Ie & Ee).
        assert (Z : existsb (is_node u) (recvfrom (lines (blk q) n)) = true) by (apply existsb_exists; eauto).
        apply (slots_recv_iff g p N NL M Hg HN (fun q => q / M * M) (mid_slot first)
          (fun q Hq => group_fits N M q HM HMN Hq) ltac:(intros ? ? _ _; unfold mid_slot; destruct first; lia)
          ltac:(intros; unfold mid_slot; destruct first; apply Nat.mul_le_mono_r; lia) blk NLq
          (mid_hit' g p M N Hg Hp HM first HGM HMN b blk Hblk) (mid_miss' g p M N Hg Hp HM first HGM HMN b Hb blk Hblk)) in Z; auto.
        destruct Z as (i & Hi & Ei & _). exact (X i Hi Ei).
    - intros Ef q n Hq H Hn. assert (U := BU q n Hq H Hn). apply (lk_before _ _ _ _ _ LK) in H. destruct H as (_ & Hx & _). rewrite NLq, Ef in Hx.
      assert (Np : 0 < N) by lia. assert (Hl := mid_lines q (n mod N) Hq U).
      assert (En : n = n mod N + n / N * N). { rewrite Nat.add_comm. symmetry. now apply node_eq. }
      assert (C1 : 2 <= n / N) by (apply Nat.div_le_lower_bound; lia).
      assert (C2 : n / N < p + 2) by (apply Nat.div_lt_upper_bound; lia).
      assert (Es : n = n mod N + mid_slot first (n / N - 2) * N).
      { unfold mid_slot. rewrite Ef. replace (n / N - 2 + 2) with (n / N) by lia. exact En. }
      rewrite Es, (mid_hit' g p M N Hg Hp HM first HGM HMN b blk Hblk) by first [assumption|clear - C1 C2; lia|now apply group_range]. discriminate.
  Qed.
End BackMid.

Section BackRS.
  Context (N g p : nat) (first last : bool) (b : nat -> line) (blk : nat -> block) (A L B : nat -> nat -> Prop).
  Local Notation G := (g * (p + 1)).
  Local Notation NL := ((if last then 2 + p else 3 + p) * N).
  Context (Hg : 0 < g) (Hp : 0 < p) (HN : N mod G = 0) (Hb : blanks b).
  Context (Hblk : forall q, blk q = Block NL (apply_writes b (rs_writes N G p first last q))) (LK : links N blk A L B).

  Definition needed_down (g s : nat) (A : nat -> nat -> Prop) : Prop :=
    (forall q l, q < N -> l / g = q / g -> A q (l + s)) /\
    (forall q n, q < N -> A q n -> 3 * N <= n -> (n mod N) / g = q / g).

  Lemma rs_pairs u q i : q < N -> i < p -> partner G g q i = u ->
    forall x n, In (x, n) (pairs blk u q) <-> exists l, l / g = q / g /\ x = l + rs_soff N first /\ n = l + rs_slot p first last i * N.
  Proof.
    intros Hq Hi <- x n. unfold pairs.
    rewrite (rs_sent' g p N Hg Hp first last HN b Hb blk Hblk), (rs_recv_of g p N Hg Hp first last HN b Hb blk Hblk) by auto.
    rewrite in_combine_seq. split.
    - intros (j & Hj & -> & ->). exists (q / g * g + j). split; [|lia]. apply group_range; auto. lia.
    - intros (l & Hl & -> & ->). apply (group_range g q Hg) in Hl. exists (l - q / g * g). lia.
  Qed.
  Lemma rs_reduce_in q n n' : q < N -> In n (reducefrom (lines (blk q) n')) -> exists l, l / g = q / g /\ In n (rs_rlist p N first last l).
  Proof.
    intros Hq I. rewrite Hblk in I. cbn [lines] in I.
    destruct (entries_of_writes b (rs_writes N G p first last q) n') as (_ & _ & I1 & _).
    destruct (I1 n I) as [X|(v & Hv & Iv)]; [destruct (Hb n') as (f & Ef); rewrite Ef in X; destruct X|].
    apply (in_rs_writes g p N Hg Hp first last HN) in Hv.
    destruct Hv as (l & Hl & [(_ & _ & [=])|[(_ & i & _ & _ & [=])|(E & _ & [= ->])]]). eauto.
  Qed.
  Lemma rs_room : 3 * N <= NL.
  Proof. apply Nat.mul_le_mono_r. destruct last; lia. Qed.

  Lemma back_rs : needed_down g (rs_dest last * N) A -> needed_down G (rs_soff N first) B /\ whole_at N blk L /\
    (first = false -> forall q n, q < N -> B q n -> 3 * N <= n -> recvfrom (lines (blk q) n) <> []).
  Proof.
    assert (Gp := step_pos g p Hg). assert (Ng : N mod g = 0) by (apply mod_of_factor with (p + 1); auto; lia). assert (RM := rs_room).
    intros (A1 & A3).
    assert (NLq : forall q, num_lines (blk q) = NL) by (intros; rewrite Hblk; reflexivity).
    assert (LT : forall q l, q < N -> l / g = q / g -> l < N) by (intros; apply group_lt with g q; auto).
    assert (LD : forall q l, q < N -> l / g = q / g -> L q (l + rs_dest last * N)).
    { intros q l Hq El. apply (lk_mid _ _ _ _ _ LK). rewrite NLq. assert (l < N) by eauto.
      split; auto. split; [unfold rs_dest; destruct last; lia|]. left. auto. }
    assert (LR : forall q l r, q < N -> l / g = q / g -> In r (rs_rlist p N first last l) -> L q r).
    { intros q l r Hq El I. apply (lk_mid _ _ _ _ _ LK). rewrite NLq. assert (l < N) by eauto.
      split; auto. split.
      - exact (proj1 (rs_rlist_room p N first last l r Hp H I)).
      - right. exists (l + rs_dest last * N). split; [unfold rs_dest; destruct last; lia|]. split; auto.
        rewrite Hblk. cbn [lines].
        rewrite (rs_reduce_hit g p N Hg Hp first last HN b q l) by auto. exact I. }
    assert (LS : forall q l i, q < N -> i < p -> l / g = q / g -> L q (l + rs_slot p first last i * N)).
    { intros q l i Hq Hi El. unfold rs_slot. destruct last eqn:Ea.
      - destruct (Nat.eqb_spec i (p - 1)) as [->|Di]; [now apply LD|].
        apply (LR q l); auto. unfold rs_rlist. destruct first.
        + right. apply in_map_iff. exists (i + 1). split; [f_equal; f_equal; lia|apply in_seq; lia].
        + apply in_map_iff. exists (i + 1). split; [f_equal; f_equal; lia|apply in_seq; lia].
      - destruct first eqn:Ef.
        + destruct (Nat.eq_dec i 0) as [->|Di]; [now apply LD|].
          apply (LR q l); auto. right. apply in_map_iff. exists i. split; [reflexivity|apply in_seq; lia].
        + apply (LR q l); auto. apply in_map_iff. exists i. split; [reflexivity|apply in_seq; lia]. }
    assert (LO : forall q l, q < N -> l / g = q / g -> L q (l + rs_soff N first)).
    { intros q l Hq El. unfold rs_soff. destruct first eqn:Ef.
      - apply (LR q l); auto. rewrite Nat.add_0_r. unfold rs_rlist. destruct last; now left.
      - destruct last eqn:Ea; [|now apply LD]. apply (LR q l); auto. unfold rs_rlist. apply in_map_iff. exists 0.
        split; [reflexivity|apply in_seq; lia]. }
    assert (BU : forall q n, q < N -> B q n -> 3 * N <= n -> (n mod N) / g = q / g).
    { intros q n Hq H Hn. apply (lk_before _ _ _ _ _ LK) in H. destruct H as (_ & _ & [H|(u & m & Hu & D & I & H)]).
      - apply (lk_mid _ _ _ _ _ LK) in H. destruct H as (_ & _ & [H|(n' & _ & _ & I)]); [now apply A3|].
        apply rs_reduce_in in I; auto. destruct I as (l & El & I).
        destruct (rs_rlist_room p N first last l n Hp (LT q l Hq El) I) as [_ ->]. exact El.
      - exfalso. destruct (partner_dec g p Hg u q) as [(i & Hi & Ei)|X].
        + apply (rs_pairs q u i Hu Hi Ei) in I. destruct I as (l & El & -> & _). assert (l < N) by eauto.
          unfold rs_soff in Hn. destruct first; lia.
        + apply pair_in in I. destruct I as [I _]. rewrite (rs_sent_none g p N Hg Hp first last HN b Hb blk Hblk) in I by
            (auto; intros [P1 P2]; destruct (partner_surj g p Hg u q) as (i & Hi & Ei); auto; exact (X i Hi Ei)).
          destruct I. }
    split; [split|split].
    - intros q l Hq El. assert (Hl : l < N) by (apply group_lt with G q; auto).
      apply (lk_before _ _ _ _ _ LK). rewrite NLq. split; auto. split; [unfold rs_soff; destruct first; lia|].
      destruct (Nat.eq_dec (l / g) (q / g)) as [E|E]; [left; now apply LO|]. right.
      assert (Mq := Nat.mod_upper_bound q g ltac:(lia)).
      set (u := l / g * g + q mod g). assert (Eu : u / g = l / g) by (now apply node_div). assert (Mu : u mod g = q mod g) by (now apply node_mod).
      assert (EuG : u / G = q / G) by (rewrite <- El; now apply (small_in_big g p Hg)).
      assert (Hu : u < N) by (apply group_lt with G q; auto).
      destruct (partner_surj g p Hg u q) as (i & Hi & Ei); auto; [congruence|].
      exists u, (l + rs_slot p first last i * N). split; auto. split; [congruence|]. split; [|apply LS; auto].
      apply (rs_pairs q u i Hu Hi Ei). exists l. auto.
    - intros q n Hq H Hn. apply (small_in_big g p Hg). now apply BU.
    - intros u q n n' Hu Hq D I I' _.
      destruct (partner_dec g p Hg q u) as [(i & Hi & Ei)|X].
      + rewrite <- Ei in I'. rewrite (rs_recv_of g p N Hg Hp first last HN b Hb blk Hblk) in I' by auto. apply in_seq in I'.
        set (c := rs_slot p first last i * N) in *.
        replace n' with ((n' - c) + c) by (clear - I'; clearbody c; glia). apply LS; auto. apply group_range; auto. clear - I'; clearbody c; glia.
      + exfalso. apply in_recv in I. destruct I as (_ & e & Ie & Ee).
        assert (Z : existsb (is_node u) (recvfrom (lines (blk q) n)) = true) by (apply existsb_exists; eauto).
        apply (slots_recv_iff g p N NL g Hg HN (fun q => q / g * g) (rs_slot p first last)
             (rs_base g p N Hg Hp first last HN b) (rs_slot_inj g p N Hg Hp first last HN b)
             (rs_slot_fit g p N Hg Hp first last HN b) blk NLq
          (rs_hit' g p N Hg Hp first last HN b blk Hblk) (rs_miss' g p N Hg Hp first last HN b Hb blk Hblk)) in Z; auto.
        destruct Z as (i & Hi & Ei & _). exact (X i Hi Ei).
    - intros Ef q n Hq H Hn. assert (U := BU q n Hq H Hn). apply (lk_before _ _ _ _ _ LK) in H. destruct H as (_ & Hx & _). rewrite NLq in Hx.
      assert (Np : 0 < N) by lia. assert (Hl := LT q (n mod N) Hq U).
      assert (En : n = n mod N + n / N * N). { rewrite Nat.add_comm. symmetry. now apply node_eq. }
      assert (C1 : 3 <= n / N) by (apply Nat.div_le_lower_bound; lia).
      assert (C2 : n / N < (if last then 2 + p else 3 + p)) by (apply Nat.div_lt_upper_bound; lia).
      assert (Es : n = n mod N + rs_slot p first last (n / N - 3) * N).
      { unfold rs_slot. rewrite Ef. destruct last.
        - destruct (Nat.eqb_spec (n / N - 3) (p - 1)); [lia|]. replace (3 + (n / N - 3)) with (n / N) by lia. exact En.
        - replace (3 + (n / N - 3)) with (n / N) by lia. exact En. }
      rewrite Es, (rs_hit' g p N Hg Hp first last HN b blk Hblk) by first [assumption|clear - C1 C2; destruct last; lia|now apply group_range]. discriminate.
  Qed.
End BackRS.

(* ---------- all stages ---------- *)
Section Chains.
  Context (N root : nat) (alg : nat -> list block) (count : nat) (Hc : 2 <= count).
  Local Notation blk m := (block_at alg m).
  Context (PL : forall i, 1 <= i < count - 1 -> tidy N (blk i)).
  Context (LAST : forall q, q < N -> untouched (blk (count - 1) q)).
  Definition alive (i q n : nat) : Prop := lv2 N root alg count i q n <> 0.
  Definition alive_mid (i q n : nat) : Prop := lv1 N root alg count i q n <> 0.
  Lemma links_at i : 1 <= i < count - 1 -> links N (blk i) (alive (S i)) (alive_mid i) (alive i).
  Proof.
    intros Hi. constructor.
    - intros q n. now apply live1.
    - intros p x. now apply live2.
  Qed.
  Definition cut_at (i : nat) : Prop := forall q n, q < N -> alive (S i) q n -> num_lines (blk i q) <= n -> recvfrom (lines (blk (S i) q) n) <> [].
  Definition good_at (i : nat) : Prop := whole_at N (blk i) (alive_mid i) /\ cut_at i.
  Definition tail_at (c i : nat) : Prop := forall q n, q < N -> alive i q n -> c * N <= n -> recvfrom (lines (blk i q) n) <> [].

  Lemma back_up off NL b ports : off + N <= NL -> blanks b -> forall g start, 0 < g -> N mod (g * product ports) = 0 ->
    1 <= start -> start + length ports <= count - 1 ->
    (forall q m, m < length ports -> blk (start + m) q = nth m (up_stages off NL b g ports q) empty_block) ->
    needed_up N root off NL (g * product ports) (alive (start + length ports)) ->
    needed_up N root off NL g (alive start) /\ forall i, start <= i < start + length ports -> good_at i.
  Proof.
    intros HNL Hb. induction ports as [|p r IH]; intros g start Hg HN H1 H2 Hs HA.
    - cbn [length] in *. rewrite Nat.add_0_r in HA. cbn in HA. rewrite Nat.mul_1_r in HA. split; [exact HA|intros; lia].
    - cbn [length] in *. rewrite product_cons, Nat.mul_assoc in HA, HN.
      destruct (IH (g * (width p + 1)) (S start)) as (I1 & I2); auto using step_pos; try lia.
      + intros q m Hm. replace (S start + m) with (start + S m) by lia. now rewrite Hs by lia.
      + now replace (S start + length r) with (start + S (length r)) by lia.
      + assert (HN' : N mod (g * (width p + 1)) = 0) by (eapply mod_of_factor; [apply step_pos; assumption|apply (product_pos r)|exact HN]).
        assert (E : forall q, blk start q = Block NL (apply_writes b (ag_writes off g (width p) q))).
        { intros q. rewrite <- (Nat.add_0_r start) at 1. now rewrite Hs by lia. }
        destruct (back_ag N root off g (width p) NL b (blk start) _ _ _ Hg HN' HNL Hb E (links_at start ltac:(lia)) I1) as (B1 & B2).
        split; auto. intros i Hi. destruct (Nat.eq_dec i start) as [->|D]; [|apply I2; lia].
        split; auto. intros q n Hq Hn Hl. exfalso. destruct I1 as (_ & I1). apply I1 in Hn; auto. rewrite E in Hl. cbn [num_lines] in Hl. lia.
  Qed.

  Lemma back_middle M ports : 0 < M -> N mod M = 0 -> forall g first start, 0 < g -> nonzero ports -> M mod (g * product ports) = 0 ->
    (first = true -> ports <> []) -> 1 <= start -> start + length ports <= count - 1 ->
    (forall q m, m < length ports -> blk (start + m) q = nth m (mid_stages N M g first ports q) empty_block) ->
    needed_mid N root M (g * product ports) N (alive (start + length ports)) -> tail_at 2 (start + length ports) ->
    needed_mid N root M g (mid_soff N first) (alive start) /\ (first = false -> tail_at 2 start) /\
    forall i, start <= i < start + length ports -> good_at i.
  Proof.
    intros HM HMN. induction ports as [|p r IH]; intros g first start Hg NZ HGM Hf H1 H2 Hs HA HT.
    - cbn [length] in *. rewrite Nat.add_0_r in HA, HT. cbn in HA. rewrite Nat.mul_1_r in HA. destruct first; [exfalso; now apply Hf|].
      split; [exact HA|]. split; [auto|intros; lia].
    - inversion NZ as [|? ? Hp Hr]; subst. cbn [length] in *. rewrite product_cons, Nat.mul_assoc in HA, HGM.
      assert (Wp : 0 < width p) by (unfold width; lia).
      destruct (IH (g * (width p + 1)) false (S start)) as (I1 & I2 & I3); auto using step_pos; try lia; try discriminate.
      + intros q m Hm. replace (S start + m) with (start + S m) by lia. now rewrite Hs by lia.
      + now replace (S start + length r) with (start + S (length r)) by lia.
      + now replace (S start + length r) with (start + S (length r)) by lia.
      + assert (HG' : M mod (g * (width p + 1)) = 0) by (eapply mod_of_factor; [apply step_pos; assumption|apply (product_pos r)|exact HGM]).
        assert (E : forall q, blk start q = Block ((if first then width p + 1 else width p + 2) * N)
                      (apply_writes (fun x => blank (x mod N)) (mid_writes N M g (width p) first q))).
        { intros q. rewrite <- (Nat.add_0_r start) at 1. now rewrite Hs by lia. }
        destruct (back_mid N root g (width p) M first _ (blk start) _ _ _ Hg Wp HM HG' HMN (blanks_mod N) E (links_at start ltac:(lia)) I1) as (B1 & B2 & B3).
        split; auto. split; auto. intros i Hi. destruct (Nat.eq_dec i start) as [->|D]; [|apply I3; lia].
        split; auto. intros q n Hq Hn Hl. apply I2; auto. rewrite E in Hl. cbn [num_lines] in Hl.
        apply Nat.le_trans with (2 := Hl). apply Nat.mul_le_mono_r. destruct first; lia.
  Qed.

  Lemma back_down ports : forall g first start, ports <> [] -> 0 < g -> nonzero ports -> N mod (g * product ports) = 0 ->
    1 <= start -> start + length ports <= count - 1 ->
    (forall q m, m < length ports -> blk (start + m) q = nth m (rs_stages N (g * product ports) first ports q) empty_block) ->
    needed_down N g N (alive (start + length ports)) -> tail_at 3 (start + length ports) ->
    needed_down N (g * product ports) (rs_soff N first) (alive start) /\ (first = false -> tail_at 3 start) /\
    forall i, start <= i < start + length ports -> good_at i.
  Proof.
    induction ports as [|p r IH]; intros g first start Hne Hg NZ HN H1 H2 Hs HA HT; [congruence|].
    inversion NZ as [|? ? Hp Hr]; subst. cbn [length] in *.
    assert (Wp : 0 < width p) by (unfold width; lia). set (g' := g * product r).
    assert (Hg' : 0 < g') by (unfold g'; assert (X := product_pos r); clear - Hg X; nia).
    assert (EG : g * product (p :: r) = g' * (width p + 1)) by (rewrite product_cons; unfold g'; clear; nia).
    rewrite EG in *.
    set (lst := match r with [] => true | _ => false end).
    assert (X : needed_down N g' (rs_dest lst * N) (alive (S start)) /\ tail_at 3 (S start) /\ forall i, S start <= i < S start + length r -> good_at i).
    { destruct r as [|p' r'].
      - cbn [length] in *. unfold g', lst. cbn [product fold_right rs_dest]. rewrite Nat.mul_1_r, Nat.mul_1_l.
        rewrite Nat.add_1_r in HA, HT. split; auto. split; auto. intros; lia.
      - assert (ES : start + S (length (p' :: r')) = S start + length (p' :: r')) by lia. rewrite ES in HA, HT.
        destruct (IH g false (S start)) as (I1 & I2 & I3); auto; try lia; try discriminate.
        + apply mod_of_factor with (width p + 1); auto. lia.
        + intros q m Hm. replace (S start + m) with (start + S m) by lia. rewrite Hs by lia. cbn [rs_stages nth].
          rewrite Nat.div_mul by lia. reflexivity. }
    destruct X as (I1 & I2 & I3).
    assert (E : forall q, blk start q = Block ((if lst then 2 + width p else 3 + width p) * N)
                  (apply_writes (fun x => blank (x mod N)) (rs_writes N (g' * (width p + 1)) (width p) first lst q))).
    { intros q. rewrite <- (Nat.add_0_r start) at 1. now rewrite Hs by lia. }
    destruct (back_rs N g' (width p) first lst _ (blk start) _ _ _ Hg' Wp HN (blanks_mod N) E (links_at start ltac:(lia)) I1) as (B1 & B2 & B3).
    split; auto. split; auto. intros i Hi. destruct (Nat.eq_dec i start) as [->|D]; [|apply I3; lia].
    split; auto. intros q n Hq Hn Hl. apply I2; auto. rewrite E in Hl. cbn [num_lines] in Hl.
    apply Nat.le_trans with (2 := Hl). apply Nat.mul_le_mono_r. destruct lst; lia.
  Qed.

  Lemma all_good : (forall i, 1 <= i < count - 1 -> good_at i) -> whole_messages N root alg count /\ cut_lines N root alg count.
  Proof.
    intros H. split.
    - intros i p q n n' Hi Hp Hq D I I'. exact (proj1 (H i Hi) p q n n' Hp Hq D I I').
    - intros i q n Hi Hq. exact (proj2 (H i Hi) q n Hq).
  Qed.
End Chains.

(* ---------- the last block ---------- *)
Lemma last_outputs b o a k NL n : blanks b ->
  let B := Block NL (apply_writes b (map (fun l => (l, Send [((-1)%Z, o l)])) (seq a k))) in
  (recvfrom (lines B n) = [] /\ reducefrom (lines B n) = [] /\ copyreducefrom (lines B n) = []) /\
  existsb is_user (sendto (lines B n)) = (a <=? n) && (n <? a + k).
Proof.
  intros Hb B. cbn [B lines]. split.
  - apply only_sends; auto. intros w Hw. apply in_map_iff in Hw. destruct Hw as (l & <- & _). eexists; reflexivity.
  - rewrite sendto_outputs by auto. now destruct (_ && _).
Qed.
Lemma last_unsent b o a k NL p q blk : blanks b -> blk p = Block NL (apply_writes b (map (fun l => (l, Send [((-1)%Z, o l)])) (seq a k))) ->
  sent_lines blk p q = [].
Proof.
  intros Hb E. apply sent_lines_nil. intros n _. rewrite E. cbn [lines]. rewrite sendto_outputs by auto.
  destruct (_ && _); [|reflexivity]. cbn [filter]. destruct (is_node q _) eqn:X; [|reflexivity].
  unfold is_node in X. cbn [fst] in X. apply Z.eqb_eq in X. lia.
Qed.

(* ---------- allgather ---------- *)
Lemma ag_first_idle lb q n : reducefrom (lines (ag_first lb q) n) = [] /\ copyreducefrom (lines (ag_first lb q) n) = [].
Proof.
  unfold ag_first. cbn [lines].
  rewrite reducefrom_none, copyreducefrom_none; [split; reflexivity| |]; intros v Hv; apply in_flat_map in Hv; destruct Hv as (l & _ & Hv);
    (destruct (l =? q); [|destruct Hv]); destruct Hv as [[=]|[]].
Qed.
Lemma ag_first_other lb q n : n <> q -> recvfrom (lines (ag_first lb q) n) = [].
Proof.
  intros D. unfold ag_first. cbn [lines].
  rewrite recvfrom_none; [reflexivity|]. intros v Hv; apply in_flat_map in Hv; destruct Hv as (l & _ & Hv);
    destruct (Nat.eqb_spec l q) as [Eq|]; [|destruct Hv]; destruct Hv as [[= X _]|[]]. congruence.
Qed.
Section GatherParts.
  Context (ports : list Z) (root : nat).
  Local Notation N := (node_count ports).
  Local Notation alg := (generate_recursive true ports).
  Local Notation nb := (length ports + 2).
  Local Notation blk m := (block_at alg m).
  Context (Hr : root < N).
  Lemma ga_stage q m : m < length ports -> blk (1 + m) q = nth m (up_stages 0 N blank 1 ports q) empty_block.
  Proof.
    intros Hm. unfold block_at, generate_recursive, allgather_core. rewrite (ports_product_eq ports). cbn [nth Nat.add].
    rewrite app_nth1 by (rewrite ag_stages_up, up_stages_length; assumption). now rewrite ag_stages_up.
  Qed.
  Lemma ga_last q : blk (nb - 1) q = ag_last N.
  Proof.
    unfold block_at, generate_recursive, allgather_core. rewrite (ports_product_eq ports). replace (nb - 1) with (S (length ports)) by lia.
    cbn [nth]. rewrite app_nth2; rewrite ag_stages_up, up_stages_length; [|lia]. now rewrite Nat.sub_diag.
  Qed.
  Lemma ga_tidy i : 1 <= i < nb - 1 -> tidy N (blk i).
  Proof.
    intros Hi. assert (Np : 0 < N) by apply product_pos.
    destruct (up_stage_at N N 0 blank ports 1 (i - 1)) as (g & p & Hg & HN & E); [lia|lia| |].
    { rewrite Nat.mul_1_l. apply Nat.mod_same. assert (X := product_pos ports). lia. }
    apply (tidy_ag N N 0 g p blank); auto using blanks_id.
    intros q. rewrite <- E, <- ga_stage by lia. f_equal; lia.
  Qed.
  Lemma ga_untouched q : q < N -> untouched (blk (nb - 1) q).
  Proof. intros _ n. rewrite ga_last. apply (last_outputs blank (fun l => l) 0 N N n blanks_id). Qed.
  Lemma ga_unsent p q : p < N -> q < N -> sent_lines (blk (nb - 1)) p q = [].
  Proof. intros _ _. apply (last_unsent blank (fun l => l) 0 N N p q _ blanks_id). apply ga_last. Qed.
  Lemma ga_needed : needed_up N root 0 N 1 (alive N root alg nb 1) /\ forall i, 1 <= i < nb - 1 -> good_at N root alg nb i.
  Proof.
    assert (Np : 0 < N) by apply product_pos. assert (EN : 1 * product ports = N) by apply Nat.mul_1_l.
    destruct (back_up N root alg nb ltac:(lia) ga_tidy ga_untouched 0 N blank ports (le_n N) blanks_id 1 1) as (A & B); try lia.
    - rewrite EN. apply Nat.mod_same. lia.
    - intros q m. apply ga_stage.
    - rewrite EN. replace (1 + length ports) with (nb - 1) by lia. split.
      + intros q l Hq E El. rewrite !Nat.mod_small in E by auto. subst q. rewrite (Nat.div_small root) in El by auto.
        apply Nat.div_small_iff in El; [|lia]. unfold alive. apply (live_last N root alg nb ltac:(lia) ga_tidy ga_untouched).
        rewrite ga_last. unfold ag_last at 1. cbn [num_lines]. split; auto. split; auto. split; [lia|].
        destruct (last_outputs blank (fun l => l) 0 N N (l + 0) blanks_id) as [_ X]. cbn zeta in X. unfold ag_last. rewrite X.
        apply andb_true_iff. rewrite Nat.leb_le, Nat.ltb_lt. lia.
      + intros q n Hq H. unfold alive in H. apply (live_last N root alg nb ltac:(lia) ga_tidy ga_untouched) in H. destruct H as (-> & _ & H & _).
        rewrite ga_last in H. split; auto.
    - split; auto. intros i Hi. apply B. lia.
  Qed.
  Lemma ga_parts : whole_messages N root alg nb /\ cut_lines N root alg nb.
  Proof. apply all_good. apply ga_needed. Qed.
  Lemma ga_input q n : q < N -> n < num_lines (blk 0 q) ->
    existsb is_user (recvfrom (lines (nth 0 (backward N root alg nb q) empty_block) n)) = existsb is_user (recvfrom (lines (blk 0 q) n)).
  Proof.
    intros Hq Hn. assert (E0 : blk 0 q = ag_first N q) by apply ag_head.
    rewrite backward_at by lia. cbn [prune_block lines]. unfold prune_line.
    replace (middle_block nb 0) with false by reflexivity.
    destruct (Nat.eqb_spec (at_ (snd (levels N root alg nb (nb - 1 - 0))) q n) 0) as [Z|Z]; [|reflexivity]. cbn [recvfrom].
    destruct (Nat.eq_dec n q) as [->|D].
    - exfalso. assert (X : lv2 N root alg nb 0 q q <> 0); [|exact (X Z)].
      apply (live_first N root alg nb ltac:(lia) ga_tidy ga_untouched); auto.
      + intros n. rewrite E0. apply ag_first_idle.
      + destruct ga_needed as ((A & _) & _). specialize (A q q Hq). rewrite Nat.add_0_r in A. apply A; auto.
    - rewrite E0, ag_first_other by auto. reflexivity.
  Qed.
End GatherParts.

(* ---------- allreduce ---------- *)
Lemma product_one ports : Forall (fun p => (0 < p)%Z) ports -> product ports = 1 -> ports = [].
Proof.
  intros H E. destruct ports as [|p r]; auto. exfalso. inversion H; subst. rewrite product_cons in E.
  assert (X := product_pos r). unfold width in E. assert (1 < Z.to_nat (Z.abs p) + 1) by lia. nia.
Qed.
Section ReduceParts.
  Context (down mid up : list Z) (B : balanced down mid up) (root : nat).
  Local Notation ports := (down ++ mid ++ up).
  Local Notation N := (node_count (mid ++ up)).
  Local Notation M := (product mid).
  Local Notation alg := (generate_recursive false ports).
  Local Notation nb := (length ports + 2).
  Local Notation blk m := (block_at alg m).
  Local Notation fm := (match down with [] => true | _ => false end).
  Local Notation bl := (fun y => blank (y mod N)).
  Context (Hr : root < N).
  Lemma re_parts : N = M * product up /\ product up = product down /\ 0 < M /\ 0 < N /\ N mod M = 0 /\ nonzero down /\ nonzero mid /\
    (fm = true -> mid <> []).
  Proof.
    destruct B as (Hd & Hm & Hu & Hi & Hne). assert (E : N = M * product up) by apply product_app. change (product up = product down) in Hi.
    split; auto. split; auto. split; [apply product_pos|]. split; [apply product_pos|]. split; [rewrite E, Nat.mul_comm; apply Nat.mod_mul; assert (X := product_pos mid); lia|].
    split; [eapply Forall_impl; [|exact Hd]; cbn; lia|]. split; [eapply Forall_impl; [|exact Hm]; cbn; lia|].
    destruct down; [|discriminate]. intros _ ->. apply Hne. cbn in *. apply product_one; auto.
  Qed.
  Lemma re_alg q : alg q = rs_first N :: rs_stages N N true down q ++ mid_stages N M 1 fm mid q ++ up_stages N (2 * N) bl M up q ++ [ar_last N].
  Proof.
    rewrite generate_allreduce by auto. destruct re_parts as (E & _). destruct B as (Hd & Hm & Hu & Hi & Hne).
    rewrite (allreduce_core_eq down mid up Hd Hm Hu Hi). now rewrite <- E.
  Qed.
  Lemma re_down q m : m < length down -> blk (1 + m) q = nth m (rs_stages N (M * product down) true down q) empty_block.
  Proof.
    intros Hm. unfold block_at. rewrite re_alg. cbn [Nat.add nth]. rewrite app_nth1 by (rewrite rs_stages_length; auto).
    destruct re_parts as (E & E' & _). now rewrite <- E', <- E.
  Qed.
  Lemma re_mid q m : m < length mid -> blk (1 + length down + m) q = nth m (mid_stages N M 1 fm mid q) empty_block.
  Proof.
    intros Hm. unfold block_at. rewrite re_alg. cbn [Nat.add nth]. rewrite app_nth2; rewrite rs_stages_length; [|lia].
    rewrite app_nth1 by (rewrite mid_stages_length; lia). f_equal. lia.
  Qed.
  Lemma re_up q m : m < length up -> blk (1 + length down + length mid + m) q = nth m (up_stages N (2 * N) bl M up q) empty_block.
  Proof.
    intros Hm. unfold block_at. rewrite re_alg. cbn [Nat.add nth]. rewrite app_nth2; rewrite rs_stages_length; [|lia].
    rewrite app_nth2; rewrite mid_stages_length; [|lia]. rewrite app_nth1 by (rewrite up_stages_length; lia). f_equal. lia.
  Qed.
  Lemma re_last q : blk (nb - 1) q = ar_last N.
  Proof.
    unfold block_at. rewrite re_alg. rewrite !app_length. replace (length down + (length mid + length up) + 2 - 1) with (S (length down + (length mid + length up))) by lia.
    cbn [nth]. rewrite app_nth2; rewrite rs_stages_length; [|lia].
    rewrite app_nth2; rewrite mid_stages_length; [|lia]. rewrite app_nth2; rewrite up_stages_length; [|lia].
    replace (_ - _ - _ - _) with 0 by lia. reflexivity.
  Qed.
  Lemma re_len : nb - 1 = 1 + length down + length mid + length up.
  Proof. rewrite !app_length. lia. Qed.
  Lemma re_tidy i : 1 <= i < nb - 1 -> tidy N (blk i).
  Proof.
    intros Hi. destruct re_parts as (E & E' & Mp & Np & HMN & Zd & Zm & _). rewrite re_len in Hi.
    destruct (le_lt_dec (1 + length down) i) as [H1|H1].
    2:{ destruct (rs_stage_at N down M true (i - 1)) as (g & p & f & l & Hg & Hp & HN & X); auto; [lia| |].
        { rewrite <- E', <- E. apply Nat.mod_same. lia. }
        apply (tidy_rs g p N Hg Hp f l HN (fun x => blank (x mod N))); auto using blanks_mod.
        intros q. replace i with (1 + (i - 1)) at 1 by lia. rewrite re_down by lia. apply X. }
    destruct (le_lt_dec (1 + length down + length mid) i) as [H2|H2].
    2:{ destruct (mid_stage_at N M mid 1 fm (i - 1 - length down)) as (g & p & f & Hg & Hp & HN & X); auto; [lia| |].
        { rewrite Nat.mul_1_l. apply Nat.mod_same. lia. }
        apply (tidy_mid g p M N Hg Hp Mp f HN HMN (fun x => blank (x mod N))); auto using blanks_mod.
        intros q. replace i with (1 + length down + (i - 1 - length down)) at 1 by lia. rewrite re_mid by lia. apply X. }
    destruct (up_stage_at N (2 * N) N bl up M (i - 1 - length down - length mid)) as (g & p & Hg & HN & X); auto; [lia| |].
    { rewrite <- E. apply Nat.mod_same. lia. }
    apply (tidy_ag N (2 * N) N g p bl); auto using blanks_mod; [lia|].
    intros q. replace i with (1 + length down + length mid + (i - 1 - length down - length mid)) at 1 by lia. rewrite re_up by lia. apply X.
  Qed.
  Lemma re_untouched q : q < N -> untouched (blk (nb - 1) q).
  Proof. intros _ n. rewrite re_last. apply (last_outputs bl (fun l => l mod N) N N (2 * N) n (blanks_mod N)). Qed.
  Lemma re_unsent p q : p < N -> q < N -> sent_lines (blk (nb - 1)) p q = [].
  Proof. intros _ _. apply (last_unsent bl (fun l => l mod N) N N (2 * N) p q _ (blanks_mod N)). apply re_last. Qed.
  Lemma re_good i : 1 <= i < nb - 1 -> good_at N root alg nb i.
  Proof.
    destruct re_parts as (E & E' & Mp & Np & HMN & Zd & Zm & HF). assert (Hc : 2 <= nb) by lia.
    destruct (back_up N root alg nb Hc re_tidy re_untouched N (2 * N) bl up ltac:(lia) (blanks_mod N) M (1 + length down + length mid)) as (U1 & U2); try (rewrite re_len); try lia.
    - rewrite <- E. apply Nat.mod_same. lia.
    - intros q m. apply re_up.
    - rewrite <- E, <- re_len. split.
      + intros q l Hq Er El. rewrite !Nat.mod_small in Er by auto. subst q. rewrite (Nat.div_small root) in El by auto.
        apply Nat.div_small_iff in El; [|lia]. unfold alive. apply (live_last N root alg nb Hc re_tidy re_untouched).
        rewrite re_last. unfold ar_last at 1. cbn [num_lines]. split; auto. split; auto. split; [lia|].
        destruct (last_outputs bl (fun l => l mod N) N N (2 * N) (l + N) (blanks_mod N)) as [_ X]. cbn zeta in X. unfold ar_last. rewrite X.
        apply andb_true_iff. rewrite Nat.leb_le, Nat.ltb_lt. lia.
      + intros q n Hq H. unfold alive in H. apply (live_last N root alg nb Hc re_tidy re_untouched) in H. destruct H as (-> & _ & H & _).
        rewrite re_last in H. split; auto.
    - destruct (back_middle N root alg nb Hc re_tidy re_untouched M mid Mp HMN 1 fm (1 + length down)) as (M1 & M2 & M3); auto; try (rewrite re_len); try lia.
      + rewrite Nat.mul_1_l. apply Nat.mod_same. lia.
      + intros q m. apply re_mid.
      + rewrite Nat.mul_1_l. destruct U1 as (A1 & A2). split; [exact A1|]. split; [intros q n Hq H; now apply A2 in H|].
        intros q n Hq H Hn. apply A2 in H; auto. lia.
      + intros q n Hq H Hn. destruct U1 as (_ & A2). apply A2 in H; auto. lia.
      + assert (D : forall i, 1 <= i < 1 + length down -> good_at N root alg nb i).
        { destruct (list_eq_dec Z.eq_dec down []) as [->|Hne]; [cbn; intros; lia|].
          assert (Ff : fm = false) by (destruct down; congruence). rewrite Ff in *.
          destruct (back_down N root alg nb Hc re_tidy re_untouched down M true 1) as (_ & _ & D3); auto; try (rewrite re_len); try lia.
          - rewrite <- E', <- E. apply Nat.mod_same. lia.
          - intros q m. apply re_down.
          - destruct M1 as (A1 & A2 & A3). split.
            + intros q l Hq El. now apply A1.
            + intros q n Hq H Hn. apply A3; auto. lia.
          - intros q n Hq H Hn. apply M2; auto. lia. }
        intros Hi.
        destruct (le_lt_dec (1 + length down) i) as [H1|H1]; [|apply D; lia].
        destruct (le_lt_dec (1 + length down + length mid) i) as [H2|H2]; [|apply M3; lia]. apply U2. lia.
  Qed.
  Lemma re_whole : whole_messages N root alg nb /\ cut_lines N root alg nb.
  Proof. apply all_good. apply re_good. Qed.
End ReduceParts.
