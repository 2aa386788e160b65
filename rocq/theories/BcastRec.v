(* The recursive schedules under the forward interpreter: which lines hold the
   data of the root. *)
From Verif Require Import Base SchedModel SchedSpec SchedProofs RecursiveModel RecursiveSpec RecursiveArith RecursiveProofs ReduceProofs AllreduceProofs MatchProofs
  RawModel MsgProofs PhaseProofs RawCode RawStage RawProofs RawEnd RawSpec RawWhole RawInst RootModel RootSpec RootCode RootLive RootValue RootWhole RootRec
  BcastModel BcastSpec BcastLive.
Local Ltac Zify.zify_post_hook ::= idtac.

(* ---------- an exchange in which the own line and those of the partners are reduced ---------- *)
Section Exchange.
  Context (N g p w own dest : nat) (slot : nat -> nat) (rl : nat -> list nat) (blk : nat -> block) (B Go A : nat -> nat -> Prop).
  Local Notation G := (g * (p + 1)).
  Local Notation team q := (q :: map (partner G g q) (seq 0 p)).
  Context (Hg : 0 < g) (HN : N mod G = 0) (Hw : 0 < w) (HwN : N mod w = 0) (FL : flows N blk B Go A).
  Context (ROOM : forall q l c, q < N -> l < N -> c = own \/ c = dest \/ (exists i, i < p /\ c = slot i) -> l + c * N < num_lines (blk q)).
  Context (MEM : forall l r, In r (l + dest * N :: rl l) <-> r = l + own * N \/ exists i, i < p /\ r = l + slot i * N).
  Context (RND : forall l, NoDup (rl l)).
  Context (RHIT : forall q l, q < N -> l / w = q / w -> reducefrom (lines (blk q) (l + dest * N)) = rl l).
  Context (RIN : forall q n r, q < N -> In r (reducefrom (lines (blk q) n)) -> exists l, l / w = q / w /\ n = l + dest * N).
  Context (OWN : forall q l, q < N -> l / w = q / w -> recvfrom (lines (blk q) (l + own * N)) = []).
  Context (PAIR : forall u q i, q < N -> i < p -> partner G g q i = u ->
    forall x n, In (x, n) (pairs blk u q) <-> exists l, l / w = q / w /\ x = l + own * N /\ n = l + slot i * N).
  Context (SENT : forall u q x, u < N -> q < N -> u <> q -> In x (sent_lines blk u q) ->
    exists i l, i < p /\ partner G g q i = u /\ l / w = q / w /\ x = l + own * N).
  Context (S1 S2 : nat -> bool).
  Context (BEF : forall q u l, q < N -> In u (team q) -> l / w = q / w -> (B u (l + own * N) <-> S1 u = true)).
  Context (UNI : forall q u u', In u (team q) -> In u' (team q) -> S1 u = true -> S1 u' = true -> u = u').
  Context (SUM : forall q, S2 q = true <-> exists u, In u (team q) /\ S1 u = true).

  Lemma ex_line q l : q < N -> l / w = q / w -> l < N.
  Proof. clear - Hw HwN. intros. apply group_lt with w q; auto. Qed.
  (* the member of the team from which a line comes *)
  Lemma ex_got q l r : q < N -> l / w = q / w -> In r (l + dest * N :: rl l) ->
    exists u, In u (team q) /\ (Go q r <-> S1 u = true) /\ ((u = q /\ r = l + own * N) \/ exists i, i < p /\ u = partner G g q i /\ r = l + slot i * N).
  Proof.
    intros Hq Hl I. assert (HlN := ex_line q l Hq Hl). apply MEM in I. destruct I as [->|(i & Hi & ->)].
    - exists q. split; [now left|]. split; auto. rewrite (fl_kept _ _ _ _ _ FL q); auto.
      apply BEF with q; auto. now left.
    - exists (partner G g q i). destruct (partner_peer g p Hg q i Hi) as (P1 & P2 & P3 & P4).
      assert (Hu : partner G g q i < N) by (now apply partner_lt).
      assert (T : In (partner G g q i) (team q)) by (right; apply in_map, in_seq; lia).
      split; auto. split; eauto.
      rewrite (fl_recv _ _ _ _ _ FL (partner G g q i) q (l + own * N)); auto; [now apply BEF with q|].
      apply (PAIR _ q i Hq Hi eq_refl). eauto.
  Qed.
  Lemma ex_member q l u : q < N -> l / w = q / w -> In u (team q) -> S1 u = true -> exists r, In r (l + dest * N :: rl l) /\ Go q r.
  Proof.
    intros Hq Hl [<-|I] Su.
    - exists (l + own * N). assert (I : In (l + own * N) (l + dest * N :: rl l)) by (apply MEM; auto). split; auto.
      rewrite (fl_kept _ _ _ _ _ FL q); auto; [|apply ROOM; auto; now apply ex_line with q]. apply (BEF q q); auto. now left.
    - apply in_map_iff in I. destruct I as (i & E & Hi). apply in_seq in Hi. rewrite <- E in *. clear u E.
      assert (I : In (l + slot i * N) (l + dest * N :: rl l)) by (apply MEM; right; exists i; split; auto; lia).
      exists (l + slot i * N). split; auto.
      destruct (partner_peer g p Hg q i ltac:(lia)) as (P1 & P2 & P3 & P4).
      assert (Hu : partner G g q i < N) by (apply partner_lt; auto; lia).
      rewrite (fl_recv _ _ _ _ _ FL (partner G g q i) q (l + own * N)); auto.
      + apply (BEF q); auto. right. apply in_map, in_seq. lia.
      + apply (PAIR _ q i Hq ltac:(lia) eq_refl). eauto.
  Qed.
  Lemma ex_after q l : q < N -> l / w = q / w -> (A q (l + dest * N) <-> S2 q = true).
  Proof.
    intros Hq Hl. assert (HlN := ex_line q l Hq Hl).
    rewrite (fl_after _ _ _ _ _ FL q) by (auto; apply ROOM; auto). rewrite RHIT by auto. rewrite SUM. split.
    - intros H. assert (X : exists r, In r (l + dest * N :: rl l) /\ Go q r).
      { destruct H as [H|(r & I & H)]; [exists (l + dest * N); split; auto; now left|exists r; split; auto; now right]. }
      destruct X as (r & I & H'). destruct (ex_got q l r Hq Hl I) as (u & T & E & _). exists u. split; auto. now apply E.
    - intros (u & T & Su). destruct (ex_member q l u Hq Hl T Su) as (r & [<-|I] & Gr); eauto.
  Qed.
  Lemma ex_whole : whole_sends N blk B.
  Proof.
    intros u q x x' Hu Hq D I I' H. apply SENT in I, I'; auto. destruct I as (i & l & Hi & E & El & ->), I' as (i' & l' & Hi' & E' & El' & ->).
    assert (T : In u (team q)) by (rewrite <- E; right; apply in_map, in_seq; lia).
    apply (BEF q u l') ; auto. now apply (BEF q u l).
  Qed.
  Lemma ex_one : one_filled N blk Go.
  Proof.
    intros q n Hq Hn. destruct (reducefrom (lines (blk q) n)) as [|r0 rs] eqn:R.
    - split; [constructor|]. intros r r' [<-|[]] [<-|[]]. auto.
    - destruct (RIN q n r0 Hq) as (l & Hl & ->); [rewrite R; now left|]. rewrite <- R. rewrite RHIT by auto. split; auto.
      intros r r' I I' H H'. destruct (ex_got q l r Hq Hl I) as (u & T & E & C), (ex_got q l r' Hq Hl I') as (u' & T' & E' & C').
      assert (EU : u = u') by (apply (UNI q); auto; [now apply E|now apply E']).
      destruct C as [[C1 C2]|(i & Hi & C1 & C2)], C' as [[C1' C2']|(j & Hj & C1' & C2')].
      + congruence.
      + exfalso. destruct (partner_peer g p Hg q j Hj) as (_ & _ & X & _). congruence.
      + exfalso. destruct (partner_peer g p Hg q i Hi) as (_ & _ & X & _). congruence.
      + assert (i = j) by (apply (partner_inj g p Hg q); auto; congruence). congruence.
  Qed.
  Lemma ex_all : (forall q l, q < N -> l / w = q / w -> (A q (l + dest * N) <-> S2 q = true)) /\ whole_sends N blk B /\ one_filled N blk Go.
  Proof. split; [exact ex_after|]. split; [exact ex_whole|exact ex_one]. Qed.
End Exchange.

Lemma step_nodup l c a k N : 0 < N -> NoDup (map (fun i => l + (c + i) * N) (seq a k)).
Proof. intros H. apply FinFun.Injective_map_NoDup; [|apply seq_NoDup]. intros i j E. nia. Qed.

Section ForthRS.
  Context (N root g p : nat) (first last : bool) (b : nat -> line) (blk : nat -> block) (B Go A : nat -> nat -> Prop).
  Local Notation G := (g * (p + 1)).
  Local Notation NL := ((if last then 2 + p else 3 + p) * N).
  Context (Np : 0 < N) (Hg : 0 < g) (Hp : 0 < p) (HN : N mod G = 0) (Hb : blanks b).
  Context (Hblk : forall q, blk q = Block NL (apply_writes b (rs_writes N G p first last q))) (FL : flows N blk B Go A).

  Definition known_down (g s : nat) (A : nat -> nat -> Prop) : Prop :=
    forall q l, q < N -> l / g = q / g -> (A q (l + s) <-> down_set g q root = true).
  Local Notation own := (if first then 0 else 2).
  Lemma rs_own : rs_soff N first = own * N.
  Proof. apply rs_soff_slot. Qed.
  Lemma rs_members l r : In r (l + rs_dest last * N :: rs_rlist p N first last l) <-> r = l + own * N \/ exists i, i < p /\ r = l + rs_slot p first last i * N.
  Proof.
    clear - Hp. unfold rs_rlist, rs_dest, rs_slot. cbn [In]. split.
    - destruct last, first; cbn [In]; rewrite in_map_iff.
      + intros [<-|[<-|(i & <- & Hi)]]; [|left; lia|].
        * right. exists (p - 1). rewrite Nat.eqb_refl. split; [lia|reflexivity].
        * apply in_seq in Hi. right. exists (i - 1). destruct (Nat.eqb_spec (i - 1) (p - 1)); [lia|]. split; [lia|]. f_equal; f_equal; lia.
      + intros [<-|(i & <- & Hi)].
        * right. exists (p - 1). rewrite Nat.eqb_refl. split; [lia|reflexivity].
        * apply in_seq in Hi. destruct i as [|i]; [left; reflexivity|]. right. exists i. destruct (Nat.eqb_spec i (p - 1)); [lia|]. split; [lia|]. f_equal; f_equal; lia.
      + intros [<-|[<-|(i & <- & Hi)]]; [|left; lia|].
        * right. exists 0. split; [lia|reflexivity].
        * apply in_seq in Hi. right. exists i. split; [lia|reflexivity].
      + intros [<-|(i & <- & Hi)]; [now left|]. apply in_seq in Hi. right. exists i. split; [lia|reflexivity].
    - destruct last, first; cbn [In]; rewrite in_map_iff; intros [->|(i & Hi & ->)].
      + right. left. lia.
      + destruct (Nat.eqb_spec i (p - 1)); [now left|]. right. right. exists (i + 1). split; [f_equal; f_equal; lia|apply in_seq; lia].
      + right. exists 0. split; [reflexivity|apply in_seq; lia].
      + destruct (Nat.eqb_spec i (p - 1)); [now left|]. right. exists (i + 1). split; [f_equal; f_equal; lia|apply in_seq; lia].
      + right. left. lia.
      + destruct i as [|i]; [now left|]. right. right. exists (S i). split; [reflexivity|apply in_seq; lia].
      + now left.
      + right. exists i. split; [reflexivity|apply in_seq; lia].
  Qed.
  Lemma rs_rlist_nodup l : NoDup (rs_rlist p N first last l).
  Proof.
    clear - Np. unfold rs_rlist. assert (X : forall a k, 1 <= a -> NoDup (l :: map (fun i => l + (2 + i) * N) (seq a k))).
    { intros a k Ha. constructor; [|now apply step_nodup]. intros I. apply in_map_iff in I. destruct I as (i & E & _). nia. }
    destruct last, first; try (apply X; lia); now apply step_nodup.
  Qed.
  Lemma forth_rs : known_down G (rs_soff N first) B ->
    known_down g (rs_dest last * N) A /\ whole_sends N blk B /\ one_filled N blk Go.
  Proof.
    intros K. assert (Gp := step_pos g p Hg). assert (Ng : N mod g = 0) by (apply mod_of_factor with (p + 1); auto; lia).
    assert (NLq : forall q, num_lines (blk q) = NL) by (intros; rewrite Hblk; reflexivity).
    assert (ROOM : forall q l c, q < N -> l < N -> c = own \/ c = rs_dest last \/ (exists i, i < p /\ c = rs_slot p first last i) -> l + c * N < num_lines (blk q)).
    { intros q l c Hq Hl Hc'. rewrite NLq. apply Nat.lt_le_trans with ((c + 1) * N); [lia|]. apply Nat.mul_le_mono_r.
      destruct Hc' as [->|[->|(i & Hi & ->)]].
      - destruct last, first; lia.
      - unfold rs_dest. destruct last; lia.
      - unfold rs_slot. destruct last, first; try destruct (Nat.eqb_spec i (p - 1)); lia. }
    assert (RHIT : forall q l, q < N -> l / g = q / g -> reducefrom (lines (blk q) (l + rs_dest last * N)) = rs_rlist p N first last l).
    { intros q l Hq Hl. rewrite Hblk. cbn [lines]. now rewrite (rs_reduce_hit g p N Hg Hp first last HN b q l) by auto. }
    assert (RIN : forall q n r, q < N -> In r (reducefrom (lines (blk q) n)) -> exists l, l / g = q / g /\ n = l + rs_dest last * N).
    { intros q n r Hq I. rewrite Hblk in I. cbn [lines] in I.
      destruct (entries_of_writes b (rs_writes N G p first last q) n) as (_ & _ & I1 & _).
      destruct (I1 r I) as [X|(v & Hv & Iv)]; [destruct (Hb n) as (f & Ef); rewrite Ef in X; destruct X|].
      apply (in_rs_writes g p N Hg Hp first last HN) in Hv.
      destruct Hv as (l & Hl & [(_ & _ & [=])|[(_ & i & _ & _ & [=])|(E & En & _)]]). eauto. }
    assert (OWN : forall q l, q < N -> l / g = q / g -> recvfrom (lines (blk q) (l + own * N)) = []).
    { intros q l Hq Hl. apply (rs_miss' g p N Hg Hp first last HN b Hb blk Hblk q); auto. intros i l' Hi Hl' E. apply (group_range g q Hg) in Hl'.
      apply slot_eq in E.
      - destruct E as [_ E]. clear - E Hi. unfold rs_slot in E. destruct last, first; try destruct (i =? p - 1); lia.
      - apply group_lt with g q; auto.
      - apply group_lt with g q; auto. }
    assert (PAIR : forall u q i, q < N -> i < p -> partner G g q i = u ->
      forall x n, In (x, n) (pairs blk u q) <-> exists l, l / g = q / g /\ x = l + own * N /\ n = l + rs_slot p first last i * N).
    { intros u q i Hq Hi E x n. rewrite (rs_pairs N g p first last b blk Hg Hp HN Hb Hblk u q i Hq Hi E x n). now rewrite rs_own. }
    assert (SENT : forall u q x, u < N -> q < N -> u <> q -> In x (sent_lines blk u q) ->
      exists i l, i < p /\ partner G g q i = u /\ l / g = q / g /\ x = l + own * N).
    { intros u q x Hu Hq D I. destruct (div_mod_dec g G u q) as [(P1 & P2)|P].
      - destruct (partner_surj g p Hg q u) as (i & Hi & Ei); auto.
        rewrite (rs_sent g p N Hg Hp first last HN b Hb blk Hblk) in I by auto. apply in_seq in I. rewrite rs_own in I.
        exists i, (x - own * N). split; auto. split; auto. split; [|clear - I; destruct first; glia]. apply group_range; auto. clear - I; destruct first; glia.
      - rewrite (rs_sent_none g p N Hg Hp first last HN b Hb blk Hblk) in I by auto. destruct I. }
    assert (BEF : forall q u l, q < N -> In u (q :: map (partner G g q) (seq 0 p)) -> l / g = q / g -> (B u (l + own * N) <-> down_set G u root = true)).
    { intros q u l Hq T Hl. apply (in_partners g p q u Hg) in T. destruct T as [T1 T2]. rewrite <- rs_own. apply K.
      - now apply group_lt with G q.
      - rewrite T1. now apply (small_in_big g p Hg). }
    assert (UNI : forall q u u', In u (q :: map (partner G g q) (seq 0 p)) -> In u' (q :: map (partner G g q) (seq 0 p)) ->
      down_set G u root = true -> down_set G u' root = true -> u = u').
    { intros q u u' T T'. exact (proj1 (down_union g p q Hg) u u' root T T'). }
    assert (SUM : forall q, down_set g q root = true <-> exists u, In u (q :: map (partner G g q) (seq 0 p)) /\ down_set G u root = true).
    { intros q. exact (proj2 (down_union g p q Hg) root). }
    apply (ex_all N g p g own (rs_dest last) (rs_slot p first last) (rs_rlist p N first last) blk B Go A Hg HN Hg Ng FL ROOM rs_members rs_rlist_nodup RHIT RIN OWN PAIR SENT
             (fun u => down_set G u root) (fun u => down_set g u root) BEF UNI SUM).
  Qed.
End ForthRS.

Section ForthMid.
  Context (N root g p M : nat) (first : bool) (b : nat -> line) (blk : nat -> block) (B Go A : nat -> nat -> Prop).
  Local Notation G := (g * (p + 1)).
  Local Notation NL := ((if first then p + 1 else p + 2) * N).
  Context (Np : 0 < N) (Hg : 0 < g) (Hp : 0 < p) (HM : 0 < M) (HGM : M mod G = 0) (HMN : N mod M = 0) (Hb : blanks b).
  Context (Hblk : forall q, blk q = Block NL (apply_writes b (mid_writes N M g p first q))) (FL : flows N blk B Go A).

  Definition known_mid (g s : nat) (A : nat -> nat -> Prop) : Prop :=
    forall q l, q < N -> l / M = q / M -> (A q (l + s) <-> mid_set M g q root = true).
  Local Notation own := (if first then 0 else 1).
  Lemma mid_own : mid_soff N first = own * N.
  Proof. apply mid_soff_slot. Qed.
  Lemma mid_members l r : In r (l + 1 * N :: mid_rlist p N first l) <-> r = l + own * N \/ exists i, i < p /\ r = l + mid_slot first i * N.
  Proof.
    clear - Hp. unfold mid_rlist, mid_slot. cbn [In]. destruct first; rewrite in_map_iff; split.
    - intros [<-|(i & <- & Hi)].
      + right. exists 0. split; [lia|reflexivity].
      + apply in_seq in Hi. destruct (Nat.eqb_spec i 0); [left; lia|]. right. exists i. split; [lia|reflexivity].
    - intros [->|(i & Hi & ->)].
      + right. exists 0. split; [cbn; lia|apply in_seq; lia].
      + destruct i as [|i]; [left; reflexivity|]. right. exists (S i). split; [reflexivity|apply in_seq; lia].
    - intros [<-|(i & <- & Hi)]; [now left|]. apply in_seq in Hi. right. exists i. split; [lia|reflexivity].
    - intros [->|(i & Hi & ->)]; [now left|]. right. exists i. split; [reflexivity|apply in_seq; lia].
  Qed.
  Lemma mid_rlist_nodup l : NoDup (mid_rlist p N first l).
  Proof.
    clear - Np. unfold mid_rlist. destruct first; (apply FinFun.Injective_map_NoDup; [|apply seq_NoDup]); intros i j E.
    - destruct (Nat.eqb_spec i 0), (Nat.eqb_spec j 0); nia.
    - nia.
  Qed.
  Lemma forth_mid : known_mid g (mid_soff N first) B ->
    known_mid G N A /\ whole_sends N blk B /\ one_filled N blk Go.
  Proof.
    intros K. assert (Gp := step_pos g p Hg). assert (HN := mid_HN g p M N Hg Hp HM first HGM HMN b).
    assert (NLq : forall q, num_lines (blk q) = NL) by (intros; rewrite Hblk; reflexivity).
    assert (BM : forall t q, q / G = t / G -> q / M = t / M) by (intros t q Et; eapply (big_in_middle g p M N); eauto).
    assert (ROOM : forall q l c, q < N -> l < N -> c = own \/ c = 1 \/ (exists i, i < p /\ c = mid_slot first i) -> l + c * N < num_lines (blk q)).
    { intros q l c Hq Hl Hc'. rewrite NLq. apply Nat.lt_le_trans with ((c + 1) * N); [lia|]. apply Nat.mul_le_mono_r.
      destruct Hc' as [->|[->|(i & Hi & ->)]]; unfold mid_slot; destruct first; lia. }
    assert (RHIT : forall q l, q < N -> l / M = q / M -> reducefrom (lines (blk q) (l + 1 * N)) = mid_rlist p N first l).
    { intros q l Hq Hl. rewrite Hblk. cbn [lines]. now rewrite (mid_reduce_hit g p M N Hg Hp HM first HGM HMN b q l) by auto. }
    assert (RIN : forall q n r, q < N -> In r (reducefrom (lines (blk q) n)) -> exists l, l / M = q / M /\ n = l + 1 * N).
    { intros q n r Hq I. rewrite Hblk in I. cbn [lines] in I.
      destruct (entries_of_writes b (mid_writes N M g p first q) n) as (_ & _ & I1 & _).
      destruct (I1 r I) as [X|(v & Hv & Iv)]; [destruct (Hb n) as (f & Ef); rewrite Ef in X; destruct X|].
      apply (in_mid_writes g p M N Hg Hp HM first HGM HMN) in Hv.
      destruct Hv as (l & Hl & [(_ & [=])|[(i & _ & _ & [=])|(En & _)]]). eauto. }
    assert (OWN : forall q l, q < N -> l / M = q / M -> recvfrom (lines (blk q) (l + own * N)) = []).
    { intros q l Hq Hl. apply (mid_miss' g p M N Hg Hp HM first HGM HMN b Hb blk Hblk q); auto. intros i l' Hi Hl' E. apply (group_range M q HM) in Hl'.
      apply slot_eq in E.
      - destruct E as [_ E]. clear - E. unfold mid_slot in E. destruct first; lia.
      - apply group_lt with M q; auto.
      - apply group_lt with M q; auto. }
    assert (PAIR : forall u q i, q < N -> i < p -> partner G g q i = u ->
      forall x n, In (x, n) (pairs blk u q) <-> exists l, l / M = q / M /\ x = l + own * N /\ n = l + mid_slot first i * N).
    { intros u q i Hq Hi E x n. rewrite (mid_pairs N g p M first b blk Hg Hp HM HGM HMN Hb Hblk u q i Hq Hi E x n). now rewrite mid_own. }
    assert (SENT : forall u q x, u < N -> q < N -> u <> q -> In x (sent_lines blk u q) ->
      exists i l, i < p /\ partner G g q i = u /\ l / M = q / M /\ x = l + own * N).
    { intros u q x Hu Hq D I. destruct (div_mod_dec g G u q) as [(P1 & P2)|P].
      - destruct (partner_surj g p Hg q u) as (i & Hi & Ei); auto.
        rewrite (mid_sent g p M N Hg Hp HM first HGM HMN b Hb blk Hblk) in I by auto. apply in_seq in I. rewrite mid_own in I.
        exists i, (x - own * N). split; auto. split; auto. split; [|clear - I; destruct first; glia]. apply group_range; auto. clear - I; destruct first; glia.
      - rewrite (mid_sent_none g p M N Hg Hp HM first HGM HMN b Hb blk Hblk) in I by auto. destruct I. }
    assert (BEF : forall q u l, q < N -> In u (q :: map (partner G g q) (seq 0 p)) -> l / M = q / M -> (B u (l + own * N) <-> mid_set M g u root = true)).
    { intros q u l Hq T Hl. apply (in_partners g p q u Hg) in T. destruct T as [T1 T2]. rewrite <- mid_own. apply K.
      - now apply group_lt with G q.
      - rewrite Hl. symmetry. now apply BM. }
    assert (UNI : forall q u u', In u (q :: map (partner G g q) (seq 0 p)) -> In u' (q :: map (partner G g q) (seq 0 p)) ->
      mid_set M g u root = true -> mid_set M g u' root = true -> u = u').
    { intros q u u' T T'. exact (proj1 (mid_union g p M q Hg HM HGM) u u' root T T'). }
    assert (SUM : forall q, mid_set M G q root = true <-> exists u, In u (q :: map (partner G g q) (seq 0 p)) /\ mid_set M g u root = true).
    { intros q. exact (proj2 (mid_union g p M q Hg HM HGM) root). }
    destruct (ex_all N g p M own 1 (mid_slot first) (mid_rlist p N first) blk B Go A Hg HN HM HMN FL ROOM mid_members mid_rlist_nodup RHIT RIN OWN PAIR SENT
             (fun u => mid_set M g u root) (fun u => mid_set M G u root) BEF UNI SUM) as (X1 & X2).
    split; [|exact X2]. rewrite Nat.mul_1_l in X1. exact X1.
  Qed.
End ForthMid.

Section ForthAG.
  Context (N off g p NL : nat) (b : nat -> line) (blk : nat -> block) (B Go A : nat -> nat -> Prop).
  Local Notation G := (g * (p + 1)).
  Context (Hg : 0 < g) (HN : N mod G = 0) (HNL : off + N <= NL) (Hb : blanks b).
  Context (Hblk : forall q, blk q = Block NL (apply_writes b (ag_writes off g p q))) (FL : flows N blk B Go A).
  Definition known_up (g : nat) (A : nat -> nat -> Prop) : Prop := forall q l, q < N -> l / g = q / g -> A q (l + off).
  Lemma forth_ag : known_up g B -> known_up G A /\ whole_sends N blk B /\ one_filled N blk Go.
  Proof.
    intros K. assert (Gp := step_pos g p Hg). assert (Ng : N mod g = 0) by (apply mod_of_factor with (p + 1); auto; lia).
    assert (NR : forall q n, reducefrom (lines (blk q) n) = []).
    { intros q n. rewrite Hblk. cbn [lines]. apply (ag_no_reduce off g p Hg b Hb q n). }
    split; [|split].
    - intros q l Hq Hl. assert (HlN : l < N) by (apply group_lt with G q; auto).
      apply (fl_after _ _ _ _ _ FL); auto; [rewrite Hblk; cbn [num_lines]; lia|]. left.
      destruct (Nat.eq_dec (l / g) (q / g)) as [E|E].
      + apply (fl_kept _ _ _ _ _ FL); auto; [rewrite Hblk; cbn [num_lines]; lia|].
        rewrite Hblk. cbn [lines]. destruct (recv_of_writes b (ag_writes off g p q) (l + off) Hb) as [X|(v & I & _)]; auto. exfalso.
        apply (in_ag_writes off g p Hg) in I. destruct I as (l' & _ & El & X). replace l' with l in X by lia.
        apply Nat.eqb_eq in E. rewrite E in X. discriminate.
      + assert (Mq := Nat.mod_upper_bound q g ltac:(lia)).
        set (u := l / g * g + q mod g). assert (Eu : u / g = l / g) by (now apply node_div). assert (Mu : u mod g = q mod g) by (now apply node_mod).
        assert (EuG : u / G = q / G) by (rewrite <- Hl; now apply (small_in_big g p Hg)).
        assert (Hu : u < N) by (apply group_lt with G q; auto).
        assert (D : u <> q) by congruence.
        apply (fl_recv _ _ _ _ _ FL u q (l + off)); auto.
        destruct (ag_pairs N off g p NL b blk Hg HN HNL Hb Hblk u q Hu Hq D) as [[_ X]|[X _]]; [|exfalso; apply X; split; congruence].
        apply X. split; auto. exists l. auto.
    - intros u q x x' Hu Hq D I I' _. destruct (ag_sent off g p Hg b Hb N NL HN HNL blk Hblk u q Hu D) as (S1 & S2).
      destruct (peers_dec g p u q) as [P|P]; [|rewrite S2 in I by auto; destruct I].
      rewrite S1 in I' by auto. apply in_seq in I'. replace x' with ((x' - off) + off) by (clear - I'; glia).
      apply K; auto. apply group_range; auto. clear - I'; glia.
    - intros q n Hq Hn. rewrite NR. split; [constructor|]. intros r r' [<-|[]] [<-|[]]. auto.
  Qed.
End ForthAG.

(* ---------- all stages ---------- *)
Section ForthChains.
  Context (N root : nat) (alg : nat -> list block) (count : nat) (Hc : 2 <= count) (Np : 0 < N).
  Local Notation blk m := (block_at alg m).
  Local Notation FL := (filled N root alg count).
  Local Notation GO := (got N root alg count).
  Context (FLOW : forall i, 1 <= i < count - 1 -> flows N (blk i) (FL (i - 1)) (GO i) (FL i)).
  Definition fine_at (i : nat) : Prop := whole_sends N (blk i) (FL (i - 1)) /\ one_filled N (blk i) (GO i).

  Lemma forth_up off NL b ports : off + N <= NL -> blanks b -> forall g start, 0 < g -> N mod (g * product ports) = 0 ->
    1 <= start -> start + length ports <= count - 1 ->
    (forall q m, m < length ports -> blk (start + m) q = nth m (up_stages off NL b g ports q) empty_block) ->
    known_up N off g (FL (start - 1)) ->
    known_up N off (g * product ports) (FL (start + length ports - 1)) /\ forall i, start <= i < start + length ports -> fine_at i.
  Proof.
    intros HNL Hb. induction ports as [|p r IH]; intros g start Hg HN H1 H2 Hs HA.
    - cbn [length] in *. rewrite Nat.add_0_r. cbn. rewrite Nat.mul_1_r. split; [exact HA|intros; lia].
    - cbn [length] in *. rewrite product_cons, Nat.mul_assoc in HN |- *.
      assert (HN' : N mod (g * (width p + 1)) = 0) by (eapply mod_of_factor; [apply step_pos; assumption|apply (product_pos r)|exact HN]).
      assert (E : forall q, blk start q = Block NL (apply_writes b (ag_writes off g (width p) q))).
      { intros q. rewrite <- (Nat.add_0_r start) at 1. now rewrite Hs by lia. }
      destruct (forth_ag N off g (width p) NL b (blk start) _ _ _ Hg HN' HNL Hb E (FLOW start ltac:(lia)) HA) as (B1 & B2).
      destruct (IH (g * (width p + 1)) (S start)) as (I1 & I2); auto using step_pos; try lia.
      + intros q m Hm. replace (S start + m) with (start + S m) by lia. now rewrite Hs by lia.
      + now replace (S start - 1) with start by lia.
      + split; [now replace (start + S (length r) - 1) with (S start + length r - 1) by lia|].
        intros i Hi. destruct (Nat.eq_dec i start) as [->|D]; [exact B2|apply I2; lia].
  Qed.
  Lemma forth_middle M ports : 0 < M -> N mod M = 0 -> forall g first start, 0 < g -> nonzero ports -> M mod (g * product ports) = 0 ->
    (first = true -> ports <> []) -> 1 <= start -> start + length ports <= count - 1 ->
    (forall q m, m < length ports -> blk (start + m) q = nth m (mid_stages N M g first ports q) empty_block) ->
    known_mid N root M g (mid_soff N first) (FL (start - 1)) ->
    known_mid N root M (g * product ports) N (FL (start + length ports - 1)) /\ forall i, start <= i < start + length ports -> fine_at i.
  Proof.
    intros HM HMN. induction ports as [|p r IH]; intros g first start Hg NZ HGM Hf H1 H2 Hs HA.
    - cbn [length] in *. rewrite Nat.add_0_r. cbn. rewrite Nat.mul_1_r. destruct first; [exfalso; now apply Hf|]. split; [exact HA|intros; lia].
    - inversion NZ as [|? ? Hp Hr]; subst. cbn [length] in *. rewrite product_cons, Nat.mul_assoc in HGM |- *.
      assert (Wp : 0 < width p) by (unfold width; lia).
      assert (HG' : M mod (g * (width p + 1)) = 0) by (eapply mod_of_factor; [apply step_pos; assumption|apply (product_pos r)|exact HGM]).
      assert (E : forall q, blk start q = Block ((if first then width p + 1 else width p + 2) * N)
                    (apply_writes (fun x => blank (x mod N)) (mid_writes N M g (width p) first q))).
      { intros q. rewrite <- (Nat.add_0_r start) at 1. now rewrite Hs by lia. }
      destruct (forth_mid N root g (width p) M first _ (blk start) _ _ _ Np Hg Wp HM HG' HMN (blanks_mod N) E (FLOW start ltac:(lia)) HA) as (B1 & B2).
      destruct (IH (g * (width p + 1)) false (S start)) as (I1 & I2); auto using step_pos; try lia; try discriminate.
      + intros q m Hm. replace (S start + m) with (start + S m) by lia. now rewrite Hs by lia.
      + now replace (S start - 1) with start by lia.
      + split; [now replace (start + S (length r) - 1) with (S start + length r - 1) by lia|].
        intros i Hi. destruct (Nat.eq_dec i start) as [->|D]; [exact B2|apply I2; lia].
  Qed.
  Lemma forth_down ports : forall g first start, ports <> [] -> 0 < g -> nonzero ports -> N mod (g * product ports) = 0 ->
    1 <= start -> start + length ports <= count - 1 ->
    (forall q m, m < length ports -> blk (start + m) q = nth m (rs_stages N (g * product ports) first ports q) empty_block) ->
    known_down N root (g * product ports) (rs_soff N first) (FL (start - 1)) ->
    known_down N root g N (FL (start + length ports - 1)) /\ forall i, start <= i < start + length ports -> fine_at i.
  Proof.
    induction ports as [|p r IH]; intros g first start Hne Hg NZ HN H1 H2 Hs HA; [congruence|].
    inversion NZ as [|? ? Hp Hr]; subst. cbn [length] in *.
    assert (Wp : 0 < width p) by (unfold width; lia). set (g' := g * product r).
    assert (Hg' : 0 < g') by (unfold g'; assert (X := product_pos r); clear - Hg X; nia).
    assert (EG : g * product (p :: r) = g' * (width p + 1)) by (rewrite product_cons; unfold g'; clear; nia).
    rewrite EG in *.
    set (lst := match r with [] => true | _ => false end).
    assert (E : forall q, blk start q = Block ((if lst then 2 + width p else 3 + width p) * N)
                  (apply_writes (fun x => blank (x mod N)) (rs_writes N (g' * (width p + 1)) (width p) first lst q))).
    { intros q. rewrite <- (Nat.add_0_r start) at 1. now rewrite Hs by lia. }
    destruct (forth_rs N root g' (width p) first lst _ (blk start) _ _ _ Np Hg' Wp HN (blanks_mod N) E (FLOW start ltac:(lia)) HA) as (B1 & B2).
    destruct r as [|p' r'].
    - cbn [length] in *. rewrite Nat.add_1_r. replace (S start - 1) with start by lia. unfold g', lst in B1. cbn [product fold_right rs_dest] in B1.
      rewrite Nat.mul_1_r, Nat.mul_1_l in B1. split; auto. intros i Hi. replace i with start by lia. exact B2.
    - destruct (IH g false (S start)) as (I1 & I2); auto; try lia; try discriminate.
      + apply mod_of_factor with (width p + 1); auto. lia.
      + intros q m Hm. replace (S start + m) with (start + S m) by lia. rewrite Hs by lia. cbn [rs_stages nth].
        rewrite Nat.div_mul by lia. reflexivity.
      + now replace (S start - 1) with start by lia.
      + split; [now replace (start + S (length (p' :: r')) - 1) with (S start + length (p' :: r') - 1) by lia|].
        intros i Hi. destruct (Nat.eq_dec i start) as [->|D]; [exact B2|apply I2; lia].
  Qed.
End ForthChains.

(* ---------- allreduce ---------- *)
Lemma rs_first_idle lb n : sendto (lines (rs_first lb) n) = [] /\ reducefrom (lines (rs_first lb) n) = [] /\ copyreducefrom (lines (rs_first lb) n) = [].
Proof.
  unfold rs_first. cbn [lines].
  rewrite sendto_none, reducefrom_none, copyreducefrom_none; [repeat split; reflexivity| | |]; intros v Hv; apply in_map_iff in Hv;
    destruct Hv as (l & [=] & _).
Qed.
Lemma rs_first_user lb n : existsb is_user (recvfrom (lines (rs_first lb) n)) = (n <? lb).
Proof.
  destruct (Nat.ltb_spec n lb) as [H|H].
  - pose proof (proj2 (rs_first_input lb n n H) eq_refl) as X. unfold input_line in X. now destruct (existsb is_user (recvfrom (lines (rs_first lb) n))).
  - unfold rs_first. cbn [lines]. rewrite recvfrom_none; [reflexivity|]. intros v Hv. apply in_map_iff in Hv. destruct Hv as (l & [= E _] & Hl).
    apply in_seq in Hl. lia.
Qed.
Section BcastParts.
  Context (down mid up : list Z) (B : balanced down mid up) (root : nat).
  Local Notation ports := (down ++ mid ++ up).
  Local Notation N := (node_count (mid ++ up)).
  Local Notation M := (product mid).
  Local Notation alg := (generate_recursive false ports).
  Local Notation nb := (length ports + 2).
  Local Notation blk m := (block_at alg m).
  Local Notation fm := (match down with [] => true | _ => false end).
  Local Notation bl := (fun y => blank (y mod N)).
  Local Notation FL := (filled N root alg nb).
  Context (Hr : root < N).
  Lemma bc_block0 q : blk 0 q = rs_first N.
  Proof. unfold block_at. apply (ar_first down mid up B). Qed.
  Lemma bc_first q n : q < N -> sendto (lines (blk 0 q) n) = [] /\ reducefrom (lines (blk 0 q) n) = [] /\ copyreducefrom (lines (blk 0 q) n) = [].
  Proof. intros _. rewrite bc_block0. apply rs_first_idle. Qed.
  Lemma bc_filled0 q n : FL 0 q n <-> q = root /\ n < N.
  Proof.
    rewrite (filled_first N root alg nb bc_first). rewrite bc_block0, rs_first_user. rewrite Nat.ltb_lt.
    cbn [rs_first num_lines]. split; [tauto|]. intros [-> Hn]. repeat split; auto; lia.
  Qed.
  Lemma bc_all : (forall i, 1 <= i < nb - 1 -> fine_at N root alg nb i) /\ forall q l, q < N -> l < N -> FL (nb - 2) q (l + N).
  Proof.
    destruct (re_parts down mid up B root Hr) as (E & E' & Mp & Np & HMN & Zd & Zm & HF). assert (Hc : 2 <= nb) by lia.
    pose proof (re_len down mid up root Hr) as LN.
    assert (FLOW : forall i, 1 <= i < nb - 1 -> flows N (blk i) (FL (i - 1)) (got N root alg nb i) (FL i)).
    { intros i Hi. apply (flows_at N root alg nb Hc (re_tidy down mid up B root Hr) bc_first (re_untouched down mid up B root Hr) i Hi). }
    (* behind the reduce-scatter part *)
    assert (D : known_mid N root M 1 (mid_soff N fm) (FL (length down)) /\ forall i, 1 <= i < 1 + length down -> fine_at N root alg nb i).
    { destruct (list_eq_dec Z.eq_dec down []) as [Ed|Hne].
      - split; [|rewrite Ed; cbn; intros; lia].
        replace (length down) with 0 by (now rewrite Ed). replace fm with true by (now rewrite Ed). cbn [mid_soff].
        assert (EM : M = N). { rewrite E, E', Ed. cbn. lia. }
        intros q l Hq Hl. rewrite Nat.add_0_r. rewrite EM in *. rewrite bc_filled0. unfold mid_set. rewrite !Nat.div_1_r, !Nat.mod_small by auto.
        rewrite Nat.eqb_eq. rewrite (Nat.div_small q N Hq) in Hl. apply Nat.div_small_iff in Hl; [|lia]. split; [intros []; auto|auto].
      - assert (Ff : fm = false) by (destruct down; congruence).
        destruct (forth_down N root alg nb Hc Np FLOW down M true 1) as (D1 & D2); auto; try (rewrite LN); try lia.
        + rewrite <- E', <- E. apply Nat.mod_same. lia.
        + intros q m. apply (re_down down mid up B root Hr).
        + rewrite <- E', <- E. intros q l Hq Hl. rewrite (Nat.div_small q N Hq) in Hl. apply Nat.div_small_iff in Hl; [|lia].
          cbn [rs_soff Nat.sub]. rewrite Nat.add_0_r, bc_filled0. unfold down_set. rewrite !Nat.mod_small by auto. rewrite Nat.eqb_eq.
          split; [intros []; auto|auto].
        + split; auto. rewrite Ff. cbn [mid_soff]. replace (1 + length down - 1) with (length down) in D1 by lia.
          intros q l Hq Hl. rewrite (D1 q l Hq Hl). unfold down_set, mid_set. now rewrite !Nat.div_1_r. }
    destruct D as (D1 & D2).
    destruct (forth_middle N root alg nb Hc Np FLOW M mid Mp HMN 1 fm (1 + length down)) as (M1 & M2); auto; try (rewrite LN); try lia.
    - rewrite Nat.mul_1_l. apply Nat.mod_same. lia.
    - intros q m. apply (re_mid down mid up B root Hr).
    - now replace (1 + length down - 1) with (length down) by lia.
    - rewrite Nat.mul_1_l in M1.
      destruct (forth_up N root alg nb Hc Np FLOW N (2 * N) bl up ltac:(lia) (blanks_mod N) M (1 + length down + length mid)) as (U1 & U2); auto; try (rewrite LN); try lia.
      + rewrite <- E. apply Nat.mod_same. lia.
      + intros q m. apply (re_up down mid up B root Hr).
      + intros q l Hq Hl. apply (M1 q l Hq Hl). unfold mid_set. assert (X := Nat.mod_upper_bound root M ltac:(lia)). assert (Y := Nat.mod_upper_bound q M ltac:(lia)).
        now rewrite !Nat.div_small by auto.
      + split.
        * intros i Hi. destruct (le_lt_dec (1 + length down) i) as [H1|H1]; [|apply D2; lia].
          destruct (le_lt_dec (1 + length down + length mid) i) as [H2|H2]; [apply U2; lia|apply M2; lia].
        * intros q l Hq Hl. rewrite <- E in U1. replace (nb - 2) with (1 + length down + length mid + length up - 1) by lia.
          apply U1; auto. now rewrite !Nat.div_small by auto.
  Qed.
End BcastParts.
