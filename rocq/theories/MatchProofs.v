(* Sends and receives of the recursive schedules fit together. *)
From Verif Require Import Base SchedModel SchedSpec SchedProofs RecursiveModel RecursiveArith RecursiveSpec RecursiveProofs ReduceProofs AllreduceProofs.
Local Ltac Zify.zify_post_hook ::= idtac.

(* ----- entries come from assignments ----- *)
Lemma apply_writes_cons b w ws n : apply_writes b (w :: ws) n = apply_writes (apply_write b w) ws n.
Proof. reflexivity. Qed.

Lemma entries_of_writes b ws n :
  (forall e, In e (sendto (apply_writes b ws n)) -> In e (sendto (b n)) \/ exists v, In (n, Send v) ws /\ In e v) /\
  (forall e, In e (recvfrom (apply_writes b ws n)) -> In e (recvfrom (b n)) \/ exists v, In (n, Recv v) ws /\ In e v) /\
  (forall e, In e (reducefrom (apply_writes b ws n)) -> In e (reducefrom (b n)) \/ exists v, In (n, Reduce v) ws /\ In e v) /\
  (forall e, In e (copyreducefrom (apply_writes b ws n)) -> In e (copyreducefrom (b n)) \/ exists v, In (n, CopyReduce v) ws /\ In e v).
Proof.
  induction ws as [|w ws (I1 & I2 & I3 & I4)] using rev_ind; [repeat split; intros e H; left; exact H|].
  rewrite apply_writes_snoc. unfold apply_write. destruct w as [m f]. cbn [fst snd].
  assert (W : forall (P Q : Prop), P \/ Q -> P \/ Q) by auto.
  destruct (Nat.eqb_spec n m) as [<-|D].
  - destruct f as [v|v|v|v]; cbn [set_field sendto recvfrom reducefrom copyreducefrom]; repeat split; intros e H;
      try (right; exists v; split; [apply in_or_app; right; now left|exact H]);
      first [destruct (I1 e H) as [?|(v' & ? & ?)]|destruct (I2 e H) as [?|(v' & ? & ?)]|
             destruct (I3 e H) as [?|(v' & ? & ?)]|destruct (I4 e H) as [?|(v' & ? & ?)]];
      try (left; assumption); right; exists v'; (split; [apply in_or_app; now left|assumption]).
  - repeat split; intros e H;
      first [destruct (I1 e H) as [?|(v' & ? & ?)]|destruct (I2 e H) as [?|(v' & ? & ?)]|
             destruct (I3 e H) as [?|(v' & ? & ?)]|destruct (I4 e H) as [?|(v' & ? & ?)]];
      try (left; assumption); right; exists v'; (split; [apply in_or_app; now left|assumption]).
Qed.

Definition good_target (N p : nat) (e : Z * nat) : Prop :=
  ((fst e = -1 \/ 0 <= fst e < Z.of_nat N)%Z /\ fst e <> Z.of_nat p).
Definition good_field (N p NL : nat) (fr : nat -> nat) (n : nat) (f : field) : Prop :=
  match f with
  | Send v | Recv v => Forall (good_target N p) v
  | Reduce v | CopyReduce v => Forall (fun r => r < NL /\ fr r = fr n) v
  end.

Lemma good_block N p NL b ws : blanks b ->
  (forall n f, In (n, f) ws -> good_field N p NL (fun n => frac (b n)) n f) ->
  forall n, let L := apply_writes b ws in
  Forall (good_target N p) (sendto (L n) ++ recvfrom (L n)) /\
  Forall (fun r => r < NL /\ frac (L r) = frac (L n)) (reducefrom (L n) ++ copyreducefrom (L n)).
Proof.
  intros Hb H n L. destruct (entries_of_writes b ws n) as (I1 & I2 & I3 & I4).
  destruct (Hb n) as (f0 & E0). rewrite E0 in I1, I2, I3, I4. cbn in I1, I2, I3, I4.
  split; apply Forall_app; split; apply Forall_forall; intros e He.
  - destruct (I1 e He) as [[]|(v & Hv & Hev)]. specialize (H n _ Hv). cbn in H. rewrite Forall_forall in H. auto.
  - destruct (I2 e He) as [[]|(v & Hv & Hev)]. specialize (H n _ Hv). cbn in H. rewrite Forall_forall in H. auto.
  - destruct (I3 e He) as [[]|(v & Hv & Hev)]. specialize (H n _ Hv). cbn in H. rewrite Forall_forall in H.
    unfold L. rewrite !frac_writes. auto.
  - destruct (I4 e He) as [[]|(v & Hv & Hev)]. specialize (H n _ Hv). cbn in H. rewrite Forall_forall in H.
    unfold L. rewrite !frac_writes. auto.
Qed.

(* ----- from line ranges to well_matched ----- *)
Lemma mod_seq N a c k : a + k <= N -> map (fun n => n mod N) (seq (a + c * N) k) = seq a k.
Proof.
  revert a. induction k as [|k IH]; intros a H; [reflexivity|]. cbn [seq map]. f_equal.
  - rewrite Nat.mod_add by lia. apply Nat.mod_small. lia.
  - replace (S (a + c * N)) with (S a + c * N) by lia. apply IH. lia.
Qed.

Lemma matched_slots N NL b ws blk : blanks b -> (forall n, frac (b n) = n mod N) ->
  (forall q, blk q = Block NL (apply_writes b (ws q))) ->
  (forall p q, p < N -> q < N -> p <> q -> exists a k c1 c2, a + k <= N /\
     sent_lines blk p q = seq (a + c1 * N) k /\ recv_lines blk q p = seq (a + c2 * N) k) ->
  (forall p n f, p < N -> In (n, f) (ws p) -> good_field N p NL (fun n => n mod N) n f) ->
  well_matched N blk.
Proof.
  intros Hb Hf Hblk Hm Hg. split.
  - intros p q Hp Hq D. destruct (Hm p q Hp Hq D) as (a & k & c1 & c2 & Hk & -> & ->). split.
    + assert (E : forall t l, map (fun n => frac (lines (blk t) n)) l = map (fun n => n mod N) l).
      { intros t l. apply map_ext. intros n. rewrite Hblk; cbn [lines]. rewrite frac_writes. apply Hf. }
      rewrite !E, !mod_seq by assumption. reflexivity.
    + exists (a + c2 * N). rewrite seq_length. reflexivity.
  - intros p n Hp Hn. rewrite Hblk. cbn [lines num_lines].
    apply good_block; [assumption|]. intros m f Hmf. specialize (Hg p m f Hp Hmf).
    destruct f; cbn in *; try exact Hg; eapply Forall_impl; [|exact Hg| |exact Hg]; cbn; intros r; rewrite !Hf; auto.
Qed.

Lemma matched_same N NL b ws blk : blanks b ->
  (forall q, blk q = Block NL (apply_writes b (ws q))) ->
  (forall p q, p < N -> q < N -> p <> q -> exists a k,
     sent_lines blk p q = seq a k /\ recv_lines blk q p = seq a k) ->
  (forall p n f, p < N -> In (n, f) (ws p) -> good_field N p NL (fun n => frac (b n)) n f) ->
  well_matched N blk.
Proof.
  intros Hb Hblk Hm Hg. split.
  - intros p q Hp Hq D. destruct (Hm p q Hp Hq D) as (a & k & -> & ->). split.
    + apply map_ext. intros n. rewrite !Hblk; cbn [lines]. rewrite !frac_writes. reflexivity.
    + exists a. rewrite seq_length. reflexivity.
  - intros p n Hp Hn. rewrite Hblk. cbn [lines num_lines].
    apply good_block; [assumption|]. intros m f Hmf. exact (Hg p m f Hp Hmf).
Qed.

Lemma matched_ext N b1 b2 : (forall q, b1 q = b2 q) -> well_matched N b1 -> well_matched N b2.
Proof.
  intros E (A & B). split.
  - intros p q Hp Hq D. specialize (A p q Hp Hq D). unfold sent_lines, recv_lines in *. rewrite <- !E. exact A.
  - intros p n Hp Hn. rewrite <- E in *. apply B; assumption.
Qed.

(* only entries for the user's buffer *)
Lemma matched_user N NL b ws blk : blanks b ->
  (forall q, blk q = Block NL (apply_writes b (ws q))) ->
  (forall p n f, In (n, f) (ws p) -> match f with Send v | Recv v => Forall (fun e => fst e = (-1)%Z) v | _ => False end) ->
  well_matched N blk.
Proof.
  intros Hb Hblk H.
  assert (U : forall q, is_node q = fun e : Z * nat => is_node q e) by reflexivity.
  assert (S : forall p q, sent_lines blk p q = []).
  { intros p q. apply sent_lines_nil. intros n Hn. rewrite Hblk; cbn [lines].
    apply filter_none. intros e He. destruct (entries_of_writes b (ws p) n) as (I1 & _).
    destruct (Hb n) as (f0 & E0). destruct (I1 e He) as [X|(v & Hv & Hev)]; [rewrite E0 in X; destruct X|].
    specialize (H p n _ Hv). cbn in H. rewrite Forall_forall in H. specialize (H e Hev). unfold is_node. rewrite H.
    apply Z.eqb_neq. lia. }
  assert (R : forall q p, recv_lines blk q p = []).
  { intros q p. apply recv_lines_nil. intros n Hn. rewrite Hblk; cbn [lines].
    apply not_true_is_false. intros X. apply existsb_exists in X. destruct X as (e & He & X).
    destruct (entries_of_writes b (ws q) n) as (_ & I1 & _).
    destruct (Hb n) as (f0 & E0). destruct (I1 e He) as [Y|(v & Hv & Hev)]; [rewrite E0 in Y; destruct Y|].
    specialize (H q n _ Hv). cbn in H. rewrite Forall_forall in H. specialize (H e Hev). unfold is_node in X. rewrite H in X.
    apply Z.eqb_eq in X. lia. }
  apply (matched_same N NL b ws); auto.
  - intros p q _ _ _. exists 0, 0. rewrite S, R. split; reflexivity.
  - intros p n f Hp Hf. specialize (H p n f Hf). destruct f; cbn; try contradiction;
      (eapply Forall_impl; [|exact H]); intros e E; unfold good_target; rewrite E; lia.
Qed.

Lemma matched_empty N : well_matched N (fun _ => empty_block).
Proof. split; [intros p q _ _ _; split; [reflexivity|exists 0; reflexivity]|intros p n _ H; cbn in H; lia]. Qed.

(* ----- the stages ----- *)
Lemma good_zn N p u : u < N -> u <> p -> forall k, good_target N p (zn u, k).
Proof. intros Hu D k. unfold good_target, zn. cbn. lia. Qed.

Lemma matched_ag N NL off g p b blk : 0 < g -> N mod (g * (p + 1)) = 0 -> off + N <= NL -> blanks b ->
  (forall q, blk q = Block NL (apply_writes b (ag_writes off g p q))) -> well_matched N blk.
Proof.
  intros Hg HN HNL Hb Hblk. assert (Gp := step_pos g p Hg).
  apply (matched_same N NL b (ag_writes off g p)); auto.
  - intros u q Hu Hq D.
    destruct (ag_sent off g p Hg b Hb N NL HN HNL blk Hblk u q Hu D) as (S1 & S2).
    destruct (ag_recv off g p Hg b Hb N NL HN HNL blk Hblk q u Hu ltac:(auto)) as (R1 & R2).
    destruct (peers_dec g p u q) as [P|P].
    + exists (u / g * g + off), g. auto.
    + exists 0, 0. cbn. auto.
  - intros u n f Hu Hf. apply (in_ag_writes off g p Hg) in Hf. destruct Hf as (l & Hl & -> & ->).
    destruct (Nat.eqb_spec (l / g) (u / g)) as [E|E]; cbn [good_field].
    + apply Forall_forall. intros e He. apply in_map_iff in He. destruct He as (i & <- & Hi). apply in_seq in Hi.
      apply good_zn.
      * apply partner_lt with (p := p); auto; lia.
      * apply (partner_peer g p Hg u i); lia.
    + constructor; [|constructor]. rewrite (ptarget g p Hg) by assumption.
      assert (M := Nat.mod_upper_bound u g ltac:(lia)).
      assert (X : (l / g * g + u mod g) / g = l / g) by (apply node_div; assumption).
      apply good_zn.
      * apply group_lt with (g * (p + 1)) u; auto. rewrite <- Hl. apply (small_in_big g p Hg). assumption.
      * intros Y. rewrite Y in X. congruence.
Qed.

Lemma div_mod_dec g G t q : (q / G = t / G /\ q mod g = t mod g) \/ ~ (q / G = t / G /\ q mod g = t mod g).
Proof.
  destruct (Nat.eq_dec (q / G) (t / G)); [|right; tauto].
  destruct (Nat.eq_dec (q mod g) (t mod g)); [left; tauto|right; tauto].
Qed.

Lemma slot_mod N l c : l < N -> (l + c * N) mod N = l.
Proof. intros H. rewrite Nat.mod_add by lia. apply Nat.mod_small. assumption. Qed.

Lemma rs_soff_slot N first : rs_soff N first = (if first then 0 else 2) * N.
Proof. unfold rs_soff. destruct first; lia. Qed.
Lemma mid_soff_slot N first : mid_soff N first = (if first then 0 else 1) * N.
Proof. unfold mid_soff. destruct first; lia. Qed.

Section RSm.
  Context (g p N : nat) (Hg : 0 < g) (Hp : 0 < p) (first last : bool) (HN : N mod (g * (p + 1)) = 0).
  Context (b : nat -> line) (Hb : blanks b).
  Let NL := (if last then 2 + p else 3 + p) * N.
  Context (blk : nat -> block)
    (Hblk : forall q, blk q = Block NL (apply_writes b (rs_writes N (g * (p + 1)) p first last q))).

  Lemma rs_sent_none t q : t < N -> ~ (q / (g * (p + 1)) = t / (g * (p + 1)) /\ q mod g = t mod g) ->
    sent_lines blk t q = [].
  Proof.
    intros Ht P. apply sent_lines_nil. intros n Hn. rewrite Hblk; cbn [lines].
    apply filter_none. intros e He.
    destruct (entries_of_writes b (rs_writes N (g * (p + 1)) p first last t) n) as (I1 & _).
    destruct (Hb n) as (f0 & E0). destruct (I1 e He) as [X|(v & Hv & Hev)]; [rewrite E0 in X; destruct X|].
    apply (in_rs_writes g p N Hg Hp first last HN) in Hv.
    destruct Hv as (l & Hl & [(D & _ & [= ->])|[(_ & i & _ & _ & [=])|(_ & _ & [=])]]).
    destruct Hev as [<-|[]]. rewrite is_node_zn. apply Nat.eqb_neq. intros E. apply P.
    assert (M := Nat.mod_upper_bound t g ltac:(lia)).
    split.
    - rewrite <- Hl. apply (small_in_big g p Hg). rewrite <- E. apply node_div; assumption.
    - rewrite <- E. apply node_mod; assumption.
  Qed.

  Lemma rlist_in_block l r : l < N -> In r (rs_rlist p N first last l) -> r < NL /\ r mod N = l.
  Proof.
    intros Hl Hr.
    assert (E : exists c, r = l + c * N /\ c < (if last then 2 + p else 3 + p)).
    { unfold rs_rlist in Hr. destruct last, first;
        try (destruct Hr as [<-|Hr]; [exists 0; split; lia|]);
        apply in_map_iff in Hr; destruct Hr as (i & <- & Hi); apply in_seq in Hi;
        eexists; (split; [reflexivity|lia]). }
    destruct E as (c & -> & Hc). split; [|apply slot_mod; assumption].
    unfold NL. apply Nat.lt_le_trans with ((c + 1) * N); [lia|apply Nat.mul_le_mono_r; lia].
  Qed.

  Lemma rs_good t n f : t < N -> In (n, f) (rs_writes N (g * (p + 1)) p first last t) ->
    good_field N t NL (fun n => n mod N) n f /\ n < NL.
  Proof.
    intros Ht Hf. apply (in_rs_writes g p N Hg Hp first last HN) in Hf.
    assert (M := Nat.mod_upper_bound t g ltac:(lia)). assert (Gp := step_pos g p Hg).
    destruct Hf as (l & Hl & H).
    assert (Ll : l < N) by (apply group_lt with (g * (p + 1)) t; auto).
    assert (NLc : 3 * N <= NL) by (unfold NL; apply Nat.mul_le_mono_r; destruct last; lia).
    destruct H as [(D & -> & ->)|[(E & i & Hi & -> & ->)|(E & -> & ->)]]; cbn [good_field].
    - split; [|unfold rs_soff; destruct first; lia].
      constructor; [|constructor].
      assert (X : (l / g * g + t mod g) / g = l / g) by (apply node_div; assumption).
      apply good_zn.
      + apply group_lt with (g * (p + 1)) t; auto. rewrite <- Hl. apply (small_in_big g p Hg). assumption.
      + intros Y. rewrite Y in X. congruence.
    - split.
      + constructor; [|constructor]. apply good_zn.
        * apply partner_lt with (p := p); auto.
        * apply (partner_peer g p Hg t i); assumption.
      + assert (F := rs_slot_fit g p N Hg Hp first last HN b i Hi). unfold NL. lia.
    - split.
      + apply Forall_forall. intros r Hr. apply rlist_in_block in Hr; [|assumption]. destruct Hr as (A & B).
        split; [assumption|]. rewrite B. symmetry. apply slot_mod. assumption.
      + unfold rs_dest; destruct last; lia.
  Qed.

  Lemma rs_ranges t q : t < N -> q < N -> t <> q -> exists a k c1 c2, a + k <= N /\
    sent_lines blk t q = seq (a + c1 * N) k /\ recv_lines blk q t = seq (a + c2 * N) k.
  Proof.
    intros Ht Hq D. assert (Gp := step_pos g p Hg).
      assert (B := rs_base g p N Hg Hp first last HN b q Hq).
      destruct (div_mod_dec g (g * (p + 1)) t q) as [P|P].
      + destruct P as (P1 & P2).
        destruct (partner_surj g p Hg q t) as (i & Hi & Ei); auto.
        exists (q / g * g), g, (if first then 0 else 2), (rs_slot p first last i).
        split; [assumption|]. split.
        * rewrite <- rs_soff_slot. apply (rs_sent g p N Hg Hp first last HN b Hb blk Hblk); auto.
        * rewrite <- Ei.
          apply (slots_recv_lines g p N NL g Hg HN (fun q => q / g * g) (rs_slot p first last)
                   (rs_base g p N Hg Hp first last HN b) (rs_slot_inj g p N Hg Hp first last HN b)
                   (rs_slot_fit g p N Hg Hp first last HN b) blk); auto.
          -- intros u. rewrite Hblk. reflexivity.
          -- apply (rs_hit' g p N Hg Hp first last HN b blk Hblk).
          -- apply (rs_miss' g p N Hg Hp first last HN b Hb blk Hblk).
      + exists 0, 0, 0, 0. split; [lia|]. split; [apply rs_sent_none; assumption|]. cbn.
        apply (slots_recv_lines_none g p N NL g Hg HN (fun q => q / g * g) (rs_slot p first last)
                   (rs_base g p N Hg Hp first last HN b) (rs_slot_inj g p N Hg Hp first last HN b)
                   (rs_slot_fit g p N Hg Hp first last HN b) blk); auto.
        * intros u. rewrite Hblk. reflexivity.
        * apply (rs_hit' g p N Hg Hp first last HN b blk Hblk).
        * apply (rs_miss' g p N Hg Hp first last HN b Hb blk Hblk).
        * intros i Hi E. apply P. destruct (partner_peer g p Hg q i Hi) as (X & Y & _). rewrite E in X, Y. auto.
  Qed.
  Lemma matched_rs : (forall n, frac (b n) = n mod N) -> well_matched N blk.
  Proof.
    intros Hfr. assert (Gp := step_pos g p Hg).
    apply (matched_slots N NL b (rs_writes N (g * (p + 1)) p first last)); auto.
    - exact rs_ranges.
    - intros t n f Ht Hf. apply rs_good; assumption.
  Qed.
End RSm.

Section Midm.
  Context (g p M N : nat) (Hg : 0 < g) (Hp : 0 < p) (HM : 0 < M) (first : bool).
  Context (HGM : M mod (g * (p + 1)) = 0) (HMN : N mod M = 0).
  Context (b : nat -> line) (Hb : blanks b).
  Let NL := (if first then p + 1 else p + 2) * N.
  Context (blk : nat -> block)
    (Hblk : forall q, blk q = Block NL (apply_writes b (mid_writes N M g p first q))).

  Lemma mid_rlist_in_block l r : l < N -> In r (mid_rlist p N first l) -> r < NL /\ r mod N = l.
  Proof.
    intros Hl Hr.
    assert (E : exists c, r = l + c * N /\ c < (if first then p + 1 else p + 2)).
    { unfold mid_rlist in Hr. destruct first; apply in_map_iff in Hr; destruct Hr as (i & <- & Hi); apply in_seq in Hi.
      - destruct (i =? 0); [exists 0; split; lia|exists (i + 1); split; lia].
      - exists (i + 2); split; lia. }
    destruct E as (c & -> & Hc). split; [|apply slot_mod; assumption].
    unfold NL. apply Nat.lt_le_trans with ((c + 1) * N); [lia|apply Nat.mul_le_mono_r; lia].
  Qed.

  Lemma mid_good t n f : t < N -> In (n, f) (mid_writes N M g p first t) ->
    good_field N t NL (fun n => n mod N) n f /\ n < NL.
  Proof.
    intros Ht Hf. apply (in_mid_writes g p M N Hg Hp HM first) in Hf; auto.
    assert (HN := mid_HN g p M N Hg Hp HM first HGM HMN b).
    destruct Hf as (l & Hl & H).
    assert (Ll : l < N) by (apply group_lt with M t; auto).
    assert (NLc : 2 * N <= NL) by (unfold NL; apply Nat.mul_le_mono_r; destruct first; lia).
    destruct H as [(-> & ->)|[(i & Hi & -> & ->)|(-> & ->)]]; cbn [good_field].
    - split; [|unfold mid_soff; destruct first; lia].
      apply Forall_forall. intros e He. apply in_map_iff in He. destruct He as (i & <- & Hi). apply in_seq in Hi.
      apply good_zn.
      + apply partner_lt with (p := p); auto; lia.
      + apply (partner_peer g p Hg t i); lia.
    - split.
      + constructor; [|constructor]. apply good_zn.
        * apply partner_lt with (p := p); auto.
        * apply (partner_peer g p Hg t i); assumption.
      + assert (F : (mid_slot first i + 1) * N <= NL)
          by (unfold mid_slot, NL; destruct first; apply Nat.mul_le_mono_r; lia). lia.
    - split; [|lia].
      apply Forall_forall. intros r Hr. apply mid_rlist_in_block in Hr; [|assumption]. destruct Hr as (A & B).
      split; [assumption|]. rewrite B. symmetry. apply slot_mod. assumption.
  Qed.

  Lemma mid_ranges t q : t < N -> q < N -> t <> q -> exists a k c1 c2, a + k <= N /\
    sent_lines blk t q = seq (a + c1 * N) k /\ recv_lines blk q t = seq (a + c2 * N) k.
  Proof.
    intros Ht Hq D. assert (HN := mid_HN g p M N Hg Hp HM first HGM HMN b).
      assert (B : q / M * M + M <= N) by (apply group_fits; assumption).
      assert (RL := slots_recv_lines g p N NL M Hg HN (fun q => q / M * M) (mid_slot first)).
      assert (RN := slots_recv_lines_none g p N NL M Hg HN (fun q => q / M * M) (mid_slot first)).
      assert (P1 : forall q, q < N -> q / M * M + M <= N) by (intros; apply group_fits; assumption).
      assert (P2 : forall i j, i < p -> j < p -> mid_slot first i = mid_slot first j -> i = j)
        by (intros i j _ _; unfold mid_slot; destruct first; lia).
      assert (P3 : forall i, i < p -> (mid_slot first i + 1) * N <= NL)
        by (intros i Hi; unfold mid_slot, NL; destruct first; apply Nat.mul_le_mono_r; lia).
      assert (P4 : forall u, num_lines (blk u) = NL) by (intros u; rewrite Hblk; reflexivity).
      specialize (RL P1 P2 P3 blk P4 (mid_hit' g p M N Hg Hp HM first HGM HMN b blk Hblk)
                     (mid_miss' g p M N Hg Hp HM first HGM HMN b Hb blk Hblk)).
      specialize (RN P1 P2 P3 blk P4 (mid_hit' g p M N Hg Hp HM first HGM HMN b blk Hblk)
                     (mid_miss' g p M N Hg Hp HM first HGM HMN b Hb blk Hblk)).
      destruct (div_mod_dec g (g * (p + 1)) t q) as [P|P].
      + destruct P as (Q1 & Q2).
        destruct (partner_surj g p Hg q t) as (i & Hi & Ei); auto.
        exists (q / M * M), M, (if first then 0 else 1), (mid_slot first i).
        split; [assumption|]. split.
        * rewrite <- mid_soff_slot. apply (mid_sent g p M N Hg Hp HM first HGM HMN b Hb blk Hblk); auto.
        * rewrite <- Ei. apply RL; assumption.
      + exists 0, 0, 0, 0. split; [lia|]. split.
        * apply (mid_sent_none g p M N Hg Hp HM first HGM HMN b Hb blk Hblk); assumption.
        * apply RN; [assumption|].
          intros i Hi E. apply P. destruct (partner_peer g p Hg q i Hi) as (X & Y & _). rewrite E in X, Y. auto.
  Qed.
  Lemma matched_mid : (forall n, frac (b n) = n mod N) -> well_matched N blk.
  Proof.
    intros Hfr. assert (HN := mid_HN g p M N Hg Hp HM first HGM HMN b).
    apply (matched_slots N NL b (mid_writes N M g p first)); auto.
    - exact mid_ranges.
    - intros t n f Ht Hf. apply mid_good; assumption.
  Qed.
End Midm.

(* ----- the stages of the generated schedules ----- *)
Lemma up_stage_at N NL off b ports : forall g m, 0 < g -> m < length ports -> N mod (g * product ports) = 0 ->
  exists g' p, 0 < g' /\ N mod (g' * (p + 1)) = 0 /\
    forall q, nth m (up_stages off NL b g ports q) empty_block = Block NL (apply_writes b (ag_writes off g' p q)).
Proof.
  induction ports as [|p r IH]; intros g m Hg Hm HN; [cbn in Hm; lia|].
  rewrite product_cons, Nat.mul_assoc in HN.
  destruct m as [|m].
  - exists g, (width p). split; [assumption|]. split; [|reflexivity].
    apply mod_of_factor with (product r); auto using step_pos, product_pos.
  - apply (IH (g * (width p + 1)) m); auto using step_pos. cbn in Hm; lia.
Qed.

Lemma rs_stage_at N ports : forall g first m, 0 < g -> nonzero ports -> m < length ports -> N mod (g * product ports) = 0 ->
  exists g' p f l, 0 < g' /\ 0 < p /\ N mod (g' * (p + 1)) = 0 /\
    forall q, nth m (rs_stages N (g * product ports) first ports q) empty_block = rs_block N (g' * (p + 1)) p f l q.
Proof.
  induction ports as [|p r IH]; intros g first m Hg Hz Hm HN; [cbn in Hm; lia|].
  inversion Hz as [|? ? Hp Hr]; subst.
  set (g' := g * product r).
  assert (EG : g * product (p :: r) = g' * (width p + 1)) by (rewrite product_cons; unfold g'; lia).
  assert (Hg' : 0 < g') by (unfold g'; assert (X := product_pos r); nia).
  rewrite EG in *.
  destruct m as [|m].
  - exists g', (width p), first, (match r with [] => true | _ => false end).
    split; [assumption|]. split; [unfold width; lia|]. split; [assumption|]. reflexivity.
  - cbn [rs_stages nth]. rewrite Nat.div_mul by lia. apply (IH g false m); auto; [cbn in Hm; lia|].
    fold g'. apply mod_of_factor with (width p + 1); [assumption|lia|assumption].
Qed.

Lemma mid_stage_at N M ports : forall g first m, 0 < g -> 0 < M -> nonzero ports -> m < length ports ->
  M mod (g * product ports) = 0 ->
  exists g' p f, 0 < g' /\ 0 < p /\ M mod (g' * (p + 1)) = 0 /\
    forall q, nth m (mid_stages N M g first ports q) empty_block = mid_block N M g' p f q.
Proof.
  induction ports as [|p r IH]; intros g first m Hg HM Hz Hm HN; [cbn in Hm; lia|].
  inversion Hz as [|? ? Hp Hr]; subst. rewrite product_cons, Nat.mul_assoc in HN.
  destruct m as [|m].
  - exists g, (width p), first. split; [assumption|]. split; [unfold width; lia|]. split; [|reflexivity].
    apply mod_of_factor with (product r); auto using step_pos, product_pos.
  - apply (IH (g * (width p + 1)) false m); auto using step_pos. cbn in Hm; lia.
Qed.

Lemma frac_mod N n : frac (blank (n mod N)) = n mod N.
Proof. reflexivity. Qed.

Lemma user_matched_first lb N : well_matched N (fun _ => rs_first lb).
Proof.
  apply (matched_user N (2 * lb) (fun x => blank (x mod lb))
    (fun _ => map (fun line => (line, Recv [((-1)%Z, line)])) (seq 0 lb))).
  - apply blanks_mod.
  - reflexivity.
  - intros p n f H. apply in_map_iff in H. destruct H as (l & [= <- <-] & _). repeat constructor.
Qed.

Lemma allgather_matched ports m : 
  well_matched (product ports) (fun q => nth m (allgather_core ports q) empty_block).
Proof.
  set (N := product ports). assert (EN : ports_product ports = N) by apply ports_product_eq.
  assert (Np : 0 < N) by apply product_pos.
  destruct m as [|m].
  - apply (matched_user N N blank
      (fun q => flat_map (fun line => if line =? q then [(line, Recv [((-1)%Z, 0)])] else []) (seq 0 N))).
    + apply blanks_id.
    + intros q. cbn [nth allgather_core]. rewrite EN. reflexivity.
    + intros p n f H. apply in_flat_map in H. destruct H as (l & _ & H).
      destruct (l =? p); [|destruct H]. destruct H as [[= <- <-]|[]]. repeat constructor.
  - destruct (Nat.lt_trichotomy m (length ports)) as [H|[->|H]].
    + destruct (up_stage_at N N 0 blank ports 1 m) as (g & p & Hg & HN & E); [lia|assumption| |].
      { rewrite Nat.mul_1_l. apply Nat.mod_same. lia. }
      apply (matched_ag N N 0 g p blank); auto using blanks_id.
      intros q. rewrite <- E. unfold allgather_core. rewrite EN. cbn [nth].
      rewrite app_nth1 by (rewrite ag_stages_up, up_stages_length; assumption).
      rewrite ag_stages_up. reflexivity.
    + apply (matched_user N N blank (fun _ => map (fun line => (line, Send [((-1)%Z, line)])) (seq 0 N))).
      * apply blanks_id.
      * intros q. unfold allgather_core. rewrite EN. cbn [nth].
        rewrite app_nth2; rewrite ag_stages_up, up_stages_length; [|lia]. rewrite Nat.sub_diag. reflexivity.
      * intros p n f H. apply in_map_iff in H. destruct H as (l & [= <- <-] & _). repeat constructor.
    + apply (matched_ext N (fun _ => empty_block)); [|apply matched_empty].
      intros q. symmetry. apply nth_overflow. rewrite allgather_length. lia.
Qed.

Lemma reduce_scatter_matched ports m : nonzero ports ->
  well_matched (product ports) (fun q => nth m (reduce_scatter_core ports q) empty_block).
Proof.
  intros Hz. set (N := product ports). assert (EN : ports_product ports = N) by apply ports_product_eq.
  assert (Np : 0 < N) by apply product_pos.
  destruct m as [|m].
  - apply (matched_ext N (fun _ => rs_first N)); [|apply user_matched_first].
    intros q. cbn [nth reduce_scatter_core]. rewrite EN. reflexivity.
  - destruct (Nat.lt_trichotomy m (length ports)) as [H|[->|H]].
    + destruct (rs_stage_at N ports 1 true m) as (g & p & f & l & Hg & Hp & HN & E); auto.
      { rewrite Nat.mul_1_l. apply Nat.mod_same. lia. }
      apply (matched_rs g p N Hg Hp f l HN (fun x => blank (x mod N))); auto using blanks_mod.
      intros q. assert (E' := E q). rewrite Nat.mul_1_l in E'. unfold reduce_scatter_core. rewrite EN. cbn [nth].
      rewrite app_nth1 by (rewrite rs_stages_length; assumption). exact E'.
    + apply (matched_user N (2 * N) (fun x => blank (x mod N))
        (fun q => flat_map (fun line => if line - (2 * N) / 2 =? q
                           then [(line, Send [((-1)%Z, line - N)])] else []) (seq N N))).
      * apply blanks_mod.
      * intros q. unfold reduce_scatter_core. rewrite EN. cbn [nth].
        rewrite app_nth2; rewrite rs_stages_length; [|lia]. rewrite Nat.sub_diag. reflexivity.
      * intros p n f Hf. apply in_flat_map in Hf. destruct Hf as (l & _ & Hf).
        destruct (_ =? p); [|destruct Hf]. destruct Hf as [[= <- <-]|[]]. repeat constructor.
    + apply (matched_ext N (fun _ => empty_block)); [|apply matched_empty].
      intros q. symmetry. apply nth_overflow. rewrite reduce_scatter_length. lia.
Qed.

Lemma allreduce_matched down mid up m : balanced down mid up ->
  well_matched (product (mid ++ up)) (fun q => nth m (allreduce_core (down ++ mid ++ up) q) empty_block).
Proof.
  intros (Hd & Hm & Hu & Hi & Hne).
  set (N := product (mid ++ up)).
  assert (EN : N = product mid * product up) by apply product_app.
  assert (AE := allreduce_core_eq down mid up Hd Hm Hu Hi). 
  set (M := product mid) in *. rewrite <- EN in AE.
  set (fm := match down with [] => true | _ => false end) in *.
  assert (Mp : 0 < M) by apply product_pos. assert (Np : 0 < N) by apply product_pos.
  assert (END : N = M * product down) by (rewrite EN; f_equal; exact Hi).
  assert (HMN : N mod M = 0) by (rewrite END, Nat.mul_comm; apply Nat.mod_mul; lia).
  assert (Zd : nonzero down) by (eapply Forall_impl; [|exact Hd]; cbn; lia).
  assert (Zm : nonzero mid) by (eapply Forall_impl; [|exact Hm]; cbn; lia).
  destruct m as [|m].
  { apply (matched_ext N (fun _ => rs_first N)); [|apply user_matched_first].
    intros q. rewrite AE. reflexivity. }
  assert (Nth : forall q, nth (S m) (allreduce_core (down ++ mid ++ up) q) empty_block =
    nth m (rs_stages N N true down q ++ mid_stages N M 1 fm mid q ++
           up_stages N (2 * N) (fun y => blank (y mod N)) M up q ++ [ar_last N]) empty_block).
  { intros q. rewrite AE. reflexivity. }
  destruct (le_lt_dec (length down) m) as [H1|H1].
  2:{ destruct (rs_stage_at N down M true m) as (g & p & f & l & Hg & Hp & HN & E); auto.
      { rewrite <- END. apply Nat.mod_same. lia. }
      apply (matched_rs g p N Hg Hp f l HN (fun x => blank (x mod N))); auto using blanks_mod.
      intros q. rewrite Nth, app_nth1 by (rewrite rs_stages_length; assumption).
      assert (E' := E q). rewrite <- END in E'. exact E'. }
  assert (Nth1 : forall q, nth (S m) (allreduce_core (down ++ mid ++ up) q) empty_block =
    nth (m - length down) (mid_stages N M 1 fm mid q ++
           up_stages N (2 * N) (fun y => blank (y mod N)) M up q ++ [ar_last N]) empty_block).
  { intros q. rewrite Nth, app_nth2; rewrite rs_stages_length; [reflexivity|assumption]. }
  set (m1 := m - length down) in *.
  destruct (le_lt_dec (length mid) m1) as [H2|H2].
  2:{ destruct (mid_stage_at N M mid 1 fm m1) as (g & p & f & Hg & Hp & HN & E); auto.
      { rewrite Nat.mul_1_l. apply Nat.mod_same. fold M; lia. }
      apply (matched_mid g p M N Hg Hp Mp f HN HMN (fun x => blank (x mod N))); auto using blanks_mod.
      intros q. rewrite Nth1, app_nth1 by (rewrite mid_stages_length; assumption). apply E. }
  assert (Nth2 : forall q, nth (S m) (allreduce_core (down ++ mid ++ up) q) empty_block =
    nth (m1 - length mid) (up_stages N (2 * N) (fun y => blank (y mod N)) M up q ++ [ar_last N]) empty_block).
  { intros q. rewrite Nth1, app_nth2; rewrite mid_stages_length; [reflexivity|assumption]. }
  set (m2 := m1 - length mid) in *.
  destruct (Nat.lt_trichotomy m2 (length up)) as [H|[H|H]].
  - destruct (up_stage_at N (2 * N) N (fun y => blank (y mod N)) up M m2) as (g & p & Hg & HN & E); auto.
    { rewrite <- EN. apply Nat.mod_same. lia. }
    apply (matched_ag N (2 * N) N g p (fun y => blank (y mod N))); auto using blanks_mod; [lia|].
    intros q. rewrite Nth2, app_nth1 by (rewrite up_stages_length; assumption). apply E.
  - apply (matched_user N (2 * N) (fun x => blank (x mod N))
      (fun _ => map (fun line => (line, Send [((-1)%Z, line mod N)])) (seq N N))).
    + apply blanks_mod.
    + intros q. rewrite Nth2, app_nth2; rewrite up_stages_length; [|lia].
      rewrite H, Nat.sub_diag. reflexivity.
    + intros p n f Hf. apply in_map_iff in Hf. destruct Hf as (l & [= <- <-] & _). repeat constructor.
  - apply (matched_ext N (fun _ => empty_block)); [|apply matched_empty].
    intros q. symmetry. rewrite Nth2. apply nth_overflow. rewrite app_length, up_stages_length. cbn. lia.
Qed.

Lemma generated_allgather_matched ports m : 
  well_matched (node_count ports) (fun q => nth m (generate_recursive true ports q) empty_block).
Proof. exact (allgather_matched ports m). Qed.
Lemma generated_reduce_scatter_matched ports m : nonzero ports -> (last ports 0 < 0)%Z ->
  well_matched (node_count ports) (fun q => nth m (generate_recursive false ports q) empty_block).
Proof.
  intros Hz Hl. apply (matched_ext _ (fun q => nth m (reduce_scatter_core ports q) empty_block)).
  - intros q. rewrite generate_reduce_scatter by assumption. reflexivity.
  - exact (reduce_scatter_matched ports m Hz).
Qed.
Lemma generated_allreduce_matched down mid up m : balanced down mid up ->
  well_matched (node_count (mid ++ up)) (fun q => nth m (generate_recursive false (down ++ mid ++ up) q) empty_block).
Proof.
  intros B. apply (matched_ext _ (fun q => nth m (allreduce_core (down ++ mid ++ up) q) empty_block)).
  - intros q. rewrite generate_allreduce by assumption. reflexivity.
  - exact (allreduce_matched down mid up m B).
Qed.

(* all nodes have the same number of stages *)
Lemma generated_same_length ports : (forall N, same_length N (generate_recursive true ports) (length ports + 2)) /\
  ((last ports 0 < 0)%Z -> forall N, same_length N (generate_recursive false ports) (length ports + 2)).
Proof.
  split.
  - intros N t _. apply allgather_length.
  - intros Hl N t _. rewrite generate_reduce_scatter by assumption. apply reduce_scatter_length.
Qed.
Lemma generated_allreduce_same_length down mid up : balanced down mid up ->
  forall N, same_length N (generate_recursive false (down ++ mid ++ up)) (length (down ++ mid ++ up) + 2).
Proof.
  intros B N t _. rewrite generate_allreduce by assumption. destruct B as (Hd & Hm & Hu & Hi & Hne).
  apply (allreduce_length down mid up Hd Hm Hu Hi).
Qed.
