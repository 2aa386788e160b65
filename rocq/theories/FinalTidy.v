(* The stages of the recursive schedules are tidy. *)
From Verif Require Import Base SchedModel SchedSpec SchedProofs RecursiveModel RecursiveArith RecursiveSpec RecursiveProofs ReduceProofs AllreduceProofs
  MatchProofs RawModel RawCode RawStage FinalBlock.
Local Ltac Zify.zify_post_hook ::= idtac.

(* the lines of the second column that are used *)
Definition in_window (N w k n : nat) : Prop := N <= n < 2 * N -> N + w <= n < N + w + k.

Lemma tidy_ext N w0 wk b1 b2 : (forall q, b1 q = b2 q) -> tidy N w0 wk b1 -> tidy N w0 wk b2.
Proof.
  intros E [A1 A2 A3 A4 A5 A6 A7 A8 A9 A10 A11]. unfold sent_lines, recv_lines in *.
  constructor; unfold sent_lines, recv_lines; intros *; rewrite <- ?E; eauto.
Qed.

Lemma tidy_writes N NL b ws w0 wk blk : 0 < N -> blanks b -> (forall q, blk q = Block NL (apply_writes b (ws q))) ->
  (forall p q, p < N -> q < N -> p <> q -> exists a k c1 c2, a + k <= N /\
     sent_lines blk p q = seq (a + c1 * N) k /\ recv_lines blk q p = seq (a + c2 * N) k) ->
  (forall q, q < N -> exists c, 1 <= c /\ forall n f, In (n, f) (ws q) ->
     match f with
     | Send v => in_window N (w0 q) (wk q) n /\ forall v', ~ In (n, Recv v') (ws q)
     | Recv v => N <= n /\ in_window N (w0 q) (wk q) n /\
                 exists e, v = [e] /\ is_node q e = false /\ forall v', In (n, Recv v') (ws q) -> v' = v
     | Reduce v => n / N = c /\ in_window N (w0 q) (wk q) n /\ Forall (fun r => r / N <> c /\ in_window N (w0 q) (wk q) r) v
     | CopyReduce _ => False
     end) -> tidy N w0 wk blk.
Proof.
  intros HN Hb Hblk M H.
  assert (SE : forall q p n, In n (sent_lines blk q p) -> exists v, In (n, Send v) (ws q)).
  { intros q p n I. unfold sent_lines in I. apply in_flat_map in I. destruct I as (n' & _ & I). apply in_map_iff in I. destruct I as (e & <- & I).
    apply filter_In in I. destruct I as [I _]. rewrite Hblk in I. cbn [lines] in I.
    destruct (entries_of_writes b (ws q) n') as (I1 & _). destruct (Hb n') as (f0 & E0). rewrite E0 in I1.
    destruct (I1 e I) as [[]|(v & Iv & _)]. eauto. }
  assert (RE : forall q p n, In n (recv_lines blk q p) -> exists v e, In (n, Recv v) (ws q) /\ In e v /\ is_node p e = true).
  { intros q p n I. unfold recv_lines in I. apply filter_In in I. destruct I as [_ I]. apply existsb_exists in I. destruct I as (e & I & X).
    rewrite Hblk in I. cbn [lines] in I.
    destruct (entries_of_writes b (ws q) n) as (_ & I1 & _). destruct (Hb n) as (f0 & E0). rewrite E0 in I1.
    destruct (I1 e I) as [[]|(v & Iv & Ie)]. eauto. }
  assert (RD : forall q n r, In r (reducefrom (lines (blk q) n)) -> exists v, In (n, Reduce v) (ws q) /\ In r v).
  { intros q n r I. rewrite Hblk in I. cbn [lines] in I.
    destruct (entries_of_writes b (ws q) n) as (_ & _ & I1 & _). destruct (Hb n) as (f0 & E0). rewrite E0 in I1.
    destruct (I1 r I) as [[]|(v & Iv & Ie)]. eauto. }
  assert (MD : forall a k c, a + k <= N -> (a + c * N) mod N + k <= N).
  { intros a k c L. rewrite Nat.mod_add by lia. destruct (Nat.eq_dec a N) as [->|]; [rewrite Nat.mod_same; lia|rewrite Nat.mod_small; lia]. }
  constructor.
  - intros q p Hq Hp D. destruct (M q p Hq Hp ltac:(auto)) as (a & k & c1 & c2 & L & E & _). exists (a + c1 * N), k. auto.
  - intros q p Hq Hp D. destruct (M p q Hp Hq D) as (a & k & c1 & c2 & L & _ & E). exists (a + c2 * N), k. auto.
  - intros q p n Hq Hp D I. destruct (RE q p n I) as (v & e & I1 & _). destruct (H q Hq) as (c & _ & X). apply (X n _ I1).
  - intros q p n Hq Hp D I. destruct (SE q p n I) as (v & I1). destruct (H q Hq) as (c & _ & X). apply (X n _ I1).
  - intros q p n Hq Hp D I. destruct (RE q p n I) as (v & e & I1 & _). destruct (H q Hq) as (c & _ & X). apply (X n _ I1).
  - intros q n r x Hq Hn I Hx. destruct (RD q n r I) as (v & I1 & I2). destruct (H q Hq) as (c & _ & X). destruct (X n _ I1) as (_ & X1 & X2).
    rewrite Forall_forall in X2. destruct Hx as [->| ->]; [exact X1|apply (X2 r I2)].
  - intros q p p' n Hq _ _ _ _ I I'. destruct (RE q p n I) as (v & e & I1 & _). destruct (SE q p' n I') as (v' & I2).
    destruct (H q Hq) as (c & _ & X). destruct (X n _ I2) as (_ & X1). exact (X1 v I1).
  - intros q p p' n Hq _ _ _ _ I I'. destruct (RE q p n I) as (v & e & I1 & I2 & I3). destruct (RE q p' n I') as (v' & e' & J1 & J2 & J3).
    destruct (H q Hq) as (c & _ & X). destruct (X n _ I1) as (_ & _ & e0 & E & _ & U). pose proof (U v' J1) as E'. subst v'. rewrite E in *. destruct I2 as [->|[]], J2 as [->|[]].
    unfold is_node in *. apply Z.eqb_eq in I3, J3. lia.
  - intros q n e Hq I. rewrite Hblk in I. cbn [lines] in I.
    destruct (entries_of_writes b (ws q) n) as (_ & I1 & _). destruct (Hb n) as (f0 & E0). rewrite E0 in I1.
    destruct (I1 e I) as [[]|(v & Iv & Ie)]. destruct (H q Hq) as (c & _ & X). destruct (X n _ Iv) as (_ & _ & e0 & -> & F & _).
    destruct Ie as [->|[]]. exact F.
  - intros q Hq. destruct (H q Hq) as (c & C & X). exists c. split; [exact C|]. intros n r _ I. destruct (RD q n r I) as (v & I1 & I2).
    destruct (X n _ I1) as (X0 & _ & X2). rewrite Forall_forall in X2. split; [exact X0|]. apply (X2 r I2).
  - intros q n Hq _. rewrite Hblk. cbn [lines].
    destruct (entries_of_writes b (ws q) n) as (_ & _ & _ & I1). destruct (Hb n) as (f0 & E0). rewrite E0 in I1.
    destruct (copyreducefrom _) as [|r rs]; [reflexivity|]. exfalso. destruct (I1 r (or_introl eq_refl)) as [[]|(v & Iv & _)].
    destruct (H q Hq) as (c & _ & X). exact (X n _ Iv).
Qed.

Lemma row_eq N l l' c c' : l < N -> l' < N -> l + c * N = l' + c' * N -> l = l' /\ c = c'.
Proof.
  intros A B E. assert (X : (l + c * N) mod N = (l' + c' * N) mod N) by now rewrite E. rewrite !slot_mod in X by assumption.
  subst l'. split; [reflexivity|]. apply (Nat.mul_cancel_r c c' N); lia.
Qed.
Lemma col_div N l c : l < N -> (l + c * N) / N = c.
Proof. intros H. rewrite Nat.div_add by lia. rewrite Nat.div_small by exact H. reflexivity. Qed.
Lemma window_all N n : in_window N 0 N n.
Proof. unfold in_window. lia. Qed.

(* [alone]: the window of the node holds its own line only, and the last stage works on this line *)
Lemma tidy_rs g p N first last w0 wk blk : 0 < g -> 0 < p -> N mod (g * (p + 1)) = 0 -> 0 < N ->
  (forall q l, q < N -> l < N -> l / g = q / g -> last = true -> in_window N (w0 q) (wk q) (l + N)) ->
  (forall q, blk q = rs_block N (g * (p + 1)) p first last q) -> tidy N w0 wk blk.
Proof.
  intros Hg Hp HN Np W Hblk. assert (Gp := step_pos g p Hg).
  assert (HB : forall q, blk q = Block ((if last then 2 + p else 3 + p) * N) (apply_writes (fun x => blank (x mod N)) (rs_writes N (g * (p + 1)) p first last q))) by exact Hblk.
  apply (tidy_writes N ((if last then 2 + p else 3 + p) * N) (fun x => blank (x mod N)) (fun q => rs_writes N (g * (p + 1)) p first last q) w0 wk blk Np (blanks_mod N) HB).
  { intros t q Ht Hq D. apply (rs_ranges g p N Hg Hp first last HN (fun x => blank (x mod N)) (blanks_mod N) blk HB); auto. }
  intros q Hq. exists (rs_dest last). split; [unfold rs_dest; destruct last; lia|].
  assert (OTHER : forall l c, l < N -> c <> 1 -> in_window N (w0 q) (wk q) (l + c * N)).
  { intros l c Hl Hc. unfold in_window. intros B. exfalso. destruct c as [|[|c]]; lia. }
  intros n f I. apply (in_rs_writes g p N Hg Hp first last HN) in I. destruct I as (l & Hl & I).
  assert (Ll : l < N) by (apply group_lt with (g * (p + 1)) q; auto).
  destruct I as [(D & -> & ->)|[(E & i & Hi & -> & ->)|(E & -> & ->)]].
  - rewrite rs_soff_slot. split; [apply OTHER; [exact Ll|destruct first; lia]|].
    intros v' I. apply (in_rs_writes g p N Hg Hp first last HN) in I. destruct I as (l' & Hl' & I).
    assert (Ll' : l' < N) by (apply group_lt with (g * (p + 1)) q; auto).
    destruct I as [(_ & _ & X)|[(E & i & Hi & X & _)|(_ & _ & X)]]; try discriminate.
    apply row_eq in X; auto. destruct X as [-> _]. contradiction.
  - assert (S1 : rs_slot p first last i = 1 -> last = true) by (unfold rs_slot; destruct last, first; auto; lia).
    assert (S0 : 1 <= rs_slot p first last i) by (unfold rs_slot; destruct last, first; try destruct (_ =? _); lia).
    split; [assert (1 * N <= rs_slot p first last i * N) by (apply Nat.mul_le_mono_r; exact S0); lia|]. split.
    + destruct (Nat.eq_dec (rs_slot p first last i) 1) as [Y|Y]; [|apply OTHER; auto].
      rewrite Y, Nat.mul_1_l. apply W; auto.
    + eexists. split; [reflexivity|]. split.
      * rewrite is_node_zn. apply Nat.eqb_neq. apply (partner_peer g p Hg q i). exact Hi.
      * intros v' I. apply (in_rs_writes g p N Hg Hp first last HN) in I. destruct I as (l' & Hl' & I).
        assert (Ll' : l' < N) by (apply group_lt with (g * (p + 1)) q; auto).
        destruct I as [(_ & _ & X)|[(E' & i' & Hi' & X & F')|(_ & _ & X)]]; try discriminate.
        apply row_eq in X; auto. destruct X as [-> X]. apply (rs_slot_inj g p N Hg Hp first last HN (fun x => blank x)) in X; auto. rewrite X. now injection F'.
  - split; [apply col_div; exact Ll|]. split.
    + unfold rs_dest. destruct last eqn:La; [rewrite Nat.mul_1_l; apply W; auto|apply OTHER; [exact Ll|lia]].
    + assert (G : forall c, c <> rs_dest last -> c <> 1 -> (l + c * N) / N <> rs_dest last /\ in_window N (w0 q) (wk q) (l + c * N)).
      { intros c C1 C2. rewrite col_div by exact Ll. split; [exact C1|apply OTHER; auto]. }
      apply Forall_forall. intros r I. unfold rs_rlist in I.
      destruct last, first; try (destruct I as [<-|I]; [replace l with (l + 0 * N) by lia; apply G; unfold rs_dest; lia|]);
        apply in_map_iff in I; destruct I as (i & <- & Hi); apply in_seq in Hi; apply G; unfold rs_dest; lia.
Qed.

Lemma tidy_mid g p M N first blk : 0 < g -> 0 < p -> 0 < M -> M mod (g * (p + 1)) = 0 -> N mod M = 0 -> 0 < N ->
  (forall q, blk q = mid_block N M g p first q) -> tidy N (fun _ => 0) (fun _ => N) blk.
Proof.
  intros Hg Hp HM HGM HMN Np Hblk.
  assert (HB : forall q, blk q = Block ((if first then p + 1 else p + 2) * N) (apply_writes (fun x => blank (x mod N)) (mid_writes N M g p first q))) by exact Hblk.
  apply (tidy_writes N ((if first then p + 1 else p + 2) * N) (fun x => blank (x mod N)) (fun q => mid_writes N M g p first q) (fun _ => 0) (fun _ => N) blk Np (blanks_mod N) HB).
  { intros t q Ht Hq D. apply (mid_ranges g p M N Hg Hp HM first HGM HMN (fun x => blank (x mod N)) (blanks_mod N) blk HB); auto. }
  intros q Hq. exists 1. split; [lia|]. intros n f I. apply (in_mid_writes g p M N Hg Hp HM first HGM HMN) in I. destruct I as (l & Hl & I).
  assert (Ll : l < N) by (apply group_lt with M q; auto).
  destruct I as [(-> & ->)|[(i & Hi & -> & ->)|(-> & ->)]].
  - split; [apply window_all|]. rewrite mid_soff_slot. intros v' I. apply (in_mid_writes g p M N Hg Hp HM first HGM HMN) in I. destruct I as (l' & Hl' & I).
    assert (Ll' : l' < N) by (apply group_lt with M q; auto).
    destruct I as [(_ & X)|[(i & Hi & X & _)|(_ & X)]]; try discriminate.
    apply row_eq in X; auto. destruct X as [_ X]. unfold mid_slot in X. destruct first; lia.
  - split; [assert (1 * N <= mid_slot first i * N) by (apply Nat.mul_le_mono_r; unfold mid_slot; destruct first; lia); lia|]. split; [apply window_all|].
    eexists. split; [reflexivity|]. split.
    + rewrite is_node_zn. apply Nat.eqb_neq. apply (partner_peer g p Hg q i). exact Hi.
    + intros v' I. apply (in_mid_writes g p M N Hg Hp HM first HGM HMN) in I. destruct I as (l' & Hl' & I).
      assert (Ll' : l' < N) by (apply group_lt with M q; auto).
      destruct I as [(_ & X)|[(i' & Hi' & X & F')|(_ & X)]]; try discriminate.
      apply row_eq in X; auto. destruct X as [-> X]. unfold mid_slot in X. replace i with i' by (destruct first; lia). now injection F'.
  - split; [apply col_div; exact Ll|]. split; [apply window_all|]. apply Forall_forall. intros r I. split; [|apply window_all].
    unfold mid_rlist in I. destruct first; apply in_map_iff in I; destruct I as (i & <- & Hi); apply in_seq in Hi.
    + destruct (i =? 0) eqn:E; [rewrite Nat.div_small by exact Ll; lia|]. apply Nat.eqb_neq in E. rewrite col_div by exact Ll. lia.
    + rewrite col_div by exact Ll. lia.
Qed.

Lemma tidy_up g p N blk : 0 < g -> N mod (g * (p + 1)) = 0 -> 0 < N ->
  (forall q, blk q = Block (2 * N) (apply_writes (fun x => blank (x mod N)) (ag_writes N g p q))) -> tidy N (fun _ => 0) (fun _ => N) blk.
Proof.
  intros Hg HN Np HB. assert (Gp := step_pos g p Hg).
  apply (tidy_writes N (2 * N) (fun x => blank (x mod N)) (fun q => ag_writes N g p q)); auto using blanks_mod.
  { intros u q Hu Hq D.
    destruct (ag_sent N g p Hg _ (blanks_mod N) N (2 * N) HN ltac:(lia) blk HB u q Hu D) as (S1 & S2).
    destruct (ag_recv N g p Hg _ (blanks_mod N) N (2 * N) HN ltac:(lia) blk HB q u Hu ltac:(auto)) as (R1 & R2).
    destruct (peers_dec g p u q) as [P|P].
    - exists (u / g * g), g, 1, 1. rewrite Nat.mul_1_l. split; [apply group_fits; auto; apply mod_of_factor with (p + 1); auto; lia|auto].
    - exists 0, 0, 0, 0. split; [lia|]. cbn. auto. }
  intros q Hq. exists 1. split; [lia|]. intros n f I. apply (in_ag_writes N g p Hg) in I. destruct I as (l & Hl & -> & ->).
  assert (Ll : l < N) by (apply group_lt with (g * (p + 1)) q; auto).
  destruct (Nat.eqb_spec (l / g) (q / g)) as [E|E].
  - split; [apply window_all|]. intros v' I. apply (in_ag_writes N g p Hg) in I. destruct I as (l' & Hl' & X & F).
    replace l' with l in F by lia. destruct (Nat.eqb_spec (l / g) (q / g)); [discriminate|contradiction].
  - split; [lia|]. split; [apply window_all|]. eexists. split; [reflexivity|]. split.
    + rewrite is_node_zn. apply Nat.eqb_neq. rewrite (ptarget g p Hg) by assumption. intros Y.
      assert (M := Nat.mod_upper_bound q g ltac:(lia)). assert (X : (l / g * g + q mod g) / g = l / g) by (apply node_div; assumption). rewrite Y in X. congruence.
    + intros v' I. apply (in_ag_writes N g p Hg) in I. destruct I as (l' & Hl' & X & F).
      replace l' with l in F by lia. destruct (Nat.eqb_spec (l / g) (q / g)); [contradiction|]. now injection F.
Qed.

(* blocks that only mention the user *)
Lemma tidy_user N NL b ws w0 wk blk : 0 < N -> blanks b -> (forall q, blk q = Block NL (apply_writes b (ws q))) ->
  (forall q n f, q < N -> In (n, f) (ws q) -> match f with Send v => Forall (fun e => fst e = (-1)%Z) v /\ in_window N (w0 q) (wk q) n | _ => False end) ->
  tidy N w0 wk blk.
Proof.
  intros Np Hb Hblk H. apply (tidy_writes N NL b ws); auto.
  - intros p q Hp Hq D. exists 0, 0, 0, 0. split; [lia|]. cbn [seq]. split.
    + apply sent_lines_nil. intros n Hn. rewrite Hblk; cbn [lines]. apply filter_none. intros e He.
      destruct (entries_of_writes b (ws p) n) as (I1 & _). destruct (Hb n) as (f0 & E0).
      destruct (I1 e He) as [X|(v & Hv & Hev)]; [rewrite E0 in X; destruct X|].
      specialize (H p n _ Hp Hv). cbn in H. destruct H as [H _]. rewrite Forall_forall in H. specialize (H e Hev). unfold is_node. rewrite H. apply Z.eqb_neq. lia.
    + apply recv_lines_nil. intros n Hn. rewrite Hblk; cbn [lines]. apply not_true_is_false. intros X. apply existsb_exists in X. destruct X as (e & He & X).
      destruct (entries_of_writes b (ws q) n) as (_ & I1 & _). destruct (Hb n) as (f0 & E0).
      destruct (I1 e He) as [Y|(v & Hv & Hev)]; [rewrite E0 in Y; destruct Y|]. exact (H q n _ Hq Hv).
  - intros q Hq. exists 1. split; [lia|]. intros n f I. specialize (H q n f Hq I) as Hf. destruct f; try (now destruct Hf).
    split; [apply Hf|]. intros v' I'. exact (H q n _ Hq I').
Qed.
