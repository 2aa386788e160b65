(* The recursive allgather as an instance of GatherSim.v and GatherCode.v. *)
From Verif Require Import Base SchedModel SchedSpec SchedProofs RecursiveModel RecursiveArith RecursiveSpec RecursiveProofs MatchProofs RawModel RawSpec MsgProofs PhaseProofs
  RawCode RawStage RawProofs RawEnd RawWhole RawInst FinalModel FinalSpec FinalPass FinalMerge FinalShape FinalBlock FinalSim GatherFinalModel GatherSim GatherCode.
Local Ltac Zify.zify_post_hook ::= idtac.

(* ---------- the blocks ---------- *)
Lemma neat_ext N b1 b2 : (forall q, b1 q = b2 q) -> neat N b1 -> neat N b2.
Proof.
  intros E [A1 A2 A3 A4 A5 A6 A7 A8]. unfold sent_lines, recv_lines in *.
  constructor; unfold sent_lines, recv_lines; intros *; rewrite <- ?E; eauto.
Qed.
Lemma neat_up g p N blk : 0 < g -> N mod (g * (p + 1)) = 0 ->
  (forall q, blk q = Block N (apply_writes blank (ag_writes 0 g p q))) -> neat N blk.
Proof.
  intros Hg HN HB.
  assert (S : forall q u, q < N -> u <> q -> (peers g p q u -> sent_lines blk q u = seq (q / g * g + 0) g) /\ (~ peers g p q u -> sent_lines blk q u = [])).
  { intros q u Hq D. apply (ag_sent 0 g p Hg blank blanks_id N N HN ltac:(lia) blk HB q u Hq); auto. }
  assert (R : forall q u, u < N -> u <> q -> (peers g p u q -> recv_lines blk q u = seq (u / g * g + 0) g) /\ (~ peers g p u q -> recv_lines blk q u = [])).
  { intros q u Hu D. apply (ag_recv 0 g p Hg blank blanks_id N N HN ltac:(lia) blk HB q u Hu); auto. }
  assert (RI : forall q u n, u < N -> u <> q -> In n (recv_lines blk q u) -> n / g = u / g /\ u mod g = q mod g).
  { intros q u n Hu D I. destruct (R q u Hu D) as [R1 R2]. destruct (peers_dec g p u q) as [P|P]; [|rewrite (R2 P) in I; destruct I].
    rewrite (R1 P) in I. apply in_seq in I. split; [apply group_range; [exact Hg|lia]|]. symmetry. apply P. }
  constructor.
  - intros q u Hq Hu D. destruct (S q u Hq D) as [S1 S2]. destruct (peers_dec g p q u) as [P|P]; [rewrite (S1 P)|rewrite (S2 P); exists 0, 0]; eauto.
  - intros q u Hq Hu D. destruct (R q u Hu D) as [S1 S2]. destruct (peers_dec g p u q) as [P|P]; [rewrite (S1 P)|rewrite (S2 P); exists 0, 0]; eauto.
  - intros q _. rewrite HB. cbn. lia.
  - intros q u u' n Hq Hu D Hu' D' I I'. destruct (RI q u n Hu D I) as [E1 E2]. destruct (S q u' Hq D') as [S1 S2].
    destruct (peers_dec g p q u') as [P|P]; [|rewrite (S2 P) in I'; destruct I']. rewrite (S1 P) in I'. apply in_seq in I'.
    assert (n / g = q / g) by (apply group_range; [exact Hg|lia]). apply D. apply (same_node g); auto. congruence.
  - intros q u u' n Hq Hu D Hu' D' I I'. destruct (RI q u n Hu D I) as [E1 E2]. destruct (RI q u' n Hu' D' I') as [E3 E4].
    apply (same_node g); auto; congruence.
  - intros q n e _ I. rewrite HB in I. cbn [lines] in I. eapply (ag_no_self 0 g p Hg blank blanks_id); eauto.
  - intros q n _. rewrite HB. apply (ag_no_reduce 0 g p Hg blank blanks_id).
  - intros q n _. rewrite HB. apply (ag_no_copyreduce 0 g p Hg blank blanks_id).
Qed.
Lemma last_nothing N n : recvfrom (lines (ag_last N) n) = [] /\ reducefrom (lines (ag_last N) n) = [] /\ copyreducefrom (lines (ag_last N) n) = [].
Proof.
  unfold ag_last. cbn [lines]. apply only_sends; [apply blanks_id|]. intros w Hw. apply in_map_iff in Hw. destruct Hw as (l & <- & _). eexists; reflexivity.
Qed.
Lemma last_sends N n e : In e (sendto (lines (ag_last N) n)) -> fst e = (-1)%Z.
Proof.
  unfold ag_last. cbn [lines]. intros I. destruct (entries_of_writes blank (map (fun line => (line, Send [((-1)%Z, line)])) (seq 0 N)) n) as (I1 & _).
  destruct (I1 e I) as [[]|(v & Iv & Ie)]. apply in_map_iff in Iv. destruct Iv as (l & [= _ <-] & _). destruct Ie as [<-|[]]. reflexivity.
Qed.
Lemma last_quiet N q u : sent_lines (fun _ => ag_last N) q u = [] /\ recv_lines (fun _ => ag_last N) q u = [].
Proof.
  split.
  - apply sent_lines_nil. intros n _. apply filter_none. intros e He. apply last_sends in He. unfold is_node. rewrite He. apply Z.eqb_neq. lia.
  - apply recv_lines_nil. intros n _. destruct (last_nothing N n) as [-> _]. reflexivity.
Qed.
Lemma neat_last N : neat N (fun _ => ag_last N).
Proof.
  constructor; intros.
  - destruct (last_quiet N q p) as [-> _]. exists 0, 0. reflexivity.
  - destruct (last_quiet N q p) as [_ ->]. exists 0, 0. reflexivity.
  - cbn. lia.
  - destruct (last_quiet N q p) as [_ X]. rewrite X in *. auto.
  - destruct (last_quiet N q p) as [_ X]. rewrite X in *. destruct H4.
  - destruct (last_nothing N n) as (X & _). rewrite X in *. destruct H0.
  - apply last_nothing.
  - apply last_nothing.
Qed.

(* ---------- counting the messages of the first round ---------- *)
Lemma length_some {A} (f : nat -> list A) (h : nat -> nat) (g : nat -> bool) l : (forall o, length (f o) = if g (h o) then 1 else 0) ->
  length (flat_map f l) = length (filter g (map h l)).
Proof. intros H. induction l as [|o l IH]; [reflexivity|]. cbn [flat_map map filter]. rewrite app_length, H, IH. now destruct (g (h o)). Qed.
Lemma group_size N G q (g : nat -> bool) l : 0 < G -> N mod G = 0 -> q < N -> NoDup l -> (forall p, In p l <-> p < N) ->
  (forall p, p < N -> g p = true <-> p <> q /\ p / G = q / G) -> length (filter g l) = G - 1.
Proof.
  intros HG HN Hq ND AL P.
  assert (E : forall p, In p (q :: filter g l) <-> In p (seq (q / G * G) G)).
  { intros p. rewrite in_seq, (group_range G q HG). split.
    - intros [<-|I]; [reflexivity|]. apply filter_In in I. destruct I as [I J]. apply AL in I. apply P in J; tauto.
    - intros E. assert (p < N) by (apply group_lt with G q; auto). destruct (Nat.eq_dec q p) as [|D]; [now left|right].
      apply filter_In. split; [now apply AL|]. apply P; auto. }
  assert (ND1 : NoDup (q :: filter g l)).
  { constructor; [|now apply NoDup_filter]. intros I. apply filter_In in I. destruct I as [_ J]. apply P in J; tauto. }
  assert (L1 := NoDup_incl_length ND1 (fun p I => proj1 (E p) I)). assert (L2 := NoDup_incl_length (seq_NoDup G (q / G * G)) (fun p I => proj2 (E p) I)).
  rewrite seq_length in *. cbn [length] in *. lia.
Qed.

Section Allgather.
  Context (ports : list Z) (mc : nat -> nat).
  Local Notation N := (node_count ports).
  Local Notation alg := (generate_recursive true ports).
  Local Notation nb := (length ports + 2).
  Local Notation size_of := (mmsizes mc N).
  Local Notation pre := (fun q : nat => copyin_gather mc (nth 0 (alg q) empty_block) (mc q)).
  Local Notation post := (fun q : nat => copyout_all mc (nth (nb - 1) (alg q) empty_block) (moffset mc N)).
  Local Notation blk m := (fun q => nth m (alg q) empty_block).
  Local Notation K := (nb - 1).
  Local Notation G := (width (hd 0%Z ports) + 1).
  Local Notation GG := (LG N alg nb size_of).

  Lemma fa_stage m q : m < length ports -> nth (S m) (alg q) empty_block = nth m (up_stages 0 N blank 1 ports q) empty_block.
  Proof.
    intros Hm. destruct (ag_N ports) as [_ E]. unfold generate_recursive, allgather_core. rewrite E. cbn [nth].
    rewrite app_nth1 by (rewrite ag_stages_up, up_stages_length; exact Hm). now rewrite ag_stages_up.
  Qed.
  Lemma fa_tail q : nth K (alg q) empty_block = ag_last N.
  Proof.
    destruct (ag_N ports) as [_ E]. unfold generate_recursive, allgather_core. rewrite E. replace K with (S (length ports)) by lia. cbn [nth].
    rewrite app_nth2 by (rewrite ag_stages_up, up_stages_length; lia). rewrite ag_stages_up, up_stages_length, Nat.sub_diag. reflexivity.
  Qed.
  Lemma fa_neat m : 1 <= m < nb -> neat N (blk m).
  Proof.
    intros Hm. destruct (ag_N ports) as [Np _]. destruct (Nat.eq_dec m K) as [->|D].
    - apply (neat_ext N (fun _ => ag_last N)); [|apply neat_last]. intros q. now rewrite fa_tail.
    - destruct m as [|m]; [lia|]. destruct (up_stage_at N N 0 blank ports 1 m) as (g & p & Hg & HN & E); [lia|lia|rewrite Nat.mul_1_l; exact (Nat.mod_same N (Nat.neq_sym _ _ (Nat.lt_neq _ _ Np)))|].
      apply (neat_up g p); auto. intros q. rewrite fa_stage by lia. apply E.
  Qed.
  Lemma fa_group : N mod G = 0.
  Proof.
    destruct (ag_N ports) as [Np _]. destruct ports as [|p r]; [reflexivity|]. cbn [hd]. apply (mod_of_factor _ _ (product r)); [lia|apply product_pos|].
    change N with (product (p :: r)). rewrite product_cons. apply Nat.mod_same. assert (X := product_pos (p :: r)). rewrite product_cons in X. lia.
  Qed.
  (* the first round: everybody sends its own line to its group *)
  Lemma fa_first q p : q < N -> p < N -> p <> q ->
    (p / G = q / G -> sent_lines (blk 1) q p = [q] /\ recv_lines (blk 1) q p = [p]) /\
    (p / G <> q / G -> sent_lines (blk 1) q p = [] /\ recv_lines (blk 1) q p = []).
  Proof.
    intros Hq Hp D. destruct ports as [|p0 r] eqn:EP; [cbn in Hq, Hp; lia|]. rewrite <- EP in *.
    assert (HN : N mod (1 * (width p0 + 1)) = 0) by (rewrite Nat.mul_1_l; pose proof fa_group as X; now rewrite EP in *).
    assert (HB : forall q, blk 1 q = Block N (apply_writes blank (ag_writes 0 1 (width p0) q))).
    { intros u. cbv beta. rewrite fa_stage by (rewrite EP; cbn; lia). rewrite EP. reflexivity. }
    destruct (ag_sent 0 1 (width p0) ltac:(lia) blank blanks_id N N HN ltac:(lia) (blk 1) HB q p Hq ltac:(auto)) as (S1 & S2).
    destruct (ag_recv 0 1 (width p0) ltac:(lia) blank blanks_id N N HN ltac:(lia) (blk 1) HB q p Hp ltac:(auto)) as (R1 & R2).
    unfold peers in *. rewrite !Nat.mod_1_r, !Nat.mul_1_l, !Nat.div_1_r, !Nat.mul_1_r, !Nat.add_0_r in *. rewrite EP. cbn [hd seq] in *. rewrite EP in *.
    split; intros E; (split; [apply S1 || apply S2|apply R1 || apply R2]); auto; intros [? ?]; auto.
  Qed.
  Context (POS : forall f, f < N -> 0 < mc f).
  Lemma fa_line m q n : m < nb -> q < N -> n < num_lines (blk m q) -> line_size size_of (blk m q) n = mc n /\ n < N.
  Proof.
    intros Hm Hq Hn. destruct (ag_N ports) as [Np E]. assert (P := plain_allgather ports q). rewrite E in P. destruct (plain_nth N _ m n P Hn) as [Hl F].
    split; [|exact Hl]. unfold line_size, mmsizes. cbv beta. change (allgather_core ports q) with (alg q) in F. rewrite F. now rewrite Nat.mod_small.
  Qed.
  Lemma fa_rsize q p : q < N -> p < N -> (recv_size size_of q (blk 1 q) p <> 0 <-> p <> q /\ p / G = q / G).
  Proof.
    intros Hq Hp. rewrite rsize_eq. destruct (Nat.eq_dec p q) as [->|D].
    - rewrite (rlines_self (blk 1) q). cbn. tauto.
    - rewrite (rlines_recv (blk 1)) by auto. destruct (fa_first q p Hq Hp D) as [H1 H2]. destruct (Nat.eq_dec (p / G) (q / G)) as [E|E].
      + destruct (H1 E) as [_ R]. assert (L : p < num_lines (blk 1 q)) by (apply (got_lt (blk 1) q p); rewrite R; now left).
        rewrite R. cbn [map]. destruct (fa_line 1 q p ltac:(lia) Hq L) as [-> _]. cbn [sum fold_right]. specialize (POS p Hp). split; [auto|]. intros _. cbn. lia.
      + destruct (H2 E) as [_ ->]. cbn. tauto.
  Qed.
  Lemma fa_ssize q p : q < N -> p < N -> (ssize size_of q (blk 1 q) p <> 0 <-> p <> q /\ p / G = q / G).
  Proof.
    intros Hq Hp. unfold ssize. destruct (Nat.eq_dec p q) as [->|D].
    - rewrite slines_self. cbn. tauto.
    - rewrite (slines_sent alg 1) by auto. destruct (fa_first q p Hq Hp D) as [H1 H2]. destruct (Nat.eq_dec (p / G) (q / G)) as [E|E].
      + destruct (H1 E) as [R _]. assert (L : q < num_lines (blk 1 q)) by (apply (gone_lt (blk 1) q p); rewrite R; now left).
        rewrite R. cbn [map]. destruct (fa_line 1 q q ltac:(lia) Hq L) as [-> _]. specialize (POS q Hq). split; [auto|]. intros _. cbn. lia.
      + destruct (H2 E) as [-> _]. cbn. tauto.
  Qed.
  Lemma fa_ins q : q < N -> length (ins (exch_of size_of N q (blk 1 q))) = Z.abs_nat (hd 0%Z ports).
  Proof.
    intros Hq. destruct (ag_N ports) as [Np _]. unfold exch_of. cbn [ins].
    rewrite (length_some _ (from_node N q) (fun p => negb (recv_size size_of q (blk 1 q) p =? 0))).
    - replace (Z.abs_nat (hd 0%Z ports)) with (G - 1) by (unfold width; lia). apply (group_size N G q); auto; try lia.
      + apply fa_group.
      + now apply from_nodup.
      + intros p. split; [|now apply from_all]. intros I. apply in_map_iff in I. destruct I as (o & <- & I). apply in_seq in I. apply from_node_lt; auto. lia.
      + intros p Hp. rewrite negb_true_iff, Nat.eqb_neq. now apply fa_rsize.
    - intros o. unfold in_of. cbv beta. now destruct (_ =? 0).
  Qed.
  Lemma fa_outs q : q < N -> length (outs (exch_of size_of N q (blk 1 q))) = Z.abs_nat (hd 0%Z ports).
  Proof.
    intros Hq. destruct (ag_N ports) as [Np _]. unfold exch_of. cbn [outs].
    rewrite (length_some _ (to_node N q) (fun p => negb (ssize size_of q (blk 1 q) p =? 0))).
    - replace (Z.abs_nat (hd 0%Z ports)) with (G - 1) by (unfold width; lia). apply (group_size N G q); auto; try lia.
      + apply fa_group.
      + now apply to_nodup.
      + intros p. split; [|now apply to_all]. intros I. apply in_map_iff in I. destruct I as (o & <- & I). apply in_seq in I. apply to_node_lt; auto. lia.
      + intros p Hp. rewrite negb_true_iff, Nat.eqb_neq. now apply fa_ssize.
    - intros o. unfold out_of. cbv beta. now destruct (_ =? 0).
  Qed.

  (* ---------- the copies at the ends ---------- *)
  Lemma fa_input q n : q < N -> existsb is_user (recvfrom (lines (ag_first N q) n)) = (n =? q).
  Proof.
    intros Hq. assert (I := fun f => ag_first_input N q n f Hq). unfold input_line in I. destruct (existsb _ _).
    - match type of I with forall f, Some ?x = Some f <-> _ => destruct (proj1 (I x) eq_refl) as [-> _] end. now rewrite Nat.eqb_refl.
    - destruct (Nat.eqb_spec n q); [|reflexivity]. assert (X := proj2 (I q) (conj e eq_refl)). discriminate X.
  Qed.
  Lemma fa_frac q n : frac (lines (ag_first N q) n) = n.
  Proof. unfold ag_first. cbn [lines]. now rewrite frac_writes. Qed.
  Lemma fa_pre q : q < N -> pre q = [Barrier; Memcpy (Shm 0, moffset mc q) (Sendbuf, 0) (mc q); Barrier].
  Proof.
    intros Hq. cbv beta. rewrite ag_head. unfold copyin_gather. assert (P := POS q Hq). destruct (Nat.eqb_spec (mc q) 0) as [Z|_]; [lia|]. cbn [app].
    change (num_lines (ag_first N q)) with N.
    assert (E : before_user mc (ag_first N q) (seq 0 N) 0 = moffset mc q); [|now rewrite E].
    rewrite moffset_off. transitivity (off mc (fun n => frac (lines (ag_first N q) n)) q).
    - apply (before_user_ok mc (ag_first N q) q) with (k := N) (n0 := 0); try lia.
      + rewrite fa_input by exact Hq. apply Nat.eqb_refl.
      + intros n Hn. rewrite fa_input by exact Hq. apply Nat.eqb_neq. lia.
    - apply off_cong. intros k _. now rewrite fa_frac.
  Qed.
  Lemma fa_post q : post q = map (out_line mc) (seq 0 N).
  Proof.
    cbv beta. rewrite fa_tail. unfold copyout_all. cbn [num_lines ag_last].
    assert (H : forall k a, a + k <= N -> copyout_lines mc (ag_last N) (moffset mc N) (seq a k) (moffset mc a) = map (out_line mc) (seq a k)).
    { induction k as [|k IH]; intros a Ha; [reflexivity|]. cbn [seq copyout_lines map].
      assert (F : frac (lines (ag_last N) a) = a) by (unfold ag_last; cbn [lines]; now rewrite frac_writes).
      assert (S : existsb is_user (sendto (lines (ag_last N) a)) = true).
      { unfold ag_last. cbn [lines]. rewrite (sendto_some _ _ a [((-1)%Z, a)]); [reflexivity| |].
        - apply in_map_iff. exists a. split; [reflexivity|]. apply in_seq. lia.
        - intros v Hv. apply in_map_iff in Hv. destruct Hv as (l & [= -> <-] & _). reflexivity. }
      rewrite S, F, moffset_S. unfold overlapp. replace (if 0 <? moffset mc a then moffset mc a else 0) with (moffset mc a) by (destruct (Nat.ltb_spec 0 (moffset mc a)); lia).
      assert (LE : moffset mc a + mc a <= moffset mc N) by (apply moffset_lt; lia).
      replace (if moffset mc a + mc a <? moffset mc N then moffset mc a + mc a else moffset mc N) with (moffset mc a + mc a) by (destruct (Nat.ltb_spec (moffset mc a + mc a) (moffset mc N)); lia).
      replace (moffset mc a + mc a - moffset mc a) with (mc a) by lia. assert (P := POS a ltac:(lia)). destruct (Nat.eqb_spec (mc a) 0); [lia|]. cbn [app]. unfold out_line at 1.
      f_equal. rewrite <- moffset_S. apply IH. lia. }
    apply (H N 0). lia.
  Qed.

  (* ---------- the final code ---------- *)
  Lemma fa_send1 q p : q < N -> p < N -> p <> q -> sent_lines (blk 1) q p = [] \/ sent_lines (blk 1) q p = [q].
  Proof. intros Hq Hp D. destruct (fa_first q p Hq Hp D) as [H1 H2]. destruct (Nat.eq_dec (p / G) (q / G)) as [E|E]; [right; now apply H1|left; now apply H2]. Qed.
  Lemma fa_recv1 q p : q < N -> p < N -> p <> q -> ~ In q (recv_lines (blk 1) q p).
  Proof.
    intros Hq Hp D. destruct (fa_first q p Hq Hp D) as [H1 H2]. destruct (Nat.eq_dec (p / G) (q / G)) as [E|E].
    - destruct (H1 E) as [_ ->]. intros [X|[]]. auto.
    - destruct (H2 E) as [_ ->]. auto.
  Qed.
  Lemma fa_lay m q n : 1 <= m < nb -> q < N -> n < num_lines (blk m q) -> frac (lines (blk m q) n) = n mod N.
  Proof. intros Hm. apply ag_lay. lia. Qed.
  Lemma fa_program q : q < N -> allgather_program (alg q) mc N q = program N alg size_of pre post q.
  Proof.
    intros Hq. unfold allgather_program, program, between. rewrite hd_first, (last_nth N alg nb); auto. apply ag_len.
  Qed.
  Lemma fa_final q base alt : q < N -> laid_out base (allgather_program (alg q) mc N q) ->
    allgather_final ports (alg q) base alt mc N q = Some (phased K GG q).
  Proof.
    intros Hq LO. destruct (ag_N ports) as [Np _]. unfold allgather_final. rewrite fa_program in * by exact Hq. destruct LO as (B0 & MONO & FIT).
    assert (PR := fa_pre q Hq).
    assert (R : room_for base (Shm 0, moffset mc q) (mc q)).
    { assert (I : In (Memcpy (Shm 0, moffset mc q) (Sendbuf, 0) (mc q)) (program N alg size_of pre post q)).
      { unfold program. apply in_or_app. left. rewrite PR. right. now left. }
      rewrite Forall_forall in FIT. apply (FIT _ I). }
    cbn [room_for fst snd] in R. rewrite B0 in R. assert (P := POS q Hq).
    apply (g_final N alg nb mc pre post); auto; try lia; intros.
    - now apply fa_neat.
    - apply ag_match.
    - now apply fa_lay.
    - apply gather_quiet.
    - apply copyout_quiet.
    - now apply fa_send1.
    - now apply fa_recv1.
    - apply ag_len.
    - apply fa_post.
    - now apply fa_ins.
    - now apply fa_outs.
  Qed.
  Lemma fa_phases : phases_ok N K GG.
  Proof.
    destruct (ag_N ports) as [Np _]. apply (g_ok N alg nb size_of pre post); auto; try lia; intros.
    - now apply fa_neat.
    - apply ag_match.
    - now apply fa_lay.
    - apply gather_quiet.
    - apply copyout_quiet.
    - now apply fa_send1.
    - now apply fa_recv1.
  Qed.

  (* ---------- the result ---------- *)
  Context {V : Type} (op : V -> V -> V).
  Local Notation END mem q := (exec_list op (GG K q) (memat op GG mem K q)).
  (* the memory of the generated code: the receive buffer in the shared memory *)
  Definition ghost (mem : nat -> @memory V) (q : nat) : @memory V :=
    fun a => match fst a with Shm 0 => mem q (Recvbuf, snd a) | _ => mem q a end.
  Lemma fa_own q : q < N -> own_copy N size_of q = Memcpy (Recvbuf, moffset mc q) (Sendbuf, 0) (mc q).
  Proof.
    intros Hq. unfold own_copy. rewrite off_modular by lia. unfold RawStage.sz, mmsizes. now rewrite !Nat.mod_small by (rewrite ?Nat.mod_small; auto).
  Qed.
  Lemma fa_start mem q x : q < N -> exec_list op (pre q) (ghost mem q) (sm x) = AG N alg nb size_of op mem 0 q (Recvbuf, x).
  Proof.
    intros Hq. assert (E := fa_pre q Hq). cbv beta in *. rewrite E. clear E. unfold AG. cbn [Nat.eqb memat]. rewrite fa_own by exact Hq.
    cbn [exec_list fold_left exec_local]. unfold sm. unfold inside. cbn [fst snd buffer_eqb]. reflexivity.
  Qed.
  Lemma fa_sim mem q x : q < N -> x < moffset mc N -> exchanged op N alg nb mc pre post (ghost mem) q (Shm 0, x) = END mem q (Recvbuf, x).
  Proof.
    intros Hq Hx. destruct (ag_N ports) as [Np _]. assert (Hb : 2 <= nb) by (clear; lia). rewrite (exec_LG N alg nb size_of pre post Hb op mem mem). unfold exchanged.
    apply (g_sim N alg nb size_of pre post); auto; try lia; intros.
    - now apply fa_neat.
    - apply ag_match.
    - now apply fa_lay.
    - apply gather_quiet.
    - apply copyout_quiet.
    - now apply fa_send1.
    - now apply fa_recv1.
    - now apply fa_start.
    - unfold whole. now rewrite off_modular.
  Qed.
  Lemma fa_frame mem q a : q < N -> (fst a = Recvbuf -> moffset mc N <= snd a) -> END mem q a = mem q a.
  Proof.
    intros Hq Ha. destruct (ag_N ports) as [Np _]. assert (Hb : 2 <= nb) by (clear; lia). rewrite (exec_LG N alg nb size_of pre post Hb op mem mem).
    apply (g_frame N alg nb size_of pre post) with (memP := ghost mem); auto; try lia; intros.
    - now apply fa_neat.
    - apply ag_match.
    - now apply fa_lay.
    - apply gather_quiet.
    - apply copyout_quiet.
    - now apply fa_send1.
    - now apply fa_recv1.
    - now apply fa_start.
    - unfold whole. rewrite off_modular by lia. auto.
  Qed.
  Lemma fa_end mem q f i : q < N -> f < N -> i < mc f -> END mem q (Recvbuf, moffset mc f + i) = mem f (Sendbuf, i).
  Proof.
    intros Hq Hf Hi. destruct (ag_N ports) as [Np _]. assert (LT := moffset_lt mc f N Hf). rewrite <- fa_sim by (auto; lia).
    destruct (ag_lock op ports mc (ghost mem) q Hq) as (_ & R). specialize (R f i Hf Hi).
    change (ghost mem f (Sendbuf, i)) with (mem f (Sendbuf, i)) in R. rewrite <- R. clear R.
    rewrite (whole_end op N alg nb mc pre post) by (auto; intros; try lia; try apply gather_quiet; try apply copyout_quiet; apply ag_match).
    rewrite fa_tail. set (EX := exchanged op N alg nb mc pre post (ghost mem) q).
    destruct (copyout_all_ok op N mc (ag_last N) (fun j => EX (Shm 0, j)) EX) as [_ A].
    - intros n j Hn O Hj. assert (F : forall k, frac (lines (ag_last N) k) = k) by (intros k; unfold ag_last; cbn [lines]; now rewrite frac_writes).
      rewrite F in *. cbn [num_lines ag_last] in Hn. split; [exact Hn|]. do 3 f_equal. rewrite moffset_off. apply off_cong. intros k _. now rewrite F.
    - intros f' Hf'. exists f'. split; [exact Hf'|]. split; [|unfold ag_last; cbn [lines]; now rewrite frac_writes].
      unfold ag_last. cbn [lines]. rewrite (sendto_some _ _ f' [((-1)%Z, f')]); [reflexivity| |].
      + apply in_map_iff. exists f'. split; [reflexivity|]. apply in_seq. lia.
      + intros v Hv. apply in_map_iff in Hv. destruct Hv as (l & [= -> <-] & _). reflexivity.
    - cbv zeta in A. rewrite A by lia. reflexivity.
  Qed.
End Allgather.
