(* The final code of allgather does the same as the generated code, with the
   shared memory replaced by the receive buffer. *)
From Verif Require Import Base SchedModel SchedSpec RawModel MsgProofs PhaseProofs RawCode RawStage RawProofs FinalModel FinalSpec FinalPass FinalMerge FinalShape FinalBlock FinalSim.
Local Ltac Zify.zify_post_hook ::= idtac.

(* What the schedule has to satisfy: one column of N lines, no reductions. *)
Record neat (N : nat) (blk : nat -> block) : Prop := {
  ne_sent : forall q p, q < N -> p < N -> p <> q -> exists a k, sent_lines blk q p = seq a k;
  ne_recv : forall q p, q < N -> p < N -> p <> q -> exists a k, recv_lines blk q p = seq a k;
  ne_lines : forall q, q < N -> num_lines (blk q) <= N;
  ne_apart : forall q p p' n, q < N -> p < N -> p <> q -> p' < N -> p' <> q ->
    In n (recv_lines blk q p) -> In n (sent_lines blk q p') -> False;
  ne_once : forall q p p' n, q < N -> p < N -> p <> q -> p' < N -> p' <> q ->
    In n (recv_lines blk q p) -> In n (recv_lines blk q p') -> p = p';
  ne_self : forall q n e, q < N -> In e (recvfrom (lines (blk q) n)) -> is_node q e = false;
  ne_nored : forall q n, q < N -> reducefrom (lines (blk q) n) = [];
  ne_nocopy : forall q n, q < N -> copyreducefrom (lines (blk q) n) = [] }.

Lemma race_before rs l : NoDup (map peer rs) ->
  (forall r r' a, In r rs -> In r' rs -> inside (place r) (len r) a = true -> inside (place r') (len r') a = true -> peer r = peer r') ->
  (forall r i a, In r rs -> In i l -> inside (place r) (len r) a = true -> reads i a = false /\ writes i a = false) ->
  race_free l -> race_free (map (fun r => Irecv (place r) (len r) (peer r)) rs ++ l).
Proof.
  induction rs as [|r rs IH]; intros ND D DS R; [exact R|]. cbn [map app race_free]. cbn [map] in ND. inversion ND as [|? ? NI ND']; subst. split.
  - apply Forall_app. split; apply Forall_forall; intros i I a Ha.
    + apply in_map_iff in I. destruct I as (r' & <- & I). cbn [reads writes]. split; [reflexivity|].
      destruct (inside (place r') (len r') a) eqn:X; [|reflexivity]. exfalso. apply NI. rewrite (D r r' a); auto; [now apply in_map|now left|now right].
    + apply (DS r i a); auto. now left.
  - apply IH; auto.
    + intros r1 r2 a I1 I2. apply D; now right.
    + intros r1 i a I1. apply DS. now right.
Qed.
Lemma exec_none {V} (op : V -> V -> V) {A} (f : A -> instr) l (m : @memory V) : (forall x, exec_local op (f x) = fun m => m) -> exec_list op (map f l) m = m.
Proof. intros H. induction l as [|x l IH]; [reflexivity|]. cbn [map exec_list fold_left]. rewrite H. exact IH. Qed.

Lemma race_outs {A} (f : A -> instr) l : (forall x, match f x with Isend _ _ _ => True | _ => False end) -> race_free (map f l).
Proof.
  intros H. induction l as [|x l IH]; cbn [map race_free]; [exact I|]. split; [|exact IH]. specialize (H x) as Hx. destruct (f x); try (now destruct Hx).
  apply Forall_forall. intros i Ii a _. apply in_map_iff in Ii. destruct Ii as (y & <- & _). specialize (H y). destruct (f y); now destruct H.
Qed.
Lemma got_lt (blk : nat -> block) q p n : In n (recv_lines blk q p) -> n < num_lines (blk q).
Proof. unfold recv_lines. intros I. apply filter_In in I. destruct I as [I _]. apply in_seq in I. lia. Qed.
Lemma gone_lt (blk : nat -> block) q p n : In n (sent_lines blk q p) -> n < num_lines (blk q).
Proof.
  intros H. unfold sent_lines in H. apply in_flat_map in H. destruct H as (x & Hx & H).
  apply in_map_iff in H. destruct H as (e & <- & _). apply in_seq in Hx. lia.
Qed.
Section Between.
  Context (s F : nat -> nat).
  Local Notation off := (off s F).
  Lemma at_line a k x : off a <= x < off (a + k) -> exists n, In n (seq a k) /\ off n <= x < off (S n).
  Proof.
    induction k as [|k IH]; intros H; [rewrite Nat.add_0_r in H; lia|].
    destruct (le_lt_dec (off (a + k)) x) as [Le|Lt].
    - exists (a + k). split; [apply in_seq; lia|]. rewrite Nat.add_succ_r in H. lia.
    - destruct IH as (n & I & E); [lia|]. exists n. split; [apply in_seq in I; apply in_seq; lia|exact E].
  Qed.
  Lemma one_line n n' x : off n <= x < off (S n) -> off n' <= x < off (S n') -> n = n'.
  Proof.
    intros H H'. destruct (lt_eq_lt_dec n n') as [[Lt|]|Gt]; auto; exfalso.
    - pose proof (off_le s F (S n) n' Lt). lia.
    - pose proof (off_le s F (S n') n Gt). lia.
  Qed.
End Between.
Lemma target_dec size_of q b x l : {p | In p l /\ goes size_of q b p x} + {forall p, In p l -> ~ goes size_of q b p x}.
Proof.
  induction l as [|p l [(p' & I & G)|H]].
  - right. intros p [].
  - left. exists p'. split; [now right|exact G].
  - unfold goes in *. destruct (le_dec (first_start size_of q b p (seq 0 (num_lines b)) 0) x) as [L1|L1].
    + destruct (lt_dec x (first_start size_of q b p (seq 0 (num_lines b)) 0 + recv_size size_of q b p)) as [L2|L2].
      * left. exists p. split; [now left|lia].
      * right. intros p' [<-|I]; [lia|now apply H].
    + right. intros p' [<-|I]; [lia|now apply H].
Qed.

Section Sim.
  Context (N : nat) (alg : nat -> list block) (nb : nat) (size_of : nat -> nat) (pre post : nat -> list instr).
  Local Notation blk m := (fun q => nth m (alg q) empty_block).
  Context (HN : 0 < N) (Hb : 2 <= nb).
  Context (NE : forall m, 1 <= m < nb -> neat N (blk m)) (WM : forall m, 1 <= m < nb -> well_matched N (blk m)).
  Context (LAY : forall m q n, 1 <= m < nb -> q < N -> n < num_lines (blk m q) -> frac (lines (blk m q) n) = n mod N).
  Context (Qpre : forall q, q < N -> forallb quiet (pre q) = true) (Qpost : forall q, q < N -> forallb quiet (post q) = true).
  (* in the first round the own line is sent *)
  Context (S1 : forall q p, q < N -> p < N -> p <> q -> sent_lines (blk 1) q p = [] \/ sent_lines (blk 1) q p = [q]).
  Context (R1 : forall q p, q < N -> p < N -> p <> q -> ~ In q (recv_lines (blk 1) q p)).
  Local Notation K := (nb - 1).
  Local Notation sz := (sz size_of (fun n => n mod N)).
  Local Notation off := (off size_of (fun n => n mod N)).
  Local Notation T := (whole N size_of).
  Local Notation LP := (L N alg nb size_of pre post).
  Local Notation ex m q := (exch_of size_of N q (nth m (alg q) empty_block)).

  Definition user_in (t : msg) : instr := Irecv (Recvbuf, mplace t) (msize t) (mpeer t).
  Definition user_out (u : msg * list nat) : instr := Isend (Recvbuf, mplace (fst u)) (msize (fst u)) (mpeer (fst u)).
  Definition own_out (u : msg * list nat) : instr := Isend (Sendbuf, 0) (msize (fst u)) (mpeer (fst u)).
  Definition own_copy (q : nat) : instr := Memcpy (Recvbuf, off q) (Sendbuf, 0) (sz q).
  Definition LG (m q : nat) : list instr :=
    if m <? K then
      map user_in (ins (ex (S m) q)) ++
      (if m =? 0 then map own_out (outs (ex 1 q)) ++ [own_copy q] else map user_out (outs (ex (S m) q)))
    else [].

  (* ---------- the facts about one block ---------- *)
  Lemma g_size m q n : m < K -> q < N -> n < num_lines (blk (S m) q) -> line_size size_of (blk (S m) q) n = sz n.
  Proof. intros Hm Hq Hn. unfold line_size, RawStage.sz. rewrite LAY; auto. lia. Qed.
  Lemma g_start m q n : m < K -> q < N -> n <= num_lines (blk (S m) q) -> line_start size_of (blk (S m) q) n = off n.
  Proof. intros Hm Hq Hn. apply (lstart_off size_of N (blk (S m)) q); auto. intros k. apply LAY; auto. lia. Qed.
  Lemma g_sum m q a k : m < K -> q < N -> (forall n, In n (seq a k) -> n < num_lines (blk (S m) q)) ->
    sum (map (line_size size_of (blk (S m) q)) (seq a k)) = off (a + k) - off a.
  Proof.
    intros Hm Hq H. rewrite off_seq. replace (map _ (seq a k)) with (map sz (seq a k)); [lia|].
    apply map_ext_in. intros n In_. symmetry. apply g_size; auto.
  Qed.
  Lemma grecv m q p : m < K -> q < N -> p < N -> recv_size size_of q (blk (S m) q) p <> 0 ->
    p <> q /\ exists a k, recv_lines (blk (S m)) q p = seq a k /\ recv_size size_of q (blk (S m) q) p = off (a + k) - off a /\
      first_start size_of q (blk (S m) q) p (seq 0 (num_lines (blk (S m) q))) 0 = off a /\ off (a + k) <= T /\ off a < off (a + k).
  Proof.
    intros Hm Hq Hp Z.
    assert (Np : p <> q) by (intros ->; apply Z; rewrite rsize_eq, (rlines_self (blk (S m)) q); reflexivity).
    split; [exact Np|]. destruct (ne_recv _ _ (NE (S m) ltac:(lia)) q p Hq Hp Np) as (a & k & E). exists a, k.
    assert (LT : forall n, In n (seq a k) -> n < num_lines (blk (S m) q)) by (intros n I; apply (got_lt (blk (S m)) q p); now rewrite E).
    assert (SZ : recv_size size_of q (blk (S m) q) p = off (a + k) - off a).
    { rewrite rsize_eq, (rlines_recv (blk (S m))) by auto. rewrite E. now apply g_sum. }
    assert (P : off a < off (a + k)) by (cbv beta in *; lia).
    assert (EX : exists k', k = S k') by (destruct k; [rewrite Nat.add_0_r in P; lia|eauto]). destruct EX as [k' ->].
    split; [exact E|]. split; [exact SZ|].
    assert (AL : a < num_lines (blk (S m) q)) by (apply LT; left; reflexivity).
    split; [|split; [|exact P]].
    - cbn [seq] in E. rewrite <- (rlines_recv (blk (S m))) in E by auto.
      pose proof (first_start_at size_of N (blk (S m)) q _ (fun n => LAY (S m) q n ltac:(lia) Hq) Hq p a 0 (num_lines (blk (S m) q)) _ (le_n _) E) as X.
      cbv beta in X. rewrite !g_start in X by (auto; lia). exact X.
    - unfold whole. apply off_le. assert (I : In (a + k') (seq a (S k'))) by (apply in_seq; lia). specialize (LT _ I).
      pose proof (ne_lines _ _ (NE (S m) ltac:(lia)) q Hq). cbv beta in *. lia.
  Qed.
  Lemma gsend m q p : m < K -> q < N -> p < N -> ssize size_of q (blk (S m) q) p <> 0 ->
    p <> q /\ exists a k, sent_lines (blk (S m)) q p = seq a (S k) /\ slines q (blk (S m) q) p = seq a (S k) /\ ssize size_of q (blk (S m) q) p = off (a + S k) - off a /\
      line_start size_of (blk (S m) q) (hd 0 (slines q (blk (S m) q) p)) = off a /\ off (a + S k) <= T /\ off a < off (a + S k).
  Proof.
    intros Hm Hq Hp Z.
    assert (Np : p <> q) by (intros ->; apply Z; unfold ssize; rewrite slines_self; reflexivity).
    split; [exact Np|]. destruct (ne_sent _ _ (NE (S m) ltac:(lia)) q p Hq Hp Np) as (a & k & E).
    assert (SL : slines q (blk (S m) q) p = sent_lines (blk (S m)) q p) by (apply (slines_sent alg (S m)); auto).
    assert (LT : forall n, In n (seq a k) -> n < num_lines (blk (S m) q)) by (intros n I; apply (gone_lt (blk (S m)) q p); now rewrite E).
    assert (SZ : ssize size_of q (blk (S m) q) p = off (a + k) - off a).
    { unfold ssize. rewrite SL, E. now apply g_sum. }
    assert (P : off a < off (a + k)) by (cbv beta in *; lia).
    assert (EX : exists k', k = S k') by (destruct k; [rewrite Nat.add_0_r in P; lia|eauto]). destruct EX as [k' ->]. exists a, k'.
    split; [exact E|]. split; [congruence|]. split; [exact SZ|].
    assert (AL : a < num_lines (blk (S m) q)) by (apply LT; left; reflexivity).
    split; [rewrite SL, E; cbn [seq hd]; apply g_start; auto; lia|]. split; [|exact P].
    unfold whole. apply off_le. assert (I : In (a + k') (seq a (S k'))) by (apply in_seq; lia). specialize (LT _ I).
    pose proof (ne_lines _ _ (NE (S m) ltac:(lia)) q Hq). cbv beta in *. lia.
  Qed.
  Lemma g_once m q p p' x : m < K -> q < N -> p < N -> p' < N ->
    goes size_of q (blk (S m) q) p x -> goes size_of q (blk (S m) q) p' x -> p = p'.
  Proof.
    intros Hm Hq Hp Hp' G G'. unfold goes in *.
    destruct (grecv m q p Hm Hq Hp ltac:(cbv beta; lia)) as (N1 & a & k & E1 & E2 & E3 & _ & P1).
    destruct (grecv m q p' Hm Hq Hp' ltac:(cbv beta; lia)) as (N2 & a' & k' & E1' & E2' & E3' & _ & P2).
    cbv beta in *. rewrite E2, E3 in G. rewrite E2', E3' in G'.
    destruct (at_line size_of (fun n => n mod N) a k x) as (n & I & J); [lia|]. destruct (at_line size_of (fun n => n mod N) a' k' x) as (n' & I' & J'); [lia|].
    assert (n' = n) by (eapply (one_line size_of (fun n => n mod N)); eauto). subst n'.
    apply (ne_once _ _ (NE (S m) ltac:(lia)) q p p' n); auto; cbv beta; [rewrite E1|rewrite E1']; auto.
  Qed.
  Lemma g_apart m q p p' a k a' k' x : m < K -> q < N -> p < N -> p' < N -> p <> q -> p' <> q ->
    recv_lines (blk (S m)) q p = seq a k -> sent_lines (blk (S m)) q p' = seq a' k' -> off a <= x < off (a + k) -> off a' <= x < off (a' + k') -> False.
  Proof.
    intros Hm Hq Hp Hp' N1 N2 E1 E2 H H'.
    destruct (at_line size_of (fun n => n mod N) a k x H) as (n & I & J). destruct (at_line size_of (fun n => n mod N) a' k' x H') as (n' & I' & J').
    assert (n' = n) by (eapply (one_line size_of (fun n => n mod N)); eauto). subst n'.
    apply (ne_apart _ _ (NE (S m) ltac:(lia)) q p p' n); auto; [rewrite E1|rewrite E2]; auto.
  Qed.
  Lemma g_self m q : m < K -> q < N -> no_self q (blk (S m) q).
  Proof.
    intros Hm Hq p. destruct (recvfrom _) as [|e es] eqn:E; [exact I|]. eapply (ne_self _ _ (NE (S m) ltac:(lia)) q); auto. cbv beta. rewrite E. now left.
  Qed.
  Lemma g_nocopy m q : m < K -> q < N -> copyreduces size_of (blk (S m) q) = [].
  Proof.
    intros Hm Hq. unfold copyreduces. apply flat_map_none. intros n I.
    rewrite (ne_nocopy _ _ (NE (S m) ltac:(lia)) q n) by auto. now destruct (_ =? 0).
  Qed.
  Lemma g_nored m q : m < K -> q < N -> reduces size_of (blk (S m) q) = [].
  Proof.
    intros Hm Hq. unfold reduces. apply flat_map_none. intros n I.
    rewrite (ne_nored _ _ (NE (S m) ltac:(lia)) q n) by auto. reflexivity.
  Qed.
  Lemma g_contiguous m q o : m < K -> q < N -> exists a k, slines q (blk (S m) q) (to_node N q o) = seq a k.
  Proof.
    intros Hm Hq. destruct (Nat.eq_dec (to_node N q o) q) as [E|Ne].
    - rewrite E. exists 0, 0. apply slines_self.
    - assert (L : to_node N q o < N) by (unfold to_node; apply Nat.mod_upper_bound; lia).
      destruct (ne_sent _ _ (NE (S m) ltac:(lia)) q _ Hq L Ne) as (a & k & E). exists a, k. rewrite <- E.
      apply (slines_sent alg (S m)); auto.
  Qed.
  Lemma g_own q p : q < N -> p < N -> ssize size_of q (blk 1 q) p <> 0 ->
    line_start size_of (blk 1 q) (hd 0 (slines q (blk 1 q) p)) = off q /\ ssize size_of q (blk 1 q) p = sz q.
  Proof.
    intros Hq Hp Z. assert (H0 : 0 < K) by lia. destruct (gsend 0 q p H0 Hq Hp Z) as (Np & a & k & E1 & E2 & E3 & E4 & _). cbv beta in *.
    destruct (S1 q p Hq Hp Np) as [E|E]; rewrite E1 in E; [discriminate|].
    destruct k; [|discriminate]. injection E as ->. split; [exact E4|]. rewrite E3, Nat.add_1_r, off_S. lia.
  Qed.

  (* ---------- the requests ---------- *)
  Lemma LG_recvs m q : m < K -> recvs_of (LG m q) = map (fun t => Request (mpeer t) (Recvbuf, mplace t) (msize t)) (ins (ex (S m) q)).
  Proof.
    intros Hm. unfold LG. apply Nat.ltb_lt in Hm. rewrite Hm, recvs_app.
    replace (recvs_of (if m =? 0 then _ else _)) with (@nil request).
    - rewrite app_nil_r. induction (ins (ex (S m) q)) as [|t ts IH]; [reflexivity|]. cbn [map]. rewrite <- IH. reflexivity.
    - symmetry. apply flat_map_none. intros i I. destruct (m =? 0).
      + apply in_app_or in I. destruct I as [I|[<-|[]]]; [|reflexivity]. apply in_map_iff in I. destruct I as (u & <- & _). reflexivity.
      + apply in_map_iff in I. destruct I as (u & <- & _). reflexivity.
  Qed.
  Lemma LG_sends m q : m < K -> sends_of (LG m q) =
    map (fun u => Request (mpeer (fst u)) (if m =? 0 then (Sendbuf, 0) else (Recvbuf, mplace (fst u))) (msize (fst u))) (outs (ex (S m) q)).
  Proof.
    intros Hm. unfold LG. apply Nat.ltb_lt in Hm. rewrite Hm, sends_app.
    replace (sends_of (map user_in _)) with (@nil request).
    2: { symmetry. apply flat_map_none. intros i I. apply in_map_iff in I. destruct I as (u & <- & _). reflexivity. }
    cbn [app]. destruct m as [|m]; cbn [Nat.eqb].
    - rewrite sends_app. cbn [own_copy sends_of flat_map app]. rewrite app_nil_r. induction (outs (ex 1 q)) as [|t ts IH]; [reflexivity|]. cbn [map]. rewrite <- IH. reflexivity.
    - induction (outs (ex (S (S m)) q)) as [|t ts IH]; [reflexivity|]. cbn [map]. rewrite <- IH. reflexivity.
  Qed.
  Lemma in_grecv m q r : m < K -> q < N -> (In r (recvs_of (LG m q)) <-> exists p, p < N /\ recv_size size_of q (blk (S m) q) p <> 0 /\
    r = Request p (Recvbuf, first_start size_of q (blk (S m) q) p (seq 0 (num_lines (blk (S m) q))) 0) (recv_size size_of q (blk (S m) q) p)).
  Proof.
    intros Hm Hq. rewrite LG_recvs, in_map_iff by auto. split.
    - intros (t & <- & I). apply in_ins in I; auto. destruct I as (p & Hp & Z & ->). exists p. auto.
    - intros (p & Hp & Z & ->). eexists. split; [|apply in_ins; auto; exists p; split; [exact Hp|]; split; [exact Z|reflexivity]]. reflexivity.
  Qed.
  Lemma in_gsend m q r : m < K -> q < N -> (In r (sends_of (LG m q)) <-> exists p, p < N /\ ssize size_of q (blk (S m) q) p <> 0 /\
    r = Request p (if m =? 0 then (Sendbuf, 0) else (Recvbuf, line_start size_of (blk (S m) q) (hd 0 (slines q (blk (S m) q) p)))) (ssize size_of q (blk (S m) q) p)).
  Proof.
    intros Hm Hq. rewrite LG_sends, in_map_iff by auto. split.
    - intros (t & <- & I). apply in_outs in I; auto. destruct I as (p & Hp & Z & ->). exists p. auto.
    - intros (p & Hp & Z & ->). eexists. split; [|apply in_outs; auto; exists p; split; [exact Hp|]; split; [exact Z|reflexivity]]. reflexivity.
  Qed.
  Lemma g_requests m q : m < K -> map user_in (ins (ex (S m) q)) = map (fun r => Irecv (place r) (len r) (peer r)) (recvs_of (LG m q)).
  Proof. intros Hm. rewrite LG_recvs, map_map by auto. reflexivity. Qed.

  Lemma g_race m p : m < K -> p < N -> NoDup (map peer (recvs_of (LG m p))) -> race_free (LG m p).
  Proof.
    intros Lt Hp ND. unfold LG. apply Nat.ltb_lt in Lt as Lt'. rewrite Lt', g_requests by auto. apply race_before; auto.
    - intros r r' a I I' Ha Ha'. apply in_grecv in I, I'; auto. destruct I as (s & Hs & Z & ->), I' as (s' & Hs' & Z' & ->).
      cbn [place len peer] in *. apply inside_spec in Ha, Ha'. cbn [fst snd] in *.
      apply (g_once m p s s' (snd a)); auto; unfold goes; lia.
    - intros r i a Ir Ii Ha. apply in_grecv in Ir; auto. destruct Ir as (s & Hs & Z & ->).
      cbn [place len peer] in *. apply inside_spec in Ha. cbn [fst snd] in *. destruct Ha as [Ea Ha].
      destruct (grecv m p s Lt Hp Hs Z) as (Ns & b & k & E1 & E2 & E3 & _). cbv beta in *. rewrite E2, E3 in Ha.
      destruct m as [|m]; cbn [Nat.eqb] in Ii.
      + apply in_app_or in Ii. destruct Ii as [Ii|[<-|[]]].
        * apply in_map_iff in Ii. destruct Ii as (u & <- & _). cbn [own_out reads writes]. split; [|reflexivity].
          destruct (inside _ _ _) eqn:X; [|reflexivity]. apply inside_spec in X. cbn in X. destruct X as [X _]. congruence.
        * cbn [own_copy reads writes]. split.
          -- destruct (inside _ _ _) eqn:X; [|reflexivity]. apply inside_spec in X. cbn in X. destruct X as [X _]. congruence.
          -- destruct (inside _ _ _) eqn:X; [|reflexivity]. apply inside_spec in X. cbn [fst snd] in X. exfalso.
             destruct (at_line size_of (fun n => n mod N) b k (snd a)) as (n & I & J); [lia|].
             assert (n = p) by (apply (one_line size_of (fun n => n mod N) n p (snd a) J); rewrite off_S; lia). subst n.
             apply (R1 p s Hp Hs Ns). cbv beta. rewrite E1. exact I.
      + assert (I2 : In i (map (fun r => Isend (place r) (len r) (peer r)) (sends_of (LG (S m) p)))).
        { rewrite LG_sends, map_map by auto. exact Ii. }
        apply in_map_iff in I2. destruct I2 as (r & <- & I2). apply in_gsend in I2; auto. destruct I2 as (v & Hv & Z' & ->). cbn [place len peer Nat.eqb reads writes]. split; [|reflexivity].
        destruct (gsend (S m) p v Lt Hp Hv Z') as (Nv & b' & k' & E1' & _ & E2' & E3' & _). cbv beta in *.
        rewrite E2', E3'. destruct (inside _ _ _) eqn:X; [|reflexivity]. apply inside_spec in X. cbn [fst snd] in X. exfalso.
        apply (g_apart (S m) p s v b k b' (S k') (snd a)); auto; lia.
    - destruct (m =? 0).
      + generalize (outs (ex 1 p)) as us. induction us as [|u us IH]; cbn [map app race_free]; [exact (conj I I)|]. split; [|exact IH].
        cbn [own_out]. apply Forall_app. split; apply Forall_forall.
        * intros i Ii a _. apply in_map_iff in Ii. destruct Ii as (y & <- & _). reflexivity.
        * intros i [<-|[]] a Ha. cbn [own_copy writes]. apply inside_spec in Ha. cbn in Ha. destruct (inside _ _ _) eqn:X; [|reflexivity].
          apply inside_spec in X. cbn in X. destruct X, Ha. congruence.
      + apply race_outs. intros; exact I.
  Qed.
  Lemma g_ok : phases_ok N K LG.
  Proof.
    assert (OK : phases_ok N K LP) by (apply ok; auto; lia).
    assert (ES : forall m p, m <= K -> p < N -> map pair_of (sends_of (LG m p)) = map pair_of (sends_of (LP m p))).
    { intros m p Hm Hp. destruct (Nat.eq_dec m K) as [->|Ne].
      - rewrite (last_send _ _ _ OK p Hp). unfold LG. rewrite Nat.ltb_irrefl. reflexivity.
      - assert (Hm' : m < K) by lia. rewrite L_sends, LG_sends, sends_pairs, map_map by (auto; lia). reflexivity. }
    assert (ER : forall m p, m <= K -> p < N -> map pair_of (recvs_of (LG m p)) = map pair_of (recvs_of (LP m p))).
    { intros m p Hm Hp. destruct (Nat.eq_dec m K) as [->|Ne].
      - rewrite (last_recv _ _ _ OK p Hp). unfold LG. rewrite Nat.ltb_irrefl. reflexivity.
      - assert (Hm' : m < K) by lia. rewrite L_recvs, LG_recvs, receives_pairs, map_map by (auto; lia). reflexivity. }
    apply (phases_transfer N K LP); auto.
    - intros m p Hm Hp I. unfold LG in I. destruct (m <? K); [|destruct I]. apply in_app_or in I. destruct I as [I|I].
      + apply in_map_iff in I. destruct I as (? & I & _). discriminate.
      + destruct (m =? 0).
        * apply in_app_or in I. destruct I as [I|[I|[]]]; [|discriminate]. apply in_map_iff in I. destruct I as (? & I & _). discriminate.
        * apply in_map_iff in I. destruct I as (? & I & _). discriminate.
    - intros m p Hm Hp. destruct (Nat.eq_dec m K) as [->|Ne].
      + unfold LG. rewrite Nat.ltb_irrefl. exact I.
      + apply g_race; auto; [lia|]. rewrite <- pairs_peer, ER, pairs_peer by auto. now apply (one_recv _ _ _ OK).
  Qed.

  (* ---------- the two runs, side by side ---------- *)
  Section Run.
    Context {V : Type} (op : V -> V -> V) (memP memF : nat -> @memory V).
    Definition AG (m q : nat) : @memory V := exec_list op (if m =? 0 then [own_copy q] else []) (memat op LG memF m q).
    Context (Start : forall q x, q < N -> x < T -> exec_list op (pre q) (memP q) (sm x) = AG 0 q (Recvbuf, x)).
    Local Notation AP := (amid N alg nb size_of pre post op memP).
    Lemma exec_LG m q : exec_list op (LG m q) (memat op LG memF m q) = AG m q.
    Proof.
      clear Start R1 S1 Qpost Qpre LAY WM NE HN.
      unfold LG at 1, AG. destruct (Nat.ltb_spec m K) as [Lt|Le].
      - rewrite exec_list_app, exec_none by reflexivity. destruct (m =? 0).
        + rewrite exec_list_app, exec_none by reflexivity. reflexivity.
        + rewrite exec_none by reflexivity. reflexivity.
      - destruct m; [lia|]. reflexivity.
    Qed.
    Lemma AG_own q j : q < N -> j < sz q -> AG 0 q (Recvbuf, off q + j) = AG 0 q (Sendbuf, j).
    Proof.
      intros Hq Hj. unfold AG. cbn [Nat.eqb exec_list fold_left own_copy exec_local].
      replace (inside _ _ _) with true by (symmetry; apply inside_spec; cbn [fst snd]; split; [reflexivity|lia]).
      replace (inside _ _ _) with false by (symmetry; apply not_true_is_false; intros X; apply inside_spec in X; cbn in X; destruct X; discriminate).
      cbn [snd]. unfold at_off. cbn [fst snd]. do 2 f_equal. lia.
    Qed.
    Lemma g_received m q x : m < K -> q < N -> x < T -> (forall p y, p < N -> y < T -> AP m p (sm y) = AG m p (Recvbuf, y)) ->
      exec_list op (unpacks size_of N q (blk (S m) q) (seq 0 N) 1) (memat op LP memP (S m) q) (sm x) = memat op LG memF (S m) q (Recvbuf, x).
    Proof.
      intros Hm Hq Hx IH. assert (OKF := g_ok).
      assert (NS : no_self q (blk (S m) q)) by (apply g_self; auto).
      assert (ALL : forall p, p < N -> In p (map (from_node N q) (seq 0 N))) by (apply from_all; auto).
      assert (ONLY : forall p, In p (map (from_node N q) (seq 0 N)) -> p < N).
      { intros p I. apply in_map_iff in I. destruct I as (o & <- & I). apply in_seq in I. apply from_node_lt; auto. lia. }
      change (memat op LG memF (S m) q) with (arrive_all (recvs_of (LG m q)) (payload op LG memF m q) (exec_list op (LG m q) (memat op LG memF m q))).
      rewrite exec_LG.
      destruct (target_dec size_of q (blk (S m) q) x (map (from_node N q) (seq 0 N))) as [(p & Ip & G)|Miss].
      - assert (Hp := ONLY p Ip). set (f := first_start size_of q (blk (S m) q) p (seq 0 (num_lines (blk (S m) q))) 0) in *.
        assert (Z : recv_size size_of q (blk (S m) q) p <> 0) by (unfold goes in G; cbv beta in *; lia).
        destruct (receives_all size_of N q (blk (S m) q) (seq 0 N) 1 p Ip Z) as (r & Ir & Er & El).
        assert (Gx : f <= x < f + len r) by (rewrite El; exact G).
        replace x with (f + (x - f)) at 1 by lia. unfold f at 1. rewrite <- Er. unfold sm. rewrite (unpacks_hit op size_of N q (blk (S m) q) NS); auto; try lia.
        2: apply from_nodup; auto.
        2: { intros p1 p2 y G1 G2 I1 I2. apply (g_once m q p1 p2 y); auto. }
        rewrite (arrived N alg nb size_of pre post ltac:(lia) WM Qpre Qpost op memP); auto; try lia.
        2: rewrite L_recvs; auto; lia.
        rewrite Er. unfold content.
        destruct (grecv m q p Hm Hq Hp Z) as (Npq & a & k & E1 & E2 & E3 & U & P). cbv beta in *. fold f in E3.
        set (r' := Request p (Recvbuf, f) (recv_size size_of q (blk (S m) q) p)).
        assert (Ir' : In r' (recvs_of (LG m q))) by (apply in_grecv; auto; exists p; auto).
        rewrite (arrive_in op (recvs_of (LG m q)) _ (Recvbuf, x) r') with (d := memP 0 (Sendbuf, 0)); auto.
        2: { apply race_apart; [apply (no_race _ _ _ OKF)|apply (one_recv _ _ _ OKF)]; auto; lia. }
        2: { apply (fits_all op N K LG memF OKF m q); auto; lia. }
        2: { apply inside_spec. cbn [place len r' fst snd]. split; [reflexivity|]. cbv beta in *. lia. }
        destruct (recv_match _ _ _ OKF m q r' ltac:(lia) Hq Ir') as (_ & s & Is & Es & Eq). cbn [peer len r'] in *.
        unfold payload. rewrite <- Es. rewrite (send_to_in N K LG OKF m p s); auto; [|lia]. rewrite exec_LG.
        apply in_gsend in Is; auto. destruct Is as (v & Hv & Zs & ->). cbn [peer place len] in *. subst v.
        destruct (gsend m p q Hm Hp Hq Zs) as (_ & a' & k' & F1 & F1' & F2 & F3 & U' & P'). cbv beta in *. rewrite F1, pieces_read.
        assert (F3' := F3). rewrite F1' in F3'. cbn [seq hd] in F3'. rewrite F3'.
        replace (sum _) with (ssize size_of p (blk (S m) p) q) by (unfold ssize; now rewrite F1').
        cbn [r' place snd]. rewrite !read_mem_nth by (cbv beta in *; lia).
        change (at_off (Shm 0, off a') (x - f)) with (sm (off a' + (x - f))). rewrite IH by (auto; cbv beta in *; lia).
        destruct m as [|m]; cbn [Nat.eqb].
        + destruct (g_own p q Hp Hq Zs) as [O1 O2]. cbv beta in *. rewrite F3 in O1. rewrite O1. change (at_off (Sendbuf, 0) (x - f)) with (@pair buffer nat Sendbuf (x - f)).
          apply AG_own; auto. lia.
        + rewrite F3. reflexivity.
      - rewrite unpacks_miss; auto.
        2: { intros o Io G. apply (Miss (from_node N q o)); auto. now apply in_map. }
        rewrite (keep N alg nb size_of pre post ltac:(lia) WM Qpre Qpost op memP); auto.
        2: { intros k Hk E. cbn in E. injection E. lia. }
        change (Shm 0, x) with (sm x). rewrite IH by auto. symmetry. apply arrive_out.
        intros r Ir. rewrite (fits_all op N K LG memF OKF m q (recvs_of (LG m q))); auto; [|lia].
        apply in_grecv in Ir; auto. destruct Ir as (p & Hp & Z & ->). cbn [place len].
        destruct (inside _ _ _) eqn:X; [|reflexivity]. exfalso. apply inside_spec in X. cbn [fst snd] in X.
        apply (Miss p); auto. unfold goes. tauto.
    Qed.
    Lemma g_sim m : m <= K -> forall q x, q < N -> x < T -> AP m q (sm x) = AG m q (Recvbuf, x).
    Proof.
      induction m as [|m IH]; intros Hm q x Hq Hx.
      - rewrite <- Start by auto. reflexivity.
      - unfold amid, front. cbn [Nat.eqb]. unfold after_code. rewrite g_nocopy, g_nored, app_nil_r by (auto; lia). cbv beta in *.
        change (exec_list op (Barrier :: ?l) ?mm) with (exec_list op l mm). rewrite exec_list_app.
        change (exec_list op (Barrier :: ?l) ?mm) with (exec_list op l mm).
        cbn [exec_list fold_left]. change (fold_left (fun m i => exec_local op i m) ?l ?mm) with (exec_list op l mm).
        rewrite g_received; auto; try lia. intros p z Hp Hz. apply IH; auto. lia.
    Qed.
    Lemma g_frame m q a : m <= K -> q < N -> (fst a = Recvbuf -> T <= snd a) -> AG m q a = memF q a.
    Proof.
      intros Hm Hq Ha. assert (OKF := g_ok).
      induction m as [|m IH].
      - unfold AG. cbn [Nat.eqb memat]. apply exec_list_other. constructor; [|constructor]. cbn [own_copy writes].
        destruct (inside _ _ _) eqn:X; [|reflexivity]. exfalso. apply inside_spec in X. cbn [fst snd] in X. specialize (Ha ltac:(symmetry; tauto)).
        pose proof (off_lt size_of (fun n => n mod N) q N Hq). unfold whole in Ha. lia.
      - unfold AG. cbn [Nat.eqb exec_list fold_left].
        change (memat op LG memF (S m) q) with (arrive_all (recvs_of (LG m q)) (payload op LG memF m q) (exec_list op (LG m q) (memat op LG memF m q))).
        rewrite exec_LG, <- IH by lia. apply arrive_out. intros r Ir.
        rewrite (fits_all op N K LG memF OKF m q (recvs_of (LG m q))); auto; [|lia].
        assert (Hm' : m < K) by lia.
        apply in_grecv in Ir; auto. destruct Ir as (p & Hp & Z & ->). cbn [place len].
        destruct (inside _ _ _) eqn:X; [|reflexivity]. exfalso. apply inside_spec in X. cbn [fst snd] in X. specialize (Ha ltac:(symmetry; tauto)).
        destruct (grecv m q p Hm' Hq Hp Z) as (Npq & b & k & E1 & E2 & E3 & U & P). cbv beta in *. lia.
    Qed.
  End Run.
End Sim.
