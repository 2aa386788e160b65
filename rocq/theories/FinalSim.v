(* The final code does the same as the generated code, with the places renamed. *)
From Verif Require Import Base SchedModel SchedSpec RawModel MsgProofs PhaseProofs RawCode RawStage RawProofs FinalModel FinalSpec FinalPass FinalMerge FinalShape FinalRename FinalBlock.
Local Ltac Zify.zify_post_hook ::= idtac.

Definition pair_of (r : request) : nat * nat := (peer r, len r).
Lemma pairs_peer rs : map fst (map pair_of rs) = map peer rs.
Proof. rewrite map_map. reflexivity. Qed.
Lemma pairs_in rs rs' r : map pair_of rs = map pair_of rs' -> In r rs -> exists r', In r' rs' /\ peer r' = peer r /\ len r' = len r.
Proof.
  intros E I. apply (in_map pair_of) in I. rewrite E in I. apply in_map_iff in I. destruct I as (r' & X & I). exists r'.
  unfold pair_of in X. injection X. auto.
Qed.
(* only the partners and sizes of the messages matter for the order of events *)
Lemma phases_transfer N K L L' : phases_ok N K L ->
  (forall m p, m <= K -> p < N -> map pair_of (sends_of (L' m p)) = map pair_of (sends_of (L m p))) ->
  (forall m p, m <= K -> p < N -> map pair_of (recvs_of (L' m p)) = map pair_of (recvs_of (L m p))) ->
  (forall m p, m <= K -> p < N -> ~ In Waitall (L' m p)) ->
  (forall m p, m <= K -> p < N -> race_free (L' m p)) -> phases_ok N K L'.
Proof.
  intros OK ES ER NW NR. constructor; auto.
  - intros m p Hm Hp. rewrite <- pairs_peer, ES, pairs_peer by auto. now apply (one_send _ _ _ OK).
  - intros m p Hm Hp. rewrite <- pairs_peer, ER, pairs_peer by auto. now apply (one_recv _ _ _ OK).
  - intros m p r Hm Hp I. destruct (pairs_in _ _ _ (ES m p Hm Hp) I) as (r1 & I1 & E1 & E2).
    destruct (send_match _ _ _ OK m p r1 Hm Hp I1) as (HP & r2 & I2 & E3 & E4). rewrite E1 in *. split; auto.
    destruct (pairs_in _ _ _ (eq_sym (ER m (peer r) Hm HP)) I2) as (r3 & I3 & E5 & E6). exists r3. repeat split; auto; congruence.
  - intros m p r Hm Hp I. destruct (pairs_in _ _ _ (ER m p Hm Hp) I) as (r1 & I1 & E1 & E2).
    destruct (recv_match _ _ _ OK m p r1 Hm Hp I1) as (HP & r2 & I2 & E3 & E4). rewrite E1 in *. split; auto.
    destruct (pairs_in _ _ _ (eq_sym (ES m (peer r) Hm HP)) I2) as (r3 & I3 & E5 & E6). exists r3. repeat split; auto; congruence.
  - intros p Hp. pose proof (ES K p (le_n _) Hp) as E. rewrite (last_send _ _ _ OK p Hp) in E. now apply map_eq_nil in E.
  - intros p Hp. pose proof (ER K p (le_n _) Hp) as E. rewrite (last_recv _ _ _ OK p Hp) in E. now apply map_eq_nil in E.
Qed.

Lemma receives_pairs size_of N q b os : forall c,
  map pair_of (recvs_of (receives size_of N q b os c)) = map (fun t => (mpeer t, msize t)) (flat_map (in_of size_of N q b) os).
Proof.
  induction os as [|o os IH]; intros c; [reflexivity|]. cbn [receives flat_map]. unfold in_of at 1.
  destruct (_ =? 0); [apply IH|]. cbn [recvs_of flat_map app map]. fold (recvs_of (receives size_of N q b os (S c))). now rewrite IH.
Qed.
Lemma pieces_sends size_of b c ns : forall add, sends_of (pieces size_of b c add ns) = [].
Proof.
  induction ns as [|n ns IH]; intros add; [reflexivity|]. cbn [pieces]. rewrite sends_app, IH. now destruct (_ =? 0).
Qed.
Lemma sends_pairs size_of N q b os : forall c,
  map pair_of (sends_of (sends size_of N q b os c)) = map (fun u => (mpeer (fst u), msize (fst u))) (flat_map (out_of size_of N q b) os).
Proof.
  induction os as [|o os IH]; intros c; [reflexivity|]. cbn [sends flat_map]. rewrite pack_lines_eq. unfold out_of at 1.
  change (0 + sum (map (line_size size_of b) (slines_in q b (to_node N q o) (seq 0 (num_lines b))))) with (ssize size_of q b (to_node N q o)).
  rewrite sends_app, pieces_sends. cbn [app]. destruct (_ =? 0); [apply IH|].
  cbn [sends_of flat_map app map]. fold (sends_of (sends size_of N q b os (S c))). now rewrite IH.
Qed.

Lemma use_ins T big ts : use T big (map direct_in ts) = map (fun t => Irecv (user_place T big (sm (mplace t)) (msize t)) (msize t) (mpeer t)) ts.
Proof. induction ts as [|t ts IH]; [reflexivity|]. cbn [map]. rewrite <- IH. reflexivity. Qed.
Lemma use_outs T big us : use T big (map direct_out us) =
  map (fun u => Isend (user_place T big (sm (mplace (fst u))) (msize (fst u))) (msize (fst u)) (mpeer (fst u))) us.
Proof. induction us as [|u us IH]; [reflexivity|]. cbn [map]. rewrite <- IH. reflexivity. Qed.

Lemma in_ins size_of N q b t : q < N -> (In t (flat_map (in_of size_of N q b) (seq 0 N)) <->
  exists p, p < N /\ recv_size size_of q b p <> 0 /\ t = Msg p (recv_size size_of q b p) (first_start size_of q b p (seq 0 (num_lines b)) 0)).
Proof.
  intros Hq. rewrite in_flat_map. split.
  - intros (o & Io & I). apply in_seq in Io. unfold in_of in I. destruct (Nat.eqb_spec (recv_size size_of q b (from_node N q o)) 0) as [Z|Z]; [destruct I|].
    destruct I as [<-|[]]. exists (from_node N q o). split; auto. apply from_node_lt; auto. lia.
  - intros (p & Hp & Z & ->). pose proof (from_all N q Hq p Hp) as I. apply in_map_iff in I. destruct I as (o & <- & I).
    exists o. split; [exact I|]. unfold in_of. apply Nat.eqb_neq in Z. rewrite Z. now left.
Qed.
Lemma in_outs size_of N q b u : q < N -> (In u (flat_map (out_of size_of N q b) (seq 0 N)) <->
  exists p, p < N /\ ssize size_of q b p <> 0 /\
    u = (Msg p (ssize size_of q b p) (line_start size_of b (hd 0 (slines q b p))), filter (fun n => negb (n =? 0)) (map (line_size size_of b) (slines q b p)))).
Proof.
  intros Hq. rewrite in_flat_map. split.
  - intros (o & Io & I). apply in_seq in Io. unfold out_of in I. destruct (Nat.eqb_spec (ssize size_of q b (to_node N q o)) 0) as [Z|Z]; [destruct I|].
    destruct I as [<-|[]]. exists (to_node N q o). split; auto. apply to_node_lt; auto. lia.
  - intros (p & Hp & Z & ->). pose proof (to_all N q Hq p Hp) as I. apply in_map_iff in I. destruct I as (o & <- & I).
    exists o. split; [exact I|]. unfold out_of. apply Nat.eqb_neq in Z. rewrite Z. now left.
Qed.

(* ---------- copying out of the message buffers ---------- *)
Section Unpack.
  Context {V : Type} (op : V -> V -> V) (size_of : nat -> nat) (N q : nat) (b : block) (NS : no_self q b).
  Notation memory := (@memory V).
  Local Notation rsize := (recv_size size_of q b).
  Local Notation fstart p := (first_start size_of q b p (seq 0 (num_lines b)) 0).
  Local Notation fromn := (from_node N q).
  Definition goes (p x : nat) : Prop := fstart p <= x < fstart p + rsize p.
  Lemma unpacks_cons o os c : unpacks size_of N q b (o :: os) c =
    if rsize (fromn o) =? 0 then unpacks size_of N q b os c
    else Memcpy (Shm 0, fstart (fromn o)) (Shm c, 0) (rsize (fromn o)) :: unpacks size_of N q b os (S c).
  Proof. rewrite !unpacks_eq by exact NS. reflexivity. Qed.
  Lemma unpacks_miss os x : forall c (m : memory), (forall o, In o os -> ~ goes (fromn o) x) ->
    exec_list op (unpacks size_of N q b os c) m (Shm 0, x) = m (Shm 0, x).
  Proof.
    induction os as [|o os IH]; intros c m H; [reflexivity|]. rewrite unpacks_cons. destruct (_ =? 0).
    - apply IH. intros; apply H; now right.
    - cbn [exec_list fold_left]. change (fold_left _ ?l ?mm) with (exec_list op l mm). rewrite IH by (intros; apply H; now right).
      cbn [exec_local]. destruct (inside _ _ _) eqn:I; [|reflexivity]. exfalso. apply inside_spec in I. cbn [fst snd] in I.
      apply (H o); [now left|]. unfold goes. lia.
  Qed.
  Lemma unpacks_hit os : NoDup (map fromn os) -> (forall p p' x, goes p x -> goes p' x -> In p (map fromn os) -> In p' (map fromn os) -> p = p') ->
    forall c (m : memory) r j, 1 <= c -> In r (recvs_of (receives size_of N q b os c)) -> j < len r ->
    exec_list op (unpacks size_of N q b os c) m (Shm 0, fstart (peer r) + j) = m (at_off (place r) j).
  Proof.
    induction os as [|o os IH]; intros ND D c m r j Hc I Hj; [destruct I|]. cbn [map] in ND, D. inversion ND as [|? ? NI ND']; subst.
    rewrite unpacks_cons. cbn [receives] in I. destruct (_ =? 0).
    - apply IH; auto. intros p p' x G G' J J'. apply (D p p' x); auto; now right.
    - cbn [exec_list fold_left]. change (fold_left _ ?l ?mm) with (exec_list op l mm).
      change (recvs_of (?i :: ?l)) with ((match i with Irecv d n q => [Request q d n] | _ => [] end) ++ recvs_of l) in I. cbn [app] in I.
      destruct I as [<-|I].
      + cbn [peer place len] in *. rewrite unpacks_miss.
        * cbn [exec_local]. replace (inside _ _ _) with true by (symmetry; apply inside_spec; cbn [fst snd]; split; [reflexivity|lia]).
          cbn [snd]. do 2 f_equal. lia.
        * intros o' Io G. apply NI. rewrite (D (fromn o) (fromn o') (fstart (fromn o) + j)); auto; [now apply in_map|unfold goes; lia|now left|right; now apply in_map].
      + rewrite IH; auto.
        * apply in_recvs, receives_in in I. destruct I as (c' & E & Hc' & _). rewrite E. cbn [exec_local].
          destruct (inside _ _ _) eqn:X; [|reflexivity]. exfalso. apply inside_spec in X. cbn in X. destruct X as [X _]. injection X. lia.
        * intros p p' x G G' J J'. apply (D p p' x); auto; now right.
  Qed.
  Lemma receives_all os : forall c p, In p (map fromn os) -> rsize p <> 0 ->
    exists r, In r (recvs_of (receives size_of N q b os c)) /\ peer r = p /\ len r = rsize p.
  Proof.
    induction os as [|o os IH]; intros c p I Z; [destruct I|]. cbn [receives map] in *. destruct I as [<-|I].
    - apply Nat.eqb_neq in Z. rewrite Z. eexists. split; [left; reflexivity|]. auto.
    - destruct (_ =? 0); [now apply IH|]. destruct (IH (S c) p I Z) as (r & Ir & E). exists r. split; [right; exact Ir|exact E].
  Qed.
End Unpack.

(* consecutive lines, read as a whole *)
Lemma seq_plus n k : forall s, seq (n + s) k = map (Nat.add n) (seq s k).
Proof. induction k as [|k IH]; intros s; cbn [seq map]; [reflexivity|]. f_equal. rewrite <- IH. f_equal. lia. Qed.
Lemma read_mem_app {V} (m : @memory V) l n n' : read_mem m l (n + n') = read_mem m l n ++ read_mem m (at_off l n) n'.
Proof.
  unfold read_mem. rewrite seq_app, map_app. f_equal. rewrite Nat.add_0_l. rewrite <- (Nat.add_0_r n) at 1. rewrite seq_plus, map_map.
  apply map_ext. intros i. unfold at_off. cbn [fst snd]. do 2 f_equal. lia.
Qed.
Lemma pieces_read {V} size_of b (m : @memory V) k : forall a,
  flat_map (piece size_of b m) (seq a k) = read_mem m (Shm 0, line_start size_of b a) (sum (map (line_size size_of b) (seq a k))).
Proof.
  induction k as [|k IH]; intros a; [reflexivity|]. cbn [seq flat_map map sum]. rewrite IH, lstart_S, read_mem_app. reflexivity.
Qed.

Section Sim.
  Context (N : nat) (alg : nat -> list block) (nb : nat) (size_of : nat -> nat) (pre post : nat -> list instr).
  Context (w0 wk : nat -> nat) (big : bool).
  Local Notation blk m := (fun q => nth m (alg q) empty_block).
  Context (HN : 0 < N) (Hb : 1 <= nb).
  Context (Hw : forall q, q < N -> w0 q + wk q <= N) (Hbig : big = true -> forall q, q < N -> w0 q = 0) (Hsmall : big = false -> forall q, q < N -> wk q <= 1).
  Context (TD : forall m, 1 <= m < nb -> tidy N w0 wk (blk m)) (WM : forall m, 1 <= m < nb -> well_matched N (blk m)).
  Context (LAY : forall m q n, 1 <= m < nb -> q < N -> n < num_lines (blk m q) -> frac (lines (blk m q) n) = n mod N).
  Context (Qpre : forall q, q < N -> forallb quiet (pre q) = true) (Qpost : forall q, q < N -> forallb quiet (post q) = true).
  Local Notation K := (nb - 1).
  Local Notation off := (off size_of (fun n => n mod N)).
  Local Notation T := (whole N size_of).
  Local Notation us q := (usable T (lo N size_of (w0 q)) (hi N size_of (w0 q) (wk q)) big).
  Local Notation rn q := (ren T (lo N size_of (w0 q)) (hi N size_of (w0 q) (wk q))).
  Local Notation LP := (L N alg nb size_of pre post).
  Local Notation ex m q := (exch_of size_of N q (nth m (alg q) empty_block)).

  Definition front_f (m q : nat) : list instr := if m =? 0 then [] else use T big (merge (reds (ex m q))).
  Definition LF (m q : nat) : list instr :=
    front_f m q ++ (if m <? K then use T big (map direct_in (ins (ex (S m) q))) ++ use T big (map direct_out (outs (ex (S m) q))) else []).

  (* the facts about one block *)
  Lemma w_ok q : q < N -> window_ok T (lo N size_of (w0 q)) (hi N size_of (w0 q) (wk q)) big.
  Proof. intros Hq. apply win; auto. Qed.
  Lemma rfacts m q p : m < K -> q < N -> p < N -> recv_size size_of q (blk (S m) q) p <> 0 ->
    p <> q /\ exists a k, recv_lines (blk (S m)) q p = seq a k /\ recv_size size_of q (blk (S m) q) p = off (a + k) - off a /\
      first_start size_of q (blk (S m) q) p (seq 0 (num_lines (blk (S m) q))) 0 = off a /\ us q (off a) (off (a + k) - off a) /\ off a < off (a + k) /\
      a + k <= num_lines (blk (S m) q).
  Proof.
    intros Hm. apply (recv_facts N size_of HN w0 wk big (blk (S m)) Hw Hbig Hsmall (TD (S m) ltac:(lia))).
    intros q' n. apply LAY. lia.
  Qed.
  Lemma sfacts m q p : m < K -> q < N -> p < N -> ssize size_of q (blk (S m) q) p <> 0 ->
    p <> q /\ exists a k, sent_lines (blk (S m)) q p = seq a k /\ slines q (blk (S m) q) p = seq a k /\ ssize size_of q (blk (S m) q) p = off (a + k) - off a /\
      line_start size_of (blk (S m) q) (hd 0 (slines q (blk (S m) q) p)) = off a /\ us q (off a) (off (a + k) - off a) /\ off a < off (a + k) /\
      a + k <= num_lines (blk (S m) q).
  Proof.
    intros Hm. apply (send_facts N size_of HN w0 wk big (blk (S m)) Hw Hbig Hsmall (TD (S m) ltac:(lia))).
    intros q' n. apply LAY. lia.
  Qed.
  (* different messages, different places *)
  Lemma off_between a k x : off a <= x < off (a + k) -> exists n, In n (seq a k) /\ off n <= x < off (S n).
  Proof.
    induction k as [|k IH]; intros H; [rewrite Nat.add_0_r in H; lia|].
    destruct (le_lt_dec (off (a + k)) x) as [Le|Lt].
    - exists (a + k). split; [apply in_seq; lia|]. rewrite Nat.add_succ_r in H. lia.
    - destruct IH as (n & I & E); [lia|]. exists n. split; [apply in_seq in I; apply in_seq; lia|exact E].
  Qed.
  Lemma off_same n n' x : off n <= x < off (S n) -> off n' <= x < off (S n') -> n = n'.
  Proof.
    intros H H'. destruct (lt_eq_lt_dec n n') as [[Lt|]|Gt]; auto; exfalso.
    - pose proof (off_le size_of (fun n => n mod N) (S n) n' Lt). lia.
    - pose proof (off_le size_of (fun n => n mod N) (S n') n Gt). lia.
  Qed.
  Lemma recv_once m q p p' x : m < K -> q < N -> p < N -> p' < N ->
    goes size_of q (blk (S m) q) p x -> goes size_of q (blk (S m) q) p' x -> p = p'.
  Proof.
    intros Hm Hq Hp Hp' G G'. unfold goes in *.
    destruct (rfacts m q p Hm Hq Hp ltac:(cbv beta; lia)) as (N1 & a & k & E1 & E2 & E3 & _ & P1 & _).
    destruct (rfacts m q p' Hm Hq Hp' ltac:(cbv beta; lia)) as (N2 & a' & k' & E1' & E2' & E3' & _ & P2 & _).
    cbv beta in *. rewrite E2, E3 in G. rewrite E2', E3' in G'.
    destruct (off_between a k x) as (n & I & J); [lia|]. destruct (off_between a' k' x) as (n' & I' & J'); [lia|].
    assert (n' = n) by (eapply off_same; eauto). subst n'.
    apply (td_once _ _ _ _ (TD (S m) ltac:(lia)) q p p' n); auto; cbv beta; [rewrite E1|rewrite E1']; auto.
  Qed.
  Lemma recv_send_apart m q p p' a k a' k' x : m < K -> q < N -> p < N -> p' < N -> p <> q -> p' <> q ->
    recv_lines (blk (S m)) q p = seq a k -> sent_lines (blk (S m)) q p' = seq a' k' -> off a <= x < off (a + k) -> off a' <= x < off (a' + k') -> False.
  Proof.
    intros Hm Hq Hp Hp' N1 N2 E1 E2 H H'.
    destruct (off_between a k x H) as (n & I & J). destruct (off_between a' k' x H') as (n' & I' & J').
    assert (n' = n) by (eapply off_same; eauto). subst n'.
    apply (td_apart _ _ _ _ (TD (S m) ltac:(lia)) q p p' n); auto; [rewrite E1|rewrite E2]; auto.
  Qed.

  (* ---------- the requests of the final code ---------- *)
  Lemma front_quiet_f m q : 1 <= m <= K -> q < N -> Forall (fun i => match i with Reduce_ _ _ _ => True | _ => False end) (front_f m q) /\
    forall {V} (op : V -> V -> V) (mp mf : @memory V), (forall x, mp (sm x) = mf (rn q x)) ->
      forall x, exec_list op (reduces size_of (blk m q)) mp (sm x) = exec_list op (front_f m q) mf (rn q x).
  Proof.
    intros Hm Hq. unfold front_f. destruct m as [|m]; [lia|]. cbn [Nat.eqb reds exch_of].
    destruct (reduces_ascending N size_of HN w0 wk big (blk (S m)) Hw Hbig Hsmall (TD (S m) ltac:(lia)) (WM (S m) ltac:(lia)) (fun q' n => LAY (S m) q' n ltac:(lia)) q Hq) as (c & ts & C & E & A).
    cbv beta in *. rewrite E.
    split.
    - destruct (merge_red T _ _ big (w_ok q Hq) (fun _ _ : nat => 0) c (length ts) ts 0 (le_n _) A) as (ts' & -> & A' & _).
      apply (use_reds _ _ _ big (w_ok q Hq)). eapply ascending_usable. exact A'.
    - intros V op mp mf H x. destruct (merge_red T _ _ big (w_ok q Hq) op c (length ts) ts 0 (le_n _) A) as (ts' & -> & A' & X).
      rewrite <- X. apply (ren_exec _ _ _ big (w_ok q Hq)); auto. eapply ascending_usable. exact A'.
  Qed.
  Lemma front_dest m q i : 1 <= m <= K -> q < N -> In i (front_f m q) -> exists x l n, i = Reduce_ (rn q x) l n /\ us q x n /\ T <= x.
  Proof.
    intros Hm Hq. unfold front_f. destruct m as [|m]; [lia|]. cbn [Nat.eqb reds exch_of].
    destruct (reduces_ascending N size_of HN w0 wk big (blk (S m)) Hw Hbig Hsmall (TD (S m) ltac:(lia)) (WM (S m) ltac:(lia)) (fun q' n => LAY (S m) q' n ltac:(lia)) q Hq) as (c & ts & C & E & A).
    cbv beta in *. rewrite E.
    destruct (merge_red T _ _ big (w_ok q Hq) (fun _ _ : nat => 0) c (length ts) ts 0 (le_n _) A) as (ts' & -> & A' & _).
    clear - A' C Hq Hw Hbig Hsmall HN. revert A'. generalize 0 as j0. induction ts' as [|t ts IH]; intros j0 A I; [destruct I|].
    cbn [map] in I. change (red_line T c t :: ?l) with ([red_line T c t] ++ l) in I. rewrite use_app in I. apply in_app_or in I.
    cbn [ascending] in A. destruct A as (_ & (_ & _ & U1 & U2) & A). destruct I as [I|I]; [|eapply IH; eauto].
    unfold use, no_socket_barriers, red_line in I. cbn [filter use_sendbuf_recvbuf flat_map use_line is_shm fst andb app] in I.
    rewrite !(usable_place _ _ _ _ (w_ok q Hq)) in I by assumption. destruct I as [<-|[]].
    eexists _, _, _. split; [reflexivity|]. split; [exact U1|]. assert (1 * T <= c * T) by (apply Nat.mul_le_mono_r; exact C). lia.
  Qed.
  Lemma front_no m q i : m <= K -> q < N -> In i (front_f m q) -> match i with Reduce_ _ _ _ => True | _ => False end.
  Proof.
    intros Hm Hq I. destruct m as [|m]; [destruct I|]. destruct (front_quiet_f (S m) q) as [F _]; [lia|auto|].
    rewrite Forall_forall in F. exact (F i I).
  Qed.
  Lemma front_recvs m q : m <= K -> q < N -> recvs_of (front_f m q) = [] /\ sends_of (front_f m q) = [].
  Proof.
    intros Hm Hq. pose proof (front_no m q) as F. split; apply flat_map_none; intros i I; specialize (F i Hm Hq I); destruct i; auto; destruct F.
  Qed.
  Lemma LF_recvs m q : m < K -> q < N -> recvs_of (LF m q) =
    map (fun t => Request (mpeer t) (user_place T big (sm (mplace t)) (msize t)) (msize t)) (ins (ex (S m) q)).
  Proof.
    intros Hm Hq. unfold LF. apply Nat.ltb_lt in Hm as Hm'. rewrite Hm', !recvs_app. destruct (front_recvs m q) as [-> _]; [lia|auto|].
    rewrite use_ins, use_outs. cbn [app].
    replace (recvs_of (map _ (outs _))) with (@nil request).
    - rewrite app_nil_r. induction (ins (ex (S m) q)) as [|t ts IH]; [reflexivity|]. cbn [map]. rewrite <- IH. reflexivity.
    - symmetry. apply flat_map_none. intros i I. apply in_map_iff in I. destruct I as (u & <- & _). reflexivity.
  Qed.
  Lemma LF_sends m q : m < K -> q < N -> sends_of (LF m q) =
    map (fun u => Request (mpeer (fst u)) (user_place T big (sm (mplace (fst u))) (msize (fst u))) (msize (fst u))) (outs (ex (S m) q)).
  Proof.
    intros Hm Hq. unfold LF. apply Nat.ltb_lt in Hm as Hm'. rewrite Hm', !sends_app. destruct (front_recvs m q) as [_ ->]; [lia|auto|].
    rewrite use_ins, use_outs. cbn [app].
    replace (sends_of (map _ (ins _))) with (@nil request).
    - induction (outs (ex (S m) q)) as [|t ts IH]; [reflexivity|]. cbn [map]. rewrite <- IH. reflexivity.
    - symmetry. apply flat_map_none. intros i I. apply in_map_iff in I. destruct I as (u & <- & _). reflexivity.
  Qed.
  Lemma final_recv m q r : m < K -> q < N -> (In r (recvs_of (LF m q)) <-> exists p, p < N /\ recv_size size_of q (blk (S m) q) p <> 0 /\
    r = Request p (rn q (first_start size_of q (blk (S m) q) p (seq 0 (num_lines (blk (S m) q))) 0)) (recv_size size_of q (blk (S m) q) p)).
  Proof.
    intros Hm Hq. rewrite LF_recvs, in_map_iff by auto. split.
    - intros (t & <- & I). apply in_ins in I; auto. destruct I as (p & Hp & Z & ->). cbn [mplace msize mpeer]. exists p. split; [exact Hp|]. split; [exact Z|].
      destruct (rfacts m q p Hm Hq Hp Z) as (Np & a & k & E1 & E2 & E3 & U & P & _). cbv beta in *. rewrite E2, E3.
      now rewrite (usable_place _ _ _ _ (w_ok q Hq)) by exact U.
    - intros (p & Hp & Z & ->). eexists. split; [|apply in_ins; auto; exists p; split; [exact Hp|]; split; [exact Z|reflexivity]].
      cbn [mplace msize mpeer].
      destruct (rfacts m q p Hm Hq Hp Z) as (Np & a & k & E1 & E2 & E3 & U & P & _). cbv beta in *. rewrite E2, E3.
      now rewrite (usable_place _ _ _ _ (w_ok q Hq)) by exact U.
  Qed.
  Lemma final_send m q r : m < K -> q < N -> (In r (sends_of (LF m q)) <-> exists p, p < N /\ ssize size_of q (blk (S m) q) p <> 0 /\
    r = Request p (rn q (line_start size_of (blk (S m) q) (hd 0 (slines q (blk (S m) q) p)))) (ssize size_of q (blk (S m) q) p)).
  Proof.
    intros Hm Hq. rewrite LF_sends, in_map_iff by auto. split.
    - intros (t & <- & I). apply in_outs in I; auto. destruct I as (p & Hp & Z & ->). cbn [mplace msize mpeer fst]. exists p. split; [exact Hp|]. split; [exact Z|].
      destruct (sfacts m q p Hm Hq Hp Z) as (Np & a & k & E1 & _ & E2 & E3 & U & P & _). cbv beta in *. rewrite E2, E3.
      now rewrite (usable_place _ _ _ _ (w_ok q Hq)) by exact U.
    - intros (p & Hp & Z & ->). eexists. split; [|apply in_outs; auto; exists p; split; [exact Hp|]; split; [exact Z|reflexivity]].
      cbn [mplace msize mpeer fst].
      destruct (sfacts m q p Hm Hq Hp Z) as (Np & a & k & E1 & _ & E2 & E3 & U & P & _). cbv beta in *. rewrite E2, E3.
      now rewrite (usable_place _ _ _ _ (w_ok q Hq)) by exact U.
  Qed.

  Lemma race_mids l l' : (forall i, In i l -> match i with Irecv _ _ _ | Isend _ _ _ => False | _ => True end) -> race_free l' -> race_free (l ++ l').
  Proof.
    induction l as [|i l IH]; cbn [app]; intros H R; [exact R|]. cbn [race_free]. split; [|apply IH; auto; intros; apply H; now right].
    specialize (H i (or_introl eq_refl)). destruct i; auto; destruct H.
  Qed.
  Lemma race_sends {A} (f : A -> instr) l : (forall x, match f x with Isend _ _ _ => True | _ => False end) -> race_free (map f l).
  Proof.
    intros H. induction l as [|x l IH]; cbn [map race_free]; [exact I|]. split; [|exact IH]. specialize (H x) as Hx. destruct (f x); try (now destruct Hx).
    apply Forall_forall. intros i Ii a _. apply in_map_iff in Ii. destruct Ii as (y & <- & _). specialize (H y). destruct (f y); now destruct H.
  Qed.
  Lemma race_recvs rs l : NoDup (map peer rs) ->
    (forall r r' a, In r rs -> In r' rs -> inside (place r) (len r) a = true -> inside (place r') (len r') a = true -> peer r = peer r') ->
    (forall r s n p a, In r rs -> In (Isend s n p) l -> inside (place r) (len r) a = true -> inside s n a = false) ->
    (forall i, In i l -> match i with Isend _ _ _ => True | _ => False end) -> race_free l ->
    race_free (map (fun r => Irecv (place r) (len r) (peer r)) rs ++ l).
  Proof.
    induction rs as [|r rs IH]; intros ND D DS OS R; [exact R|]. cbn [map app race_free]. cbn [map] in ND. inversion ND as [|? ? NI ND']; subst. split.
    - apply Forall_app. split; apply Forall_forall; intros i I a Ha.
      + apply in_map_iff in I. destruct I as (r' & <- & I). cbn [reads writes]. split; [reflexivity|].
        destruct (inside (place r') (len r') a) eqn:X; [|reflexivity]. exfalso. apply NI. rewrite (D r r' a); auto; [now apply in_map|now left|now right].
      + specialize (OS i I). destruct i as [|s n p| | | |]; try (now destruct OS). cbn [reads writes]. split; [|reflexivity].
        apply (DS r s n p a); auto. now left.
    - apply IH; auto.
      + intros r1 r2 a I1 I2. apply D; now right.
      + intros r1 s n p a I1. apply DS. now right.
  Qed.
  Lemma map_requests_recv m q : m < K -> q < N -> use T big (map direct_in (ins (ex (S m) q))) =
    map (fun r => Irecv (place r) (len r) (peer r)) (recvs_of (LF m q)).
  Proof. intros Hm Hq. rewrite use_ins, LF_recvs, map_map by auto. reflexivity. Qed.

  Lemma final_ok : phases_ok N K LF.
  Proof.
    assert (OK : phases_ok N K LP) by (apply ok; auto).
    assert (ES : forall m p, m <= K -> p < N -> map pair_of (sends_of (LF m p)) = map pair_of (sends_of (LP m p))).
    { intros m p Hm Hp. destruct (Nat.eq_dec m K) as [->|Ne].
      - rewrite (last_send _ _ _ OK p Hp). unfold LF. rewrite Nat.ltb_irrefl, app_nil_r. destruct (front_recvs K p) as [_ ->]; auto.
      - assert (Hm' : m < K) by lia. rewrite L_sends, LF_sends, sends_pairs, map_map by auto. reflexivity. }
    assert (ER : forall m p, m <= K -> p < N -> map pair_of (recvs_of (LF m p)) = map pair_of (recvs_of (LP m p))).
    { intros m p Hm Hp. destruct (Nat.eq_dec m K) as [->|Ne].
      - rewrite (last_recv _ _ _ OK p Hp). unfold LF. rewrite Nat.ltb_irrefl, app_nil_r. destruct (front_recvs K p) as [-> _]; auto.
      - assert (Hm' : m < K) by lia. rewrite L_recvs, LF_recvs, receives_pairs, map_map by auto. reflexivity. }
    apply (phases_transfer N K LP); auto.
    - intros m p Hm Hp I. unfold LF in I. apply in_app_or in I. destruct I as [I|I]; [apply (front_no m p) in I; auto|].
      destruct (m <? K); [|destruct I]. rewrite use_ins, use_outs in I. apply in_app_or in I.
      destruct I as [I|I]; apply in_map_iff in I; destruct I as (? & I & _); discriminate.
    - intros m p Hm Hp. unfold LF. apply race_mids.
      { intros i I. apply (front_no m p) in I; auto. destruct i; auto. }
      destruct (Nat.ltb_spec m K) as [Lt|]; [|exact I]. rewrite map_requests_recv by auto.
      assert (WO := w_ok p Hp).
      apply race_recvs.
      + rewrite <- pairs_peer, ER, pairs_peer by auto. now apply (one_recv _ _ _ OK).
      + intros r r' a I I' Ha Ha'. apply final_recv in I, I'; auto. destruct I as (s & Hs & Z & ->), I' as (s' & Hs' & Z' & ->).
        cbn [place len peer] in *.
        destruct (rfacts m p s Lt Hp Hs Z) as (_ & b & k & _ & E2 & E3 & U & _). destruct (rfacts m p s' Lt Hp Hs' Z') as (_ & b' & k' & _ & E2' & E3' & U' & _).
        cbv beta in *. rewrite <- E2, <- E3 in U. rewrite <- E2', <- E3' in U'.
        apply (inside_ren_at _ _ _ big WO) in Ha; auto. apply (inside_ren_at _ _ _ big WO) in Ha'; auto. destruct Ha as (x & Hx & ->), Ha' as (x' & Hx' & E). apply ren_inj in E; auto. subst x'.
        apply (recv_once m p s s' x); auto.
      + intros r s n p' a I I' Ha. rewrite use_outs in I'.
        assert (I2 : In (Request p' s n) (sends_of (LF m p))).
        { rewrite LF_sends by auto. apply in_map_iff in I'. destruct I' as (u & E & I'). apply in_map_iff. exists u. split; auto. injection E. intros; subst. reflexivity. }
        apply final_recv in I; auto. apply final_send in I2; auto. destruct I as (u & Hu & Z & ->), I2 as (v & Hv & Z' & E). injection E as -> -> ->.
        cbn [place len peer] in *.
        destruct (rfacts m p u Lt Hp Hu Z) as (Nu & b & k & E1 & E2 & E3 & U & _). destruct (sfacts m p v Lt Hp Hv Z') as (Nv & b' & k' & E1' & _ & E2' & E3' & U' & _).
        cbv beta in *. rewrite <- E2, <- E3 in U. rewrite <- E2', <- E3' in U'.
        destruct (inside (rn p (line_start _ _ _)) _ a) eqn:Ha'; [|reflexivity]. exfalso.
        apply (inside_ren_at _ _ _ big WO) in Ha; auto. apply (inside_ren_at _ _ _ big WO) in Ha'; auto. destruct Ha as (x & Hx & ->), Ha' as (x' & Hx' & E). apply ren_inj in E; auto. subst x'.
        rewrite E2, E3 in Hx. rewrite E2', E3' in Hx'.
        apply (recv_send_apart m p u v b k b' k' x); auto; lia.
      + intros i I. rewrite use_outs in I. apply in_map_iff in I. destruct I as (? & <- & _). exact Logic.I.
      + rewrite use_outs. apply race_sends. intros; exact Logic.I.
  Qed.
  (* ---------- the two runs, side by side ---------- *)
  Section Run.
    Context {V : Type} (op : V -> V -> V) (memP memF : nat -> @memory V).
    Context (Start : forall q x, q < N -> exec_list op (pre q) (memP q) (sm x) = memF q (rn q x)).
    Local Notation AP := (amid N alg nb size_of pre post op memP).
    Definition AF (m q : nat) : @memory V := exec_list op (front_f m q) (memat op LF memF m q).
    Lemma exec_quiet {A} (f : A -> instr) l (m : @memory V) : (forall x, exec_local op (f x) = fun m => m) -> exec_list op (map f l) m = m.
    Proof. intros H. induction l as [|x l IH]; [reflexivity|]. cbn [map exec_list fold_left]. rewrite H. exact IH. Qed.
    Lemma exec_LF m q : exec_list op (LF m q) (memat op LF memF m q) = AF m q.
    Proof.
      unfold LF at 1. rewrite exec_list_app. fold (AF m q). destruct (m <? K); [|reflexivity].
      rewrite exec_list_app, use_ins, use_outs, !exec_quiet; auto.
    Qed.
    Lemma goes_dec q b x l : {p | In p l /\ goes size_of q b p x} + {forall p, In p l -> ~ goes size_of q b p x}.
    Proof.
      induction l as [|p l [(p' & I & G)|H]].
      - right. intros p [].
      - left. exists p'. split; [now right|exact G].
      - unfold goes in *. destruct (le_dec (first_start size_of q b p (seq 0 (num_lines b)) 0) x) as [L1|L1].
        + destruct (lt_dec x (first_start size_of q b p (seq 0 (num_lines b)) 0 + recv_size size_of q b p)) as [L2|L2].
          * left. exists p. split; [now left|lia].
          * right. intros p' [<-|I]; [lia|now apply H].
        + right. intros p' [<-|I]; [lia|now apply H].
    Qed.
    Lemma received m q x : m < K -> q < N -> (forall p y, p < N -> AP m p (sm y) = AF m p (rn p y)) ->
      exec_list op (unpacks size_of N q (blk (S m) q) (seq 0 N) 1) (memat op LP memP (S m) q) (sm x) = memat op LF memF (S m) q (rn q x).
    Proof.
      intros Hm Hq IH. assert (OKF := final_ok).
      assert (NS : no_self q (blk (S m) q)) by (apply (never_self N w0 wk (blk (S m)) (TD (S m) ltac:(lia))); auto).
      assert (ALL : forall p, p < N -> In p (map (from_node N q) (seq 0 N))) by (apply from_all; auto).
      assert (ONLY : forall p, In p (map (from_node N q) (seq 0 N)) -> p < N).
      { intros p I. apply in_map_iff in I. destruct I as (o & <- & I). apply in_seq in I. apply from_node_lt; auto. lia. }
      change (memat op LF memF (S m) q) with (arrive_all (recvs_of (LF m q)) (payload op LF memF m q) (exec_list op (LF m q) (memat op LF memF m q))).
      rewrite exec_LF.
      destruct (goes_dec q (blk (S m) q) x (map (from_node N q) (seq 0 N))) as [(p & Ip & G)|Miss].
      - assert (Hp := ONLY p Ip). set (f := first_start size_of q (blk (S m) q) p (seq 0 (num_lines (blk (S m) q))) 0) in *.
        assert (Z : recv_size size_of q (blk (S m) q) p <> 0) by (unfold goes in G; cbv beta in *; lia).
        destruct (receives_all size_of N q (blk (S m) q) (seq 0 N) 1 p Ip Z) as (r & Ir & Er & El).
        assert (Gx : f <= x < f + len r) by (rewrite El; exact G).
        replace x with (f + (x - f)) at 1 by lia. unfold f at 1. rewrite <- Er. unfold sm. rewrite (unpacks_hit op size_of N q (blk (S m) q) NS); auto; try lia.
        2: apply from_nodup; auto.
        2: { intros p1 p2 y G1 G2 I1 I2. apply (recv_once m q p1 p2 y); auto. }
        rewrite (arrived N alg nb size_of pre post Hb WM Qpre Qpost op memP); auto; try lia.
        2: rewrite L_recvs; auto.
        rewrite Er. unfold content.
        destruct (rfacts m q p Hm Hq Hp Z) as (Npq & a & k & E1 & E2 & E3 & U & P & _). cbv beta in *. fold f in E3.
        set (r' := Request p (rn q f) (recv_size size_of q (blk (S m) q) p)).
        assert (Ir' : In r' (recvs_of (LF m q))) by (apply final_recv; auto; exists p; auto).
        rewrite <- E2, <- E3 in U.
        assert (Ex : rn q x = at_off (rn q f) (x - f)).
        { rewrite <- (usable_off _ _ _ big (w_ok q Hq) f (recv_size size_of q (blk (S m) q) p)); auto; [f_equal; lia|lia]. }
        rewrite (arrive_in op (recvs_of (LF m q)) _ (rn q x) r') with (d := memP 0 (Sendbuf, 0)); auto.
        2: { apply race_apart; [apply (no_race _ _ _ OKF)|apply (one_recv _ _ _ OKF)]; auto; lia. }
        2: { apply (fits_all op N K LF memF OKF m q); auto; lia. }
        2: { rewrite Ex. cbn [place len r']. apply inside_off. cbv beta in *. lia. }
        destruct (recv_match _ _ _ OKF m q r' ltac:(lia) Hq Ir') as (_ & s & Is & Es & Eq). cbn [peer len r'] in *.
        unfold payload. rewrite <- Es. rewrite (send_to_in N K LF OKF m p s); auto; [|lia]. rewrite exec_LF.
        apply final_send in Is; auto. destruct Is as (v & Hv & Zs & ->). cbn [peer place len] in *. subst v.
        destruct (sfacts m p q Hm Hp Hq Zs) as (_ & a' & k' & F1 & F1' & F2 & F3 & U' & P' & _). cbv beta in *. rewrite F1, pieces_read.
        rewrite F3. rewrite F1' in F3. cbn [hd] in F3. destruct k' as [|k']; [rewrite Nat.add_0_r in P'; lia|]. cbn [seq hd] in F3. rewrite F3.
        rewrite Ex. cbn [at_off snd]. rewrite Nat.add_comm, Nat.add_sub.
        replace (sum _) with (ssize size_of p (blk (S m) p) q) by (unfold ssize; now rewrite F1').
        rewrite !read_mem_nth by lia.
        change (at_off (Shm 0, off a') (x - f)) with (sm (off a' + (x - f))). rewrite IH by auto.
        f_equal. apply (usable_off _ _ _ big (w_ok p Hp) (off a') (off (a' + S k') - off a')); auto. rewrite <- F2. lia.
      - rewrite unpacks_miss; auto.
        2: { intros o Io G. apply (Miss (from_node N q o)); auto. now apply in_map. }
        rewrite (keep N alg nb size_of pre post Hb WM Qpre Qpost op memP); auto.
        2: { intros k Hk E. cbn in E. injection E. lia. }
        change (Shm 0, x) with (sm x). rewrite IH by auto. symmetry. apply arrive_out.
        intros r Ir. rewrite (fits_all op N K LF memF OKF m q (recvs_of (LF m q))); auto; [|lia].
        apply final_recv in Ir; auto. destruct Ir as (p & Hp & Z & ->). cbn [place len].
        destruct (inside _ _ _) eqn:X; [|reflexivity]. exfalso.
        destruct (rfacts m q p Hm Hq Hp Z) as (Npq & a & k & E1 & E2 & E3 & U & P & _). cbv beta in *. rewrite <- E2, <- E3 in U.
        apply (inside_ren_at _ _ _ big (w_ok q Hq)) in X; auto. destruct X as (y & Hy & E). apply ren_inj in E. subst y.
        apply (Miss p); auto. 
    Qed.
    Lemma sim m : m <= K -> forall q x, q < N -> AP m q (sm x) = AF m q (rn q x).
    Proof.
      induction m as [|m IH]; intros Hm q x Hq.
      - unfold amid, AF. cbn [front front_f Nat.eqb memat exec_list fold_left]. apply Start; auto.
      - unfold amid, front. cbn [Nat.eqb]. unfold after_code.
        destruct (front_quiet_f (S m) q) as [_ X]; [lia|auto|].
        replace (copyreduces size_of (blk (S m) q)) with (@nil instr)
          by (symmetry; apply (never_copy N size_of HN w0 wk big (blk (S m)) Hw Hbig Hsmall (TD (S m) ltac:(lia)) (fun q' n => LAY (S m) q' n ltac:(lia))); auto).
        rewrite app_nil_r. cbv beta in *.
        change (exec_list op (Barrier :: ?l) ?mm) with (exec_list op l mm). rewrite exec_list_app.
        change (exec_list op (Barrier :: ?l) ?mm) with (exec_list op l mm).
        apply X. intros y. apply received; auto; try lia. intros p z Hp. apply IH; auto. lia.
    Qed.
    (* nothing else is written *)
    Lemma frame m q a : m <= K -> q < N -> (forall x, T <= x -> a <> rn q x) -> AF m q a = memF q a.
    Proof.
      intros Hm Hq Ha. assert (OKF := final_ok).
      assert (F : forall m mm, m <= K -> exec_list op (front_f m q) mm a = mm a).
      { intros k mm Hk. apply exec_list_other. apply Forall_forall. intros i I. destruct k as [|k]; [destruct I|].
        destruct (front_dest (S k) q i) as (x & l & n & -> & U & Tx); [lia|auto|exact I|]. cbn [writes].
        destruct (inside _ _ _) eqn:X; [|reflexivity]. exfalso.
        apply (inside_ren_at _ _ _ big (w_ok q Hq)) in X; auto. destruct X as (y & Hy & E). apply (Ha y); [lia|exact E]. }
      induction m as [|m IH]; [reflexivity|]. unfold AF. rewrite F by lia.
      change (memat op LF memF (S m) q) with (arrive_all (recvs_of (LF m q)) (payload op LF memF m q) (exec_list op (LF m q) (memat op LF memF m q))).
      rewrite exec_LF, <- IH by lia. apply arrive_out. intros r Ir.
      rewrite (fits_all op N K LF memF OKF m q (recvs_of (LF m q))); auto; [|lia].
      apply final_recv in Ir; auto. destruct Ir as (p & Hp & Z & ->). cbn [place len].
      destruct (inside _ _ _) eqn:X; [|reflexivity]. exfalso.
      assert (Hm' : m < K) by lia.
      destruct (rfacts m q p Hm' Hq Hp Z) as (Npq & b & k & E1 & E2 & E3 & U & P & _). cbv beta in *. rewrite <- E2, <- E3 in U.
      apply (inside_ren_at _ _ _ big (w_ok q Hq)) in X; auto. destruct X as (y & Hy & E). apply (Ha y); [|exact E].
      rewrite E3 in Hy. destruct k as [|k]; [rewrite Nat.add_0_r in P; lia|].
      assert (N <= b) by (apply (td_above _ _ _ _ (TD (S m) ltac:(lia)) q p); auto; rewrite E1; now left).
      pose proof (off_le size_of (fun n => n mod N) N b H). unfold whole. lia.
    Qed.
  End Run.

  (* ---------- the code ---------- *)
  Lemma final_phases q : flat_map (fin T big) (map (fun m => ex m q) (seq 1 K)) = phased K LF q.
  Proof.
    unfold phased.
    assert (G : forall j m, m + j = K ->
      flat_map (fin T big) (map (fun m => ex m q) (seq (S m) j)) =
      (if m <? K then use T big (map direct_in (ins (ex (S m) q))) ++ use T big (map direct_out (outs (ex (S m) q))) else []) ++ rest_code K LF m q).
    { induction j as [|j IH]; intros m E.
      - replace m with K by lia. rewrite Nat.ltb_irrefl, rest_end. reflexivity.
      - replace (m <? K) with true by (symmetry; apply Nat.ltb_lt; lia). rewrite rest_step by lia.
        cbn [seq map flat_map]. rewrite IH by lia. unfold fin at 1, LF, front_f. cbn [Nat.eqb]. rewrite <- !app_assoc. cbn [app]. reflexivity. }
    rewrite (G K 0) by lia. reflexivity.
  Qed.
  Context (SL : same_length N alg nb).
  Section Code.
    Context (q : nat) (Hq : q < N) (base : nat -> nat) (B0 : base 0 = 0) (MONO : forall k, base k <= base (S k)).
    Context (FIT : Forall (fits_in base) (program N alg size_of pre post q)).
    Context (PRE : Forall (fun i => match i with Memcpy (Shm 0, x) (Sendbuf, _) n => 0 < n /\ x < base 1 | Barrier => True | _ => False end) (pre q)).
    Context (POST : Forall (fun i => match i with Memcpy (Recvbuf, _) (Shm 0, _) n => 0 < n | _ => False end) (post q)).
    Lemma fit_block m first i : m < K -> In i (block_code size_of N q (blk (S m) q) first) -> fits_in base i \/ i = Barrier.
    Proof.
      intros Hm I. destruct i; auto; left; try exact Logic.I;
      (refine (proj1 (Forall_forall _ _) FIT _ _); unfold program; apply in_or_app; right; apply in_or_app; left;
       rewrite (blocks_tail N alg nb size_of pre post) by auto;
       (assert (G : forall j m0 f, m0 <= m < m0 + j -> forall i, i <> Barrier -> In i (block_code size_of N q (blk (S m) q) first) ->
         In i (blocks_code size_of N q (map (fun m => nth m (alg q) empty_block) (seq (S m0) j)) f))
        by (clear; induction j as [|j IH]; intros m0 f H i Ne I; [lia|]; cbn [seq map blocks_code]; apply in_or_app;
            destruct (Nat.eq_dec m m0) as [->|]; [left|right; apply IH; auto; lia];
            unfold block_code, post_code in *; rewrite <- !app_assoc in *; apply in_app_or in I; apply in_or_app;
            destruct I as [I|I]; [destruct first; [destruct I|destruct I as [<-|[]]; now destruct Ne]|right; exact I]));
       apply (G (nb - 1) 0 true); [lia|discriminate|exact I]).
    Qed.
    Lemma shapes m : m < K -> shape base (ex (S m) q).
    Proof.
      intros Hm. assert (FB := fit_block m true). unfold block_code, post_code, after_code in FB. cbn [app] in FB.
      assert (NS : no_self q (blk (S m) q)) by (apply (never_self N w0 wk (blk (S m)) (TD (S m) ltac:(lia))); auto).
      constructor.
      - intros u ps I. apply (out_pieces size_of N q (blk (S m) q) u ps I).
      - assert (R : forall i, In i (receives size_of N q (blk (S m) q) (seq 0 N) 1) -> fits_in base i \/ i = Barrier).
        { intros i I. apply FB; auto. apply in_or_app. left. apply in_or_app. left. exact I. }
        unfold exch_of. cbn [ins]. clear FB. revert R. generalize 1 as c. induction (seq 0 N) as [|o os IH]; intros c R; [exact I|].
        cbn [receives flat_map] in *. unfold in_of at 1. destruct (Nat.eqb_spec (recv_size size_of q (blk (S m) q) (from_node N q o)) 0) as [Z|Z]; cbv beta in *.
        + cbn [app]. apply IH. exact R.
        + cbn [app spaced msize]. split; [lia|]. split.
          * destruct (R _ (or_introl eq_refl)) as [X|X]; [|discriminate]. cbn [fits_in room_for fst snd] in X. lia.
          * apply IH. intros i I. apply R. now right.
      - intros t I. apply in_ins in I; auto. destruct I as (p & Hp & Z & ->). cbn [mplace].
        assert (R : forall i, In i (unpacks size_of N q (blk (S m) q) (seq 0 N) 1) -> fits_in base i \/ i = Barrier).
        { intros i I. apply FB; auto. apply in_or_app. right. right. right. apply in_or_app. left. exact I. }
        assert (IP : In p (map (from_node N q) (seq 0 N))) by (apply from_all; auto).
        assert (X : exists c, In (Memcpy (Shm 0, first_start size_of q (blk (S m) q) p (seq 0 (num_lines (blk (S m) q))) 0) (Shm c, 0) (recv_size size_of q (blk (S m) q) p))
          (unpacks size_of N q (blk (S m) q) (seq 0 N) 1)).
        { clear R FB. revert IP. generalize 1 as c. induction (seq 0 N) as [|o os IH]; intros c IP; [destruct IP|]. cbn [map] in IP.
          rewrite unpacks_cons by exact NS. destruct IP as [E|IP].
          - rewrite E. apply Nat.eqb_neq in Z. cbv beta in *. rewrite Z. exists c. now left.
          - destruct (_ =? 0); [now apply IH|]. destruct (IH (S c) IP) as (c' & I). exists c'. now right. }
        destruct X as (c & X). destruct (R _ X) as [Y|Y]; [|discriminate]. cbn [fits_in room_for fst snd] in Y. cbv beta in *. lia.
      - apply reduces_reduce.
    Qed.
    Lemma code_shape : map (flat_instr base) (program N alg size_of pre post q) = pre q ++ ecodes base true (map (fun m => ex m q) (seq 1 K)) ++ post q.
    Proof.
      unfold program. rewrite !map_app. f_equal; [|f_equal].
      - rewrite <- (map_id (pre q)) at 2. apply map_ext_in. intros i I. rewrite Forall_forall in PRE. specialize (PRE i I).
        destruct i as [| | | |d s n|]; try (now destruct PRE); try reflexivity. destruct d as [[| |[|]] x]; try (now destruct PRE). destruct s as [[| |] y]; try (now destruct PRE).
        cbn [flat_instr flat fst snd]. now rewrite B0.
      - rewrite (blocks_tail N alg nb size_of pre post) by auto.
        assert (G : forall j m f, m + j <= K -> map (flat_instr base) (blocks_code size_of N q (map (fun m => nth m (alg q) empty_block) (seq (S m) j)) f) =
          ecodes base f (map (fun m => ex m q) (seq (S m) j))).
        { induction j as [|j IH]; intros m f Hj; [reflexivity|]. cbn [seq map blocks_code ecodes]. rewrite map_app, IH by lia. f_equal.
          apply block_shape; auto.
          - intros o. apply (slines_contiguous N size_of HN w0 wk big (blk (S m)) Hw Hbig Hsmall (TD (S m) ltac:(lia)) (fun q' n => LAY (S m) q' n ltac:(lia)) q o); auto.
          - apply (never_self N w0 wk (blk (S m)) (TD (S m) ltac:(lia))); auto.
          - apply (never_copy N size_of HN w0 wk big (blk (S m)) Hw Hbig Hsmall (TD (S m) ltac:(lia)) (fun q' n => LAY (S m) q' n ltac:(lia))); auto. }
        apply G. lia.
      - rewrite <- (map_id (post q)) at 2. apply map_ext_in. intros i I. rewrite Forall_forall in POST. specialize (POST i I).
        destruct i as [| | | |d s n|]; try (now destruct POST); try reflexivity. destruct d as [[| |] x]; try (now destruct POST). destruct s as [[| |[|]] y]; try (now destruct POST).
        cbn [flat_instr flat fst snd]. now rewrite B0.
    Qed.
    Lemma final_is alt : final_code base alt T big (program N alg size_of pre post q) = phased K LF q.
    Proof.
      rewrite <- final_phases. apply (final_program base alt T big _ (pre q) _ (post q)); auto.
      - exact code_shape.
      - eapply Forall_impl; [|exact PRE]. intros i H. destruct i as [| | | |d s n|]; try (now destruct H); try exact Logic.I. destruct d as [[| |[|]] x]; try (now destruct H). destruct s as [[| |] y]; try (now destruct H); cbn in *; lia.
      - apply Forall_forall. intros e I. apply in_map_iff in I. destruct I as (m & <- & I). apply in_seq in I.
        destruct m as [|m]; [lia|]. apply shapes. lia.
      - eapply Forall_impl; [|exact POST]. intros i H. destruct i as [| | | |d s n|]; try (now destruct H); try exact Logic.I. destruct d as [[| |] x]; try (now destruct H). destruct s as [[| |[|]] y]; try (now destruct H); cbn in *; lia.
      - eapply Forall_impl; [|exact PRE]. intros i H. destruct i as [| | | |d s n|]; try (now destruct H); try exact Logic.I. destruct d as [[| |[|]] x]; try (now destruct H). destruct s as [[| |] y]; try (now destruct H); cbn in *; lia.
      - eapply Forall_impl; [|exact POST]. intros i H. destruct i as [| | | |d s n|]; try (now destruct H); try exact Logic.I. destruct d as [[| |] x]; try (now destruct H). destruct s as [[| |[|]] y]; try (now destruct H); cbn in *; lia.
      - apply Forall_forall. intros e I. apply in_map_iff in I. destruct I as (m & <- & I). apply reduces_sized.
    Qed.
  End Code.
End Sim.
