(* All nodes execute the generated code: no deadlock, and the result is that of
   the schedule, cell by cell, for every interleaving. *)
From Verif Require Import Base SchedModel SchedSpec RawModel MsgProofs PhaseProofs RawCode RawStage.
Local Ltac Zify.zify_post_hook ::= idtac.

Lemma mod_once a n : a < 2 * n -> a mod n = if a <? n then a else a - n.
Proof.
  intros H. destruct (Nat.ltb_spec a n); [now apply Nat.mod_small|].
  symmetry. apply (Nat.mod_unique a n 1); lia.
Qed.
Section Partners.
  Context (N q : nat) (Hq : q < N).
  Lemma to_node_eq o : o < N -> to_node N q o = if q + o <? N then q + o else q + o - N.
  Proof. intros H. apply mod_once. lia. Qed.
  Lemma from_node_eq o : o < N -> from_node N q o = if N + q - o <? N then N + q - o else q - o.
  Proof.
    intros H. unfold from_node. destruct (Nat.eq_dec (N + q - o) (2 * N)); [lia|].
    rewrite mod_once by lia. destruct (Nat.ltb_spec (N + q - o) N); lia.
  Qed.
  Lemma to_node_lt o : o < N -> to_node N q o < N.
  Proof. intros H. rewrite to_node_eq by auto. destruct (Nat.ltb_spec (q + o) N); lia. Qed.
  Lemma from_node_lt o : o < N -> from_node N q o < N.
  Proof. intros H. rewrite from_node_eq by auto. destruct (Nat.ltb_spec (N + q - o) N); lia. Qed.
  Lemma nodup_map {A B} (f : A -> B) l : (forall x y, In x l -> In y l -> f x = f y -> x = y) -> NoDup l -> NoDup (map f l).
  Proof.
    intros I H. induction H as [|x l X H IH]; cbn; constructor.
    - intros Y. apply in_map_iff in Y. destruct Y as (y & E & Y). apply X. rewrite <- (I y x); auto; [now right|now left].
    - apply IH. intros; apply I; auto; now right.
  Qed.
  Lemma to_nodup : NoDup (map (to_node N q) (seq 0 N)).
  Proof.
    apply nodup_map; [|apply seq_NoDup]. intros x y Hx Hy. apply in_seq in Hx. apply in_seq in Hy.
    rewrite !to_node_eq by lia. destruct (Nat.ltb_spec (q + x) N), (Nat.ltb_spec (q + y) N); lia.
  Qed.
  Lemma from_nodup : NoDup (map (from_node N q) (seq 0 N)).
  Proof.
    apply nodup_map; [|apply seq_NoDup]. intros x y Hx Hy. apply in_seq in Hx. apply in_seq in Hy.
    rewrite !from_node_eq by lia. destruct (Nat.ltb_spec (N + q - x) N), (Nat.ltb_spec (N + q - y) N); lia.
  Qed.
  Lemma to_all p : p < N -> In p (map (to_node N q) (seq 0 N)).
  Proof.
    intros Hp. apply in_map_iff. exists (if q <=? p then p - q else N + p - q).
    destruct (Nat.leb_spec q p); (split; [|apply in_seq; lia]); rewrite to_node_eq by lia.
    - destruct (Nat.ltb_spec (q + (p - q)) N); lia.
    - destruct (Nat.ltb_spec (q + (N + p - q)) N); lia.
  Qed.
  Lemma from_all p : p < N -> In p (map (from_node N q) (seq 0 N)).
  Proof.
    intros Hp. apply in_map_iff. exists (if p <=? q then q - p else N + q - p).
    destruct (Nat.leb_spec p q); (split; [|apply in_seq; lia]); rewrite from_node_eq by lia.
    - destruct (Nat.ltb_spec (N + q - (q - p)) N); lia.
    - destruct (Nat.ltb_spec (N + q - (N + q - p)) N); lia.
  Qed.
End Partners.

(* lines that do not touch the user's buffers *)
Definition shm_only (i : instr) : Prop := forall a, writes i a = true -> exists k, fst a = Shm k.
Lemma shm_exec {V} (op : V -> V -> V) l (m : @memory V) a : Forall shm_only l -> (forall k, fst a <> Shm k) -> exec_list op l m a = m a.
Proof.
  intros H Ha. apply exec_list_other. eapply Forall_impl; [|exact H]. intros i Hi.
  destruct (writes i a) eqn:E; auto. destruct (Hi a E) as [k X]. now apply Ha in X.
Qed.
Lemma shm_barrier : shm_only Barrier.
Proof. intros a X. discriminate. Qed.
Lemma shm_memcpy k x s n : shm_only (Memcpy (Shm k, x) s n).
Proof. intros a X. cbn in X. apply inside_spec in X. exists k. now symmetry. Qed.
Lemma shm_reduce k x s n : shm_only (Reduce_ (Shm k, x) s n).
Proof. intros a X. cbn in X. apply inside_spec in X. exists k. now symmetry. Qed.
Lemma shm_after size_of N q b : Forall shm_only (after_code size_of N q b).
Proof.
  unfold after_code. constructor; [apply shm_barrier|]. apply Forall_app. split.
  - generalize 1. induction (seq 0 N) as [|o os IH]; intros c; cbn [unpacks]; [constructor|].
    destruct (_ =? 0); auto. constructor; auto. destruct (recvfrom _) as [|e es]; [apply shm_memcpy|].
    destruct (is_node q e); [apply shm_reduce|apply shm_memcpy].
  - constructor; [apply shm_barrier|]. apply Forall_app. split; apply Forall_forall; intros i Hi.
    + unfold reduces in Hi. apply in_flat_map in Hi. destruct Hi as (n & _ & Hi). apply in_flat_map in Hi.
      destruct Hi as (r & _ & Hi). destruct (_ =? 0); [destruct Hi|]. destruct Hi as [<-|[]]. apply shm_reduce.
    + unfold copyreduces in Hi. apply in_flat_map in Hi. destruct Hi as (n & _ & Hi). destruct (_ =? 0); [destruct Hi|].
      destruct (copyreducefrom _) as [|r0 rs]; [destruct Hi|]. destruct Hi as [<-|Hi]; [apply shm_memcpy|].
      apply in_map_iff in Hi. destruct Hi as (r & <- & _). apply shm_reduce.
Qed.
Lemma quiet_after size_of N q b : forallb quiet (after_code size_of N q b) = true.
Proof.
  unfold after_code. cbn [forallb quiet andb]. rewrite forallb_app. apply andb_true_iff. split.
  - generalize 1. induction (seq 0 N) as [|o os IH]; intros c; cbn [unpacks]; [reflexivity|].
    destruct (_ =? 0); auto. cbn [forallb]. rewrite IH, andb_true_r. destruct (recvfrom _) as [|e es]; auto.
    destruct (is_node q e); auto.
  - cbn [forallb quiet andb]. rewrite forallb_app. apply andb_true_iff. split; apply forallb_forall; intros i Hi.
    + unfold reduces in Hi. apply in_flat_map in Hi. destruct Hi as (n & _ & Hi). apply in_flat_map in Hi.
      destruct Hi as (r & _ & Hi). destruct (_ =? 0); [destruct Hi|]. destruct Hi as [<-|[]]. reflexivity.
    + unfold copyreduces in Hi. apply in_flat_map in Hi. destruct Hi as (n & _ & Hi). destruct (_ =? 0); [destruct Hi|].
      destruct (copyreducefrom _) as [|r0 rs]; [destruct Hi|]. destruct Hi as [<-|Hi]; [reflexivity|].
      apply in_map_iff in Hi. destruct Hi as (r & <- & _). reflexivity.
Qed.

Section Main.
  Context (N : nat) (alg : nat -> list block) (count : nat) (size_of : nat -> nat).
  Context (pre post : nat -> list instr).
  Local Notation blk m := (fun q => nth m (alg q) empty_block).
  Context (Hc : 1 <= count) (SL : same_length N alg count).
  Context (WM : forall m, 1 <= m < count -> well_matched N (blk m)).
  Context (Qpre : forall q, q < N -> forallb quiet (pre q) = true) (Qpost : forall q, q < N -> forallb quiet (post q) = true).

  Let K := count - 1.
  Definition front (m q : nat) : list instr := if m =? 0 then pre q else after_code size_of N q (blk m q).
  Definition L (m q : nat) : list instr :=
    front m q ++ (if m <? K then post_code size_of N q (blk (S m) q) (m =? 0) else Barrier :: post q).
  Definition program (q : nat) : list instr := pre q ++ blocks_code size_of N q (tl (alg q)) true ++ post q.

  Lemma blocks_tail q : q < N -> tl (alg q) = map (fun m => nth m (alg q) empty_block) (seq 1 K).
  Proof.
    intros Hq. pose proof (SL q Hq) as E. unfold K. destruct (alg q) as [|b0 bs]; cbn [length] in E; [lia|].
    cbn [tl]. replace (count - 1) with (length bs) by lia. clear -bs.
    rewrite <- seq_shift, map_map. cbn [nth].
    induction bs as [|b bs IH]; [reflexivity|]. cbn [length seq map nth]. f_equal. rewrite IH at 1.
    rewrite <- seq_shift, map_map. reflexivity.
  Qed.
  Lemma program_phased q : q < N -> program q = phased K L q.
  Proof.
    intros Hq. unfold program, phased. rewrite blocks_tail by auto.
    assert (G : forall j m, m + j = K ->
      (if m <? K then post_code size_of N q (blk (S m) q) (m =? 0) else Barrier :: post q) ++ rest_code K L m q =
      blocks_code size_of N q (map (fun m => nth m (alg q) empty_block) (seq (S m) j)) (m =? 0) ++ post q).
    { induction j as [|j IH]; intros m E.
      - replace m with K by lia. rewrite Nat.ltb_irrefl, rest_end, app_nil_r. reflexivity.
      - replace (m <? K) with true by (symmetry; apply Nat.ltb_lt; lia). rewrite rest_step by lia.
        cbn [seq map blocks_code]. unfold block_code. rewrite <- !app_assoc. f_equal. cbn [app]. f_equal.
        unfold L, front. cbn [Nat.eqb]. rewrite <- app_assoc. f_equal. apply (IH (S m)). lia. }
    change true with (0 =? 0). rewrite <- (G K 0) by lia. unfold L. rewrite <- app_assoc. reflexivity.
  Qed.

  Lemma front_quiet m q : q < N -> forallb quiet (front m q) = true.
  Proof. intros Hq. unfold front. destruct (m =? 0); auto using quiet_after. Qed.
  Lemma first_quiet (f : bool) : forallb quiet (if f then [] else [Barrier]) = true.
  Proof. now destruct f. Qed.

  Local Notation recvs_at m q := (receives size_of N q (blk (S m) q) (seq 0 N) 1).
  Local Notation sends_at m q := (sends size_of N q (blk (S m) q) (seq 0 N) (1 + length (recvs_at m q))).
  Lemma L_sends m q : m < K -> q < N -> sends_of (L m q) = sends_of (sends_at m q).
  Proof.
    intros Hm Hq. unfold L. apply Nat.ltb_lt in Hm. rewrite Hm. unfold post_code.
    rewrite !sends_app, (quiet_sends _ (front_quiet m q Hq)), (quiet_sends _ (first_quiet _)), receives_sends. reflexivity.
  Qed.
  Lemma L_recvs m q : m < K -> q < N -> recvs_of (L m q) = recvs_of (recvs_at m q).
  Proof.
    intros Hm Hq. unfold L. apply Nat.ltb_lt in Hm. rewrite Hm. unfold post_code.
    rewrite !recvs_app, (quiet_recvs _ (front_quiet m q Hq)), (quiet_recvs _ (first_quiet _)), sends_recvs by lia. now rewrite app_nil_r.
  Qed.
  Lemma L_last q : q < N -> forallb quiet (L K q) = true.
  Proof.
    intros Hq. unfold L. rewrite Nat.ltb_irrefl, forallb_app, front_quiet by auto. cbn. auto.
  Qed.

  Lemma slines_sent m p q : p <> q -> slines p (blk m p) q = sent_lines (blk m) p q.
  Proof.
    intros H. unfold slines, slines_in, sent_lines. apply flat_map_ext. intros n. f_equal. apply filter_ext. intros e.
    replace (q =? p) with false by (symmetry; apply Nat.eqb_neq; auto). apply andb_true_r.
  Qed.
  Lemma slines_self b q : slines q b q = [].
  Proof.
    unfold slines, slines_in. induction (seq 0 (num_lines b)) as [|n ns IH]; auto. cbn [flat_map]. rewrite IH, app_nil_r.
    induction (sendto (lines b n)) as [|e es IHe]; auto. cbn [filter]. replace (is_node q e && negb (q =? q)) with false; [exact IHe|]. rewrite Nat.eqb_refl. now rewrite andb_false_r.
  Qed.
  Lemma sizes_match m p q : 1 <= m < count -> p < N -> q < N -> p <> q ->
    ssize size_of p (blk m p) q = recv_size size_of q (blk m q) p.
  Proof.
    intros Hm Hp Hq D. rewrite rsize_eq. unfold ssize. rewrite slines_sent by auto.
    rewrite (rlines_recv (blk m) q) by auto.
    destruct (WM m Hm) as [W _]. destruct (W p q Hp Hq D) as [E _].
    apply (f_equal (map size_of)) in E. rewrite !map_map in E. unfold line_size. now rewrite E.
  Qed.

  Lemma send_req m p r : m < K -> p < N -> In r (sends_of (L m p)) ->
    peer r < N /\ peer r <> p /\ len r = ssize size_of p (blk (S m) p) (peer r) /\ len r <> 0.
  Proof.
    intros Hm Hp I. rewrite L_sends in I by auto.
    assert (P : In (peer r) (map peer (sends_of (sends_at m p)))) by now apply in_map.
    rewrite sends_peers in P by lia. apply filter_In in P. destruct P as [P Z].
    apply in_map_iff in P. destruct P as (o & E & Ho). apply in_seq in Ho.
    destruct (sends_content size_of N p (blk (S m) p) andb (seq 0 N) (1 + length (recvs_at m p)) r (fun _ => true)) as (A & B & _); auto; [lia|].
    split; [rewrite <- E; apply to_node_lt; auto; lia|]. split; auto.
    intros X. rewrite X in A. unfold ssize in A. rewrite slines_self in A. cbn in A. lia.
  Qed.
  Lemma recv_req m p r : m < K -> p < N -> In r (recvs_of (L m p)) ->
    peer r < N /\ peer r <> p /\ len r = recv_size size_of p (blk (S m) p) (peer r) /\ len r <> 0 /\
    exists c, 1 <= c /\ place r = (Shm c, 0).
  Proof.
    intros Hm Hp I. rewrite L_recvs in I by auto. apply in_recvs, receives_in in I.
    destruct I as (c & E & Hc' & El & Z & P). apply in_map_iff in P. destruct P as (o & Eo & Ho). apply in_seq in Ho.
    split; [rewrite <- Eo; apply from_node_lt; auto; lia|]. split.
    - intros X. rewrite X in El. rewrite rsize_eq, (rlines_self (blk (S m)) p) in El. cbn in El. lia.
    - split; auto. split; auto. exists c. split; auto. lia.
  Qed.
  Lemma send_exists m p q : m < K -> p < N -> q < N -> ssize size_of p (blk (S m) p) q <> 0 ->
    exists r, In r (sends_of (L m p)) /\ peer r = q.
  Proof.
    intros Hm Hp Hq Z. rewrite L_sends by auto.
    assert (P : In q (map peer (sends_of (sends_at m p)))).
    { rewrite sends_peers by lia. apply filter_In. split; [now apply to_all|]. now apply negb_true_iff, Nat.eqb_neq. }
    apply in_map_iff in P. destruct P as (r & E & I). eauto.
  Qed.
  Lemma recv_exists m p q : m < K -> p < N -> q < N -> recv_size size_of q (blk (S m) q) p <> 0 ->
    exists r, In r (recvs_of (L m q)) /\ peer r = p.
  Proof.
    intros Hm Hp Hq Z. rewrite L_recvs by auto.
    assert (P : In p (map peer (recvs_of (recvs_at m q)))).
    { rewrite receives_peers. apply filter_In. split; [now apply from_all|]. now apply negb_true_iff, Nat.eqb_neq. }
    apply in_map_iff in P. destruct P as (r & E & I). eauto.
  Qed.

  Lemma ok : phases_ok N K L.
  Proof.
    split.
    - intros m p Hm Hp. destruct (Nat.eq_dec m K) as [->|D]; [apply quiet_wait, L_last; auto|].
      unfold L. replace (m <? K) with true by (symmetry; apply Nat.ltb_lt; lia).
      intros I. apply in_app_or in I. destruct I as [I|I]; [revert I; apply quiet_wait, front_quiet; auto|].
      unfold post_code in I. apply in_app_or in I. destruct I as [I|I]; [revert I; apply quiet_wait, first_quiet|].
      apply in_app_or in I. destruct I as [I|I].
      + apply receives_only in I. destruct I as (? & ? & ? & ?). discriminate.
      + revert I. apply sends_nowait. lia.
    - intros m p Hm Hp. destruct (Nat.eq_dec m K) as [->|D]; [rewrite quiet_sends by (now apply L_last); constructor|].
      rewrite L_sends, sends_peers by lia. now apply NoDup_filter, to_nodup.
    - intros m p Hm Hp. destruct (Nat.eq_dec m K) as [->|D]; [rewrite quiet_recvs by (now apply L_last); constructor|].
      rewrite L_recvs, receives_peers by lia. now apply NoDup_filter, from_nodup.
    - intros m p r Hm Hp I. destruct (Nat.eq_dec m K) as [->|D]; [rewrite quiet_sends in I by (now apply L_last); destruct I|].
      destruct (send_req m p r) as (A & B & C & Z); auto; [lia|]. split; auto.
      assert (S : ssize size_of p (blk (S m) p) (peer r) = recv_size size_of (peer r) (blk (S m) (peer r)) p) by (apply sizes_match; auto; unfold K in *; lia).
      destruct (recv_exists m p (peer r)) as (r' & I' & E); auto; try lia. exists r'. split; auto. split; auto.
      destruct (recv_req m (peer r) r') as (_ & _ & C' & _); auto; [lia|]. rewrite C', E. lia.
    - intros m p r Hm Hp I. destruct (Nat.eq_dec m K) as [->|D]; [rewrite quiet_recvs in I by (now apply L_last); destruct I|].
      destruct (recv_req m p r) as (A & B & C & Z & _); auto; [lia|]. split; auto.
      assert (S : ssize size_of (peer r) (blk (S m) (peer r)) p = recv_size size_of p (blk (S m) p) (peer r)) by (apply sizes_match; auto; unfold K in *; lia).
      destruct (send_exists m (peer r) p) as (r' & I' & E); auto; try lia. exists r'. split; auto. split; auto.
      destruct (send_req m (peer r) r') as (_ & _ & C' & _); auto; [lia|]. rewrite C', E. lia.
    - intros p Hp. now apply quiet_sends, L_last.
    - intros p Hp. now apply quiet_recvs, L_last.
    - intros m p Hm Hp. destruct (Nat.eq_dec m K) as [->|D].
      + rewrite <- (app_nil_r (L K p)). apply quiet_race; [now apply L_last|exact I].
      + unfold L. replace (m <? K) with true by (symmetry; apply Nat.ltb_lt; lia).
        apply quiet_race; [now apply front_quiet|]. unfold post_code. apply quiet_race; [apply first_quiet|].
        apply receives_race; [lia| |].
        * apply sends_race. lia.
        * apply sends_above. lia.
  Qed.

  Context {V : Type} (op : V -> V -> V) (mem0 : nat -> @memory V).
  Notation memory := (@memory V).

  (* the memory behind the first part of phase m *)
  Definition amid (m q : nat) : memory := exec_list op (front m q) (memat op L mem0 m q).
  Lemma exec_L m q : m < K -> exec_list op (L m q) (memat op L mem0 m q) = exec_list op (sends_at m q) (amid m q).
  Proof.
    intros Hm. unfold L, amid. apply Nat.ltb_lt in Hm. rewrite Hm, exec_list_app. unfold post_code.
    rewrite !exec_list_app, receives_exec. now destruct (m =? 0).
  Qed.
  Lemma memat_S m q : memat op L mem0 (S m) q = arrive_all (recvs_of (L m q)) (payload op L mem0 m q) (exec_list op (L m q) (memat op L mem0 m q)).
  Proof. reflexivity. Qed.
  (* cells outside of the message buffers are only changed by first parts *)
  Lemma keep m q a : m < K -> q < N -> (forall k, 1 <= k -> fst a <> Shm k) -> memat op L mem0 (S m) q a = amid m q a.
  Proof.
    intros Hm Hq Ha. rewrite memat_S, arrive_out.
    - rewrite exec_L by auto. apply exec_list_other. eapply Forall_impl; [|apply sends_above; lia].
      intros i Ai. destruct (writes i a) eqn:E; auto. destruct (Ai a) as [W _]. destruct (W E) as (k & Hk & X). 
      exfalso. apply (Ha k); auto. lia.
    - intros r I. destruct (recv_req m q r) as (_ & _ & _ & _ & c & Hc' & E); auto. rewrite E.
      destruct (inside _ _ _) eqn:X; auto. apply inside_spec in X. cbn in X. exfalso. apply (Ha c); auto. symmetry. tauto.
  Qed.
  Lemma arrived m q r j : m < K -> q < N -> In r (recvs_of (L m q)) -> j < len r ->
    memat op L mem0 (S m) q (at_off (place r) j) =
    nth j (content (blk (S m)) q (fun p => piece size_of (blk (S m) p) (amid m p)) (peer r)) (mem0 0 (Sendbuf, 0)).
  Proof.
    intros Hm Hq I Hj. rewrite memat_S.
    destruct (recv_req m q r) as (A & B & C & Z & c & Hc' & E); auto.
    rewrite (arrive_in op _ _ _ r) with (d := mem0 0 (Sendbuf, 0)); auto.
    - replace (snd (at_off (place r) j) - snd (place r)) with j by (cbn; lia). f_equal.
      destruct (recv_match N K L ok m q r) as (_ & r' & I' & E' & El'); auto; [lia|].
      unfold payload. rewrite <- E'. rewrite (send_to_in N K L ok m (peer r) r'); auto; [|lia].
      rewrite exec_L by auto. rewrite L_sends in I' by auto.
      destruct (sends_content size_of N (peer r) (blk (S m) (peer r)) op (seq 0 N) (1 + length (recvs_at m (peer r))) r' (amid m (peer r))) as (_ & _ & X); auto; [lia|].
      rewrite X. unfold content. rewrite slines_sent by congruence. now rewrite E'.
    - apply race_apart; [apply (no_race _ _ _ ok); auto; lia|apply (one_recv _ _ _ ok); auto; lia].
    - apply (fits_all op N K L mem0 ok m q); auto. lia.
    - apply inside_off. auto.
  Qed.

  Lemma user_kept m q a : m <= K -> q < N -> (forall k, fst a <> Shm k) -> amid m q a = exec_list op (pre q) (mem0 q) a.
  Proof.
    intros Hm Hq Ha. induction m as [|m IH]; [reflexivity|].
    unfold amid at 1, front. cbn [Nat.eqb]. rewrite shm_exec by (auto using shm_after).
    rewrite keep by auto. apply IH. lia.
  Qed.

  Context (F : nat -> nat -> nat).
  Context (LAY : forall m q n, 1 <= m < count -> q < N -> n < num_lines (blk m q) -> frac (lines (blk m q) n) = F q n).
  Section Cell.
    (* st0: cell i of the lines behind the copy in *)
    Context (i : nat) (st0 : nat -> nat -> V) (S0 : forall q, q < N -> rel size_of (F q) i (st0 q) (exec_list op (pre q) (mem0 q))).
    Definition after (m : nat) : nat -> nat -> V := run op N (map (fun m q => nth m (alg q) empty_block) (seq 1 m)) st0.
    Lemma after_S m : after (S m) = stage op N (blk (S m)) (after m).
    Proof. unfold after, run. rewrite seq_S, map_app, fold_left_app. reflexivity. Qed.
    Lemma follows m : m <= K -> forall q, q < N -> rel size_of (F q) i (after m q) (amid m q).
    Proof.
      induction m as [|m IH]; intros Hm q Hq.
      - exact (S0 q Hq).
      - assert (BM : 1 <= S m < count) by (unfold K in *; lia).
        rewrite after_S. unfold amid, front. cbn [Nat.eqb].
        apply after_rel with (F := F q) (blk := blk (S m)) (st := after m) (d := mem0 0 (Sendbuf, 0))
           (pieces := fun p => piece size_of (blk (S m) p) (amid m p)); auto.
        + intros p x Hp Hx. unfold piece. now rewrite read_mem_length.
        + intros p x Hp Hx Hi. unfold piece. rewrite read_mem_nth by exact Hi.
          unfold at_off. cbn [fst snd].
          rewrite (lstart_off size_of N (blk (S m)) p (F p)) by (auto; try lia; intros; now apply LAY).
          apply IH; auto; [lia|]. unfold sz. now rewrite <- (LAY (S m) p x).
        + intros o Ho. now apply from_node_lt.
        + intros n Hn. rewrite keep; auto; [|cbn; intros k Hk X; injection X; lia]. apply IH; auto. lia.
        + intros r j I Hj. apply arrived; auto. now rewrite L_recvs.
    Qed.
  End Cell.
  Lemma raw_end q : q < N -> exec_list op (L K q) (memat op L mem0 K q) = exec_list op (post q) (amid K q).
  Proof. intros Hq. unfold L, amid. rewrite Nat.ltb_irrefl, exec_list_app. reflexivity. Qed.
End Main.
