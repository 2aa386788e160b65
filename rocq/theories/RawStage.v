(* The lines behind waitall do to the cells what the schedule says about lines. *)
From Verif Require Import Base SchedModel SchedSpec RawModel MsgProofs RawCode.
Local Ltac Zify.zify_post_hook ::= idtac.

Lemma exec_flat {V A} (op : V -> V -> V) (f : A -> list instr) l : forall m,
  exec_list op (flat_map f l) m = fold_left (fun m x => exec_list op (f x) m) l m.
Proof. induction l as [|x l IH]; cbn [flat_map fold_left]; intros m; [reflexivity|]. now rewrite exec_list_app, IH. Qed.

Section Layout.
  Context (size_of : nat -> nat) (F : nat -> nat).
  Definition sz (n : nat) : nat := size_of (F n).
  Definition off (n : nat) : nat := sum (map sz (seq 0 n)).
  Lemma off_S n : off (S n) = off n + sz n.
  Proof. unfold off. rewrite seq_S, map_app, sum_app. cbn. lia. Qed.
  Lemma off_seq a k : off (a + k) = off a + sum (map sz (seq a k)).
  Proof. unfold off. rewrite seq_app, map_app, sum_app. reflexivity. Qed.
  Lemma off_le n n' : n <= n' -> off n <= off n'.
  Proof. intros H. replace n' with (n + (n' - n)) by lia. rewrite off_seq. lia. Qed.
  Lemma off_lt n n' : n < n' -> off n + sz n <= off n'.
  Proof. intros H. rewrite <- off_S. now apply off_le. Qed.
  (* the cells of different lines are different *)
  Lemma off_inj n n' i : i < sz n' -> off n <= off n' + i < off n + sz n -> n = n'.
  Proof.
    intros H1 H2. destruct (lt_eq_lt_dec n n') as [[Lt|]|Gt]; auto.
    - apply off_lt in Lt. lia.
    - apply off_lt in Gt. lia.
  Qed.
  Lemma off_range a k n i : i < sz n -> (off a <= off n + i < off (a + k) <-> a <= n < a + k).
  Proof.
    intros Hi. split; intros H.
    - split.
      + destruct (le_lt_dec a n) as [|Lt]; auto. apply off_lt in Lt. lia.
      + destruct (le_lt_dec (a + k) n) as [Le|]; auto. apply off_le in Le. lia.
    - split.
      + destruct H as [H _]. apply off_le in H. lia.
      + destruct H as [_ H]. apply off_lt in H. lia.
  Qed.
End Layout.

Section Stage.
  Context {V : Type} (op : V -> V -> V) (size_of : nat -> nat) (N : nat) (blk : nat -> block) (node : nat) (F : nat -> nat) (i : nat).
  Notation memory := (@memory V).
  Local Notation b := (blk node).
  Local Notation sz := (sz size_of F).
  Local Notation off := (off size_of F).
  Context (lay : forall n, n < num_lines b -> frac (lines b n) = F n).
  Context (WM : well_matched N blk) (Hnode : node < N).

  (* cell i of every line *)
  Definition rel (am : nat -> V) (m : memory) : Prop :=
    forall n, i < sz n -> m (Shm 0, off n + i) = am n.

  Lemma lsize_sz n : n < num_lines b -> line_size size_of b n = sz n.
  Proof. intros H. unfold line_size, RawStage.sz. now rewrite lay. Qed.
  Lemma lstart_off n : n <= num_lines b -> line_start size_of b n = off n.
  Proof.
    intros H. unfold line_start. rewrite fold_add. cbn. unfold RawStage.off. f_equal. apply map_ext_in.
    intros k Hk. apply in_seq in Hk. apply lsize_sz. lia.
  Qed.

  Lemma rel_ext am am' m : (forall n, i < sz n -> am n = am' n) -> rel am m -> rel am' m.
  Proof. intros E H n Hn. now rewrite <- E, H. Qed.

  Lemma rel_reduce am m n r : F r = F n -> rel am m ->
    rel (upd Nat.eq_dec am n (op (am n) (am r))) (exec_local op (Reduce_ (Shm 0, off n) (Shm 0, off r) (sz n)) m).
  Proof.
    intros E H n' Hn'. cbn [exec_local]. destruct (Nat.eq_dec n' n) as [->|Ne].
    - rewrite upd_same. replace (inside (Shm 0, off n) (sz n) (Shm 0, off n + i)) with true.
      + rewrite H by auto. f_equal. cbn [snd]. replace (off n + i - off n) with i by lia. apply H.
        unfold RawStage.sz in *. now rewrite E.
      + symmetry. apply inside_spec. cbn. split; auto. lia.
    - rewrite upd_other by auto. destruct (inside _ _ _) eqn:I; auto.
      exfalso. apply inside_spec in I. cbn in I. apply Ne. symmetry. eapply off_inj; [exact Hn'|]. tauto.
  Qed.
  Lemma rel_copy am m n r : F r = F n -> rel am m ->
    rel (upd Nat.eq_dec am n (am r)) (exec_local op (Memcpy (Shm 0, off n) (Shm 0, off r) (sz n)) m).
  Proof.
    intros E H n' Hn'. cbn [exec_local]. destruct (Nat.eq_dec n' n) as [->|Ne].
    - rewrite upd_same. replace (inside (Shm 0, off n) (sz n) (Shm 0, off n + i)) with true.
      + cbn [snd]. replace (off n + i - off n) with i by lia. apply H.
        unfold RawStage.sz in *. now rewrite E.
      + symmetry. apply inside_spec. cbn. split; auto. lia.
    - rewrite upd_other by auto. destruct (inside _ _ _) eqn:I; auto.
      exfalso. apply inside_spec in I. cbn in I. apply Ne. symmetry. eapply off_inj; [exact Hn'|]. tauto.
  Qed.
  Lemma rel_empty am m n v : sz n = 0 -> rel am m -> rel (upd Nat.eq_dec am n v) m.
  Proof.
    intros Z H n' Hn'. rewrite upd_other; auto. intros ->. lia.
  Qed.

  Lemma index_ok n : n < num_lines b ->
    Forall (fun r => r < num_lines b /\ F r = F n) (reducefrom (lines b n) ++ copyreducefrom (lines b n)).
  Proof.
    intros H. destruct WM as [_ W]. destruct (W node n Hnode H) as [_ R].
    eapply Forall_impl; [|exact R]. cbn. intros r [A E]. split; auto. rewrite <- !lay; auto.
  Qed.

  Lemma reduces_rel am m : rel am m -> rel (reduced op blk node am) (exec_list op (reduces size_of b) m).
  Proof.
    unfold reduces, reduced. rewrite exec_flat.
    assert (G : forall n, In n (seq 0 (num_lines b)) -> n < num_lines b) by (intros n I; apply in_seq in I; lia).
    revert G am m. induction (seq 0 (num_lines b)) as [|n ns IH]; cbn [fold_left]; intros G am m H; auto.
    apply IH; [intros; apply G; now right|].
    assert (Hn : n < num_lines b) by (apply G; now left).
    pose proof (index_ok n Hn) as X. apply Forall_app in X. destruct X as [X _].
    unfold reduce_line. rewrite exec_flat. clear G IH. revert X am m H.
    induction (reducefrom (lines b n)) as [|r rs IHr]; cbn [fold_left]; intros X am m H; auto.
    inversion X as [|? ? [Hr E] X']; subst. apply IHr; auto.
    rewrite lsize_sz, !lstart_off by lia. destruct (Nat.eqb_spec (sz n) 0) as [Z|Z].
    - now apply rel_empty.
    - now apply rel_reduce.
  Qed.
  Lemma copyreduces_rel am m : rel am m -> rel (copyreduced op blk node am) (exec_list op (copyreduces size_of b) m).
  Proof.
    unfold copyreduces, copyreduced. rewrite exec_flat.
    assert (G : forall n, In n (seq 0 (num_lines b)) -> n < num_lines b) by (intros n I; apply in_seq in I; lia).
    revert G am m. induction (seq 0 (num_lines b)) as [|n ns IH]; cbn [fold_left]; intros G am m H; auto.
    apply IH; [intros; apply G; now right|].
    assert (Hn : n < num_lines b) by (apply G; now left).
    pose proof (index_ok n Hn) as X. apply Forall_app in X. destruct X as [_ X].
    unfold copyreduce_line. rewrite lsize_sz by auto. clear G IH.
    destruct (copyreducefrom (lines b n)) as [|r0 rs]; [now destruct (_ =? 0)|].
    inversion X as [|? ? [Hr E] X']; subst. clear X.
    destruct (Nat.eqb_spec (sz n) 0) as [Z|Z].
    - cbn [exec_list fold_left]. assert (H0 : rel (upd Nat.eq_dec am n (am r0)) m) by now apply rel_empty.
      revert H0. generalize (upd Nat.eq_dec am n (am r0)). clear H. induction rs as [|r rs IHr]; cbn [fold_left]; intros am' H'; auto.
      inversion X'; subst. apply IHr; auto. now apply rel_empty.
    - cbn [exec_list fold_left]. rewrite !lstart_off by lia.
      assert (H0 : rel (upd Nat.eq_dec am n (am r0)) (exec_local op (Memcpy (Shm 0, off n) (Shm 0, off r0) (sz n)) m)) by now apply rel_copy.
      revert H0. generalize (upd Nat.eq_dec am n (am r0)) (exec_local op (Memcpy (Shm 0, off n) (Shm 0, off r0) (sz n)) m). clear H.
      induction rs as [|r rs IHr]; cbn [fold_left map]; intros am' m' H'; auto.
      inversion X' as [|? ? [Hr' E'] X2]; subst. apply IHr; auto. rewrite lstart_off by lia. now apply rel_reduce.
  Qed.

  (* ---------- unpacking ---------- *)
  Lemma rlines_recv q : q <> node -> rlines node b q = recv_lines blk node q.
  Proof.
    intros H. unfold rlines, recv_lines. apply filter_ext. intros n. unfold receives_from.
    apply Nat.eqb_neq in H. rewrite H. cbn. now rewrite andb_true_r.
  Qed.
  Lemma rlines_self : rlines node b node = [].
  Proof.
    unfold rlines. induction (seq 0 (num_lines b)); cbn; auto. unfold receives_from at 1. rewrite Nat.eqb_refl.
    cbn. rewrite andb_false_r. auto.
  Qed.
  Lemma first_start_eq q : forall ns j, first_start size_of node b q ns j =
    match filter (receives_from node b q) ns with
    | [] => j + sum (map (line_size size_of b) ns)
    | f :: _ => first_start size_of node b q ns j
    end.
  Proof.
    intros ns. induction ns as [|n ns IH]; cbn [first_start filter map sum]; intros j; [lia|].
    destruct (receives_from node b q n) eqn:E; cbn [filter]; auto. rewrite IH. destruct (filter _ ns); auto. lia.
  Qed.
  Lemma first_start_at q a : forall n0 k rest, n0 + k <= num_lines b ->
    filter (receives_from node b q) (seq n0 k) = a :: rest ->
    first_start size_of node b q (seq n0 k) (line_start size_of b n0) = line_start size_of b a.
  Proof.
    intros n0 k. revert n0. induction k as [|k IH]; cbn [seq filter first_start]; intros n0 rest Hk E; [discriminate|].
    destruct (receives_from node b q n0) eqn:R.
    - injection E as -> _. reflexivity.
    - replace (line_start size_of b n0 + line_size size_of b n0) with (line_start size_of b (S n0)).
      + apply (IH (S n0) rest); auto. lia.
      + rewrite !lstart_off, lsize_sz by lia. apply off_S.
  Qed.

  (* the messages that were received *)
  Context (st : nat -> nat -> V) (pieces : nat -> nat -> list V) (d : V).
  Context (pieces_len : forall p x, p < N -> x < num_lines (blk p) -> length (pieces p x) = size_of (frac (lines (blk p) x))).
  Context (pieces_val : forall p x, p < N -> x < num_lines (blk p) -> i < size_of (frac (lines (blk p) x)) -> nth i (pieces p x) d = st p x).
  Definition content (p : nat) : list V := flat_map (pieces p) (sent_lines blk p node).

  Lemma sent_lines_lt p q x : In x (sent_lines blk p q) -> x < num_lines (blk p).
  Proof.
    intros H. unfold sent_lines in H. apply in_flat_map in H. destruct H as (n & Hn & H).
    apply in_map_iff in H. destruct H as (e & <- & _). apply in_seq in Hn. lia.
  Qed.

  Section One.
    Context (p a len_ : nat) (Hp : p < N) (Np : p <> node).
    Context (RL : recv_lines blk node p = seq a len_).
    Lemma recv_range : forall k, k < len_ -> a + k < num_lines b.
    Proof.
      intros k Hk. assert (I : In (a + k) (recv_lines blk node p)) by (rewrite RL; apply in_seq; lia).
      unfold recv_lines in I. apply filter_In in I. destruct I as [I _]. apply in_seq in I. lia.
    Qed.
    Lemma recv_range_end : len_ <> 0 -> a + len_ <= num_lines b.
    Proof. intros H. pose proof (recv_range (len_ - 1)). lia. Qed.
    Lemma fracs_eq : map (fun n => frac (lines (blk p) n)) (sent_lines blk p node) = map F (seq a len_).
    Proof.
      destruct WM as [W _]. destruct (W p node Hp Hnode Np) as [E _]. rewrite E, RL.
      apply map_ext_in. intros n Hn. apply in_seq in Hn. apply lay.
      replace n with (a + (n - a)) by lia. apply recv_range. lia.
    Qed.
    Lemma sent_len : length (sent_lines blk p node) = len_.
    Proof.
      pose proof fracs_eq as E. apply (f_equal (@length _)) in E. rewrite !map_length, seq_length in E. exact E.
    Qed.
    Lemma total_size : recv_size size_of node b p = off (a + len_) - off a.
    Proof.
      rewrite rsize_eq, rlines_recv by auto. rewrite RL, off_seq.
      replace (map (line_size size_of b) (seq a len_)) with (map sz (seq a len_)); [lia|].
      apply map_ext_in. intros n Hn. apply in_seq in Hn. symmetry. apply lsize_sz.
      replace n with (a + (n - a)) by lia. apply recv_range. lia.
    Qed.
    Lemma content_at k x : nth_error (sent_lines blk p node) k = Some x ->
      i < sz (a + k) -> nth (off (a + k) - off a + i) (content p) d = st p x.
    Proof.
      intros E Hi.
      assert (Hx : x < num_lines (blk p)) by (eapply sent_lines_lt, nth_error_In; eauto).
      assert (Hk : k < len_) by (rewrite <- sent_len; apply nth_error_Some; congruence).
      assert (Ff : frac (lines (blk p) x) = F (a + k)).
      { pose proof fracs_eq as G. apply (f_equal (fun l => nth_error l k)) in G.
        rewrite (map_nth_error _ _ _ E) in G. rewrite nth_error_map in G.
        rewrite (nth_error_nth' _ 0) in G by (now rewrite seq_length). rewrite seq_nth in G by auto. cbn in G. congruence. }
      assert (S : sum (map (fun y => length (pieces p y)) (firstn k (sent_lines blk p node))) = off (a + k) - off a).
      { rewrite off_seq. replace (off a + _ - off a) with (sum (map sz (seq a k))) by lia.
        pose proof fracs_eq as G. apply (f_equal (firstn k)) in G. rewrite !firstn_map in G.
        replace (firstn k (seq a len_)) with (seq a k) in G.
        2:{ replace len_ with (k + (len_ - k)) by lia. rewrite seq_app, firstn_app, seq_length, Nat.sub_diag. cbn.
            rewrite app_nil_r. symmetry. apply firstn_all2. now rewrite seq_length. }
        transitivity (sum (map size_of (map (fun n => frac (lines (blk p) n)) (firstn k (sent_lines blk p node))))).
        - rewrite map_map. f_equal. apply map_ext_in. intros y Hy. apply pieces_len; auto.
          eapply sent_lines_lt. rewrite <- (firstn_skipn k). apply in_or_app. left. exact Hy.
        - rewrite G, map_map. reflexivity. }
      unfold content. rewrite <- S. rewrite (nth_flat (pieces p) _ k i x); auto.
      - apply pieces_val; auto. now rewrite Ff.
      - rewrite pieces_len by auto. now rewrite Ff.
    Qed.
  End One.

  (* the lines of another line's message *)
  Lemma unpack_rel am m p c : p < N ->
    rel am m -> recv_size size_of node b p <> 0 -> c <> 0 ->
    (forall j, j < recv_size size_of node b p -> m (Shm c, j) = nth j (content p) d) ->
    rel (unpack op blk st node am p)
        (exec_list op [match recvfrom (lines b (last_receiving node b p)) with
                       | e :: _ => if is_node node e
                                   then Reduce_ (Shm 0, first_start size_of node b p (seq 0 (num_lines b)) 0) (Shm c, 0) (recv_size size_of node b p)
                                   else Memcpy (Shm 0, first_start size_of node b p (seq 0 (num_lines b)) 0) (Shm c, 0) (recv_size size_of node b p)
                       | [] => Memcpy (Shm 0, first_start size_of node b p (seq 0 (num_lines b)) 0) (Shm c, 0) (recv_size size_of node b p)
                       end] m).
  Proof.
    intros Hp H Z Hc C.
    assert (Np : p <> node).
    { intros ->. apply Z. rewrite rsize_eq, rlines_self. reflexivity. }
    unfold unpack. apply Nat.eqb_neq in Np as Np'. rewrite Np'.
    destruct WM as [W _]. destruct (W p node Hp Hnode Np) as [_ [a RL]].
    remember (length (recv_lines blk node p)) as len_ eqn:EL.
    assert (TS := total_size p a len_ Hp Np RL).
    assert (FS : first_start size_of node b p (seq 0 (num_lines b)) 0 = off a).
    { destruct len_ as [|l]; [exfalso; rewrite TS, Nat.add_0_r in Z; lia|].
      cbn [seq] in RL. rewrite <- rlines_recv in RL by auto.
      pose proof (first_start_at p a 0 (num_lines b) (seq (S a) l) (le_n _) RL) as X.
      rewrite lstart_off in X by lia. unfold RawStage.off at 1 in X. cbn [seq map sum] in X. rewrite X. apply lstart_off.
      apply Nat.lt_le_incl. replace a with (a + 0) by lia.
      apply (recv_range p a (S l)); auto; [rewrite <- rlines_recv by auto; exact RL|lia]. }
    assert (LR : last_receiving node b p = last (recv_lines blk node p) 0).
    { unfold last_receiving. rewrite fold_last. change (filter _ _) with (rlines node b p). now rewrite rlines_recv. }
    rewrite FS, LR, TS. rewrite TS in C, Z.
    assert (RI : (match recvfrom (lines b (last (recv_lines blk node p) 0)) with
                  | e :: _ => if is_node node e
                              then Reduce_ (Shm 0, off a) (Shm c, 0) (off (a + len_) - off a)
                              else Memcpy (Shm 0, off a) (Shm c, 0) (off (a + len_) - off a)
                  | [] => Memcpy (Shm 0, off a) (Shm c, 0) (off (a + len_) - off a)
                  end) = if reduces_into blk node (recv_lines blk node p)
                         then Reduce_ (Shm 0, off a) (Shm c, 0) (off (a + len_) - off a)
                         else Memcpy (Shm 0, off a) (Shm c, 0) (off (a + len_) - off a)).
    { unfold reduces_into. destruct (recvfrom _) as [|e es]; auto. }
    rewrite RI. clear RI. set (red := reduces_into blk node (recv_lines blk node p)). rewrite RL.
    destruct len_ as [|l] eqn:El; [exfalso; rewrite Nat.add_0_r in Z; lia|].
    change (seq a (S l)) with (a :: seq (S a) l). cbv beta iota. rewrite <- El in *.
    replace (length (a :: seq (S a) l)) with len_ by (cbn; rewrite seq_length; auto).
    intros n Hn. cbn [exec_list fold_left].
    assert (INS : inside (Shm 0, off a) (off (a + len_) - off a) (Shm 0, off n + i) = (a <=? n) && (n <? a + len_)).
    { apply eq_true_iff_eq. rewrite inside_spec, andb_true_iff, Nat.leb_le, Nat.ltb_lt. cbn [fst snd].
      pose proof (off_range size_of F a len_ n i Hn) as OR. pose proof (off_le size_of F a (a + len_)). 
      split.
      - intros [_ X]. apply OR. lia.
      - intros X. split; auto. apply OR in X. lia. }
    assert (VAL : (a <=? n) && (n <? a + len_) = true ->
      exists x, nth_error (sent_lines blk p node) (n - a) = Some x /\ m (Shm c, off n + i - off a) = st p x).
    { intros X. apply andb_true_iff in X. destruct X as [X1 X2]. apply Nat.leb_le in X1. apply Nat.ltb_lt in X2.
      destruct (nth_error (sent_lines blk p node) (n - a)) as [x|] eqn:Ex.
      - exists x. split; auto. 
        rewrite C.
        + pose proof (content_at p a len_ Hp Np RL (n - a) x Ex) as CA. replace (a + (n - a)) with n in CA by lia.
          rewrite <- CA by auto. f_equal. apply off_le with (size_of := size_of) (F := F) in X1. lia.
        + apply off_lt with (size_of := size_of) (F := F) in X2. apply off_le with (size_of := size_of) (F := F) in X1. lia.
      - exfalso. apply nth_error_None in Ex. rewrite (sent_len p a len_ Hp Np RL) in Ex. lia. }
    destruct red; cbn [exec_local]; rewrite INS; (destruct ((a <=? n) && (n <? a + len_)) eqn:IN; [|now apply H]);
    destruct (VAL eq_refl) as (x & Ex & Vx); unfold at_off; cbn [fst snd]; rewrite Nat.add_0_l.
    - rewrite H, Vx by auto. unfold message. rewrite map_map.
      symmetry. apply nth_error_nth. now rewrite nth_error_map, Ex.
    - rewrite Vx. unfold message. symmetry. apply nth_error_nth. now rewrite nth_error_map, Ex.
  Qed.

  (* nothing to be done: the lines are empty *)
  Lemma unpack_rel_empty am m p : p < N -> rel am m -> recv_size size_of node b p = 0 -> rel (unpack op blk st node am p) m.
  Proof.
    intros Hp H Z. unfold unpack. destruct (Nat.eqb_spec p node) as [|Np]; auto.
    destruct WM as [W _]. destruct (W p node Hp Hnode Np) as [_ [a RL]].
    remember (length (recv_lines blk node p)) as len_ eqn:EL.
    rewrite (total_size p a len_ Hp Np RL) in Z.
    set (red := reduces_into blk node (recv_lines blk node p)). rewrite RL. clear EL.
    destruct len_ as [|l]; [exact H|]. change (seq a (S l)) with (a :: seq (S a) l). cbv beta iota.
    replace (length (a :: seq (S a) l)) with (S l) by (cbn; now rewrite seq_length).
    intros n Hn. destruct ((a <=? n) && (n <? a + S l)) eqn:IN; [|now apply H].
    exfalso. apply andb_true_iff in IN. destruct IN as [X1 X2]. apply Nat.leb_le in X1. apply Nat.ltb_lt in X2.
    apply off_lt with (size_of := size_of) (F := F) in X2. apply off_le with (size_of := size_of) (F := F) in X1. lia.
  Qed.

  Lemma unpacks_rel os : forall c am m, 1 <= c -> (forall o, In o os -> from_node N node o < N) -> rel am m ->
    (forall r j, In r (recvs_of (receives size_of N node b os c)) -> j < len r -> m (at_off (place r) j) = nth j (content (peer r)) d) ->
    rel (fold_left (unpack op blk st node) (map (from_node N node) os) am)
        (exec_list op (unpacks size_of N node b os c) m).
  Proof.
    induction os as [|o os IH]; intros c am m Hc Ho H R; [exact H|]. cbn [map fold_left unpacks].
    cbn [receives] in R. destruct (Nat.eqb_spec (recv_size size_of node b (from_node N node o)) 0) as [Z|Z].
    - apply IH; auto; [intros; apply Ho; now right|]. apply unpack_rel_empty; auto. apply Ho. now left.
    - match goal with |- context [?x :: unpacks _ _ _ _ _ _] => change (x :: unpacks size_of N node b os (S c)) with ([x] ++ unpacks size_of N node b os (S c)) end.
      rewrite exec_list_app. apply IH; auto.
      + intros; apply Ho; now right.
      + apply unpack_rel; auto; try lia; [apply Ho; now left|]. intros j Hj.
        apply (R (Request (from_node N node o) (Shm c, 0) (recv_size size_of node b (from_node N node o))) j); [now left|exact Hj].
      + intros r j Ir Hj. rewrite <- R by (auto; now right).
        apply exec_list_other. constructor; [|constructor].
        apply in_recvs, receives_in in Ir. destruct Ir as (c' & E & Hc' & _). rewrite E.
        match goal with |- ?x = false => destruct x eqn:X; auto; exfalso end.
        destruct (recvfrom _) as [|e es]; [|destruct (is_node node e)]; cbn in X; apply inside_spec in X; cbn in X; destruct X as [X _]; injection X; intros; lia.
  Qed.

  (* the part of a stage behind waitall *)
  Lemma after_rel m : (forall o, o < N -> from_node N node o < N) -> rel (st node) m ->
    (forall r j, In r (recvs_of (receives size_of N node b (seq 0 N) 1)) -> j < len r -> m (at_off (place r) j) = nth j (content (peer r)) d) ->
    rel (stage op N blk st node) (exec_list op (after_code size_of N node b) m).
  Proof.
    intros HO H R. unfold stage, after_code.
    change (Barrier :: unpacks size_of N node b (seq 0 N) 1 ++ Barrier :: reduces size_of b ++ copyreduces size_of b)
      with ([Barrier] ++ unpacks size_of N node b (seq 0 N) 1 ++ [Barrier] ++ reduces size_of b ++ copyreduces size_of b).
    rewrite !exec_list_app. apply copyreduces_rel, reduces_rel.
    change (exec_list op [Barrier] ?x) with x. unfold received.
    apply unpacks_rel; auto.
    intros o Io. apply in_seq in Io. apply HO. lia.
  Qed.
End Stage.
