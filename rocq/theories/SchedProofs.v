(* General lemmas about assignments to blocks and about a stage. *)
From Verif Require Import Base SchedModel SchedSpec.

(* ----- assignments ----- *)

Lemma apply_writes_app b ws1 ws2 n :
  apply_writes b (ws1 ++ ws2) n = apply_writes (apply_writes b ws1) ws2 n.
Proof. unfold apply_writes; rewrite fold_left_app; reflexivity. Qed.

Lemma apply_writes_snoc b ws w n :
  apply_writes b (ws ++ [w]) n = apply_write (apply_writes b ws) w n.
Proof. rewrite apply_writes_app; reflexivity. Qed.

Lemma frac_writes b ws n : frac (apply_writes b ws n) = frac (b n).
Proof.
  induction ws using rev_ind; [reflexivity|].
  rewrite apply_writes_snoc; unfold apply_write.
  destruct (n =? fst x); [destruct (snd x)|]; exact IHws.
Qed.

Ltac field_none :=
  let w := fresh "w" in let IH := fresh "IH" in
  intros b ws n; induction ws as [|w ws IH] using rev_ind; intros H; [reflexivity|];
  rewrite apply_writes_snoc; unfold apply_write;
  rewrite <- IH by (intros v Hv; eapply H; apply in_or_app; left; eauto);
  destruct (Nat.eqb_spec n (fst w)) as [E|E]; [|reflexivity];
  destruct w as [m f]; cbn in *; subst;
  destruct f; try reflexivity; exfalso; eapply H; apply in_or_app; right; left; reflexivity.

Lemma sendto_none : forall b ws n, (forall v, ~ In (n, Send v) ws) ->
  sendto (apply_writes b ws n) = sendto (b n).
Proof. field_none. Qed.
Lemma recvfrom_none : forall b ws n, (forall v, ~ In (n, Recv v) ws) ->
  recvfrom (apply_writes b ws n) = recvfrom (b n).
Proof. field_none. Qed.
Lemma reducefrom_none : forall b ws n, (forall v, ~ In (n, Reduce v) ws) ->
  reducefrom (apply_writes b ws n) = reducefrom (b n).
Proof. field_none. Qed.
Lemma copyreducefrom_none : forall b ws n, (forall v, ~ In (n, CopyReduce v) ws) ->
  copyreducefrom (apply_writes b ws n) = copyreducefrom (b n).
Proof. field_none. Qed.

Ltac field_some :=
  let w := fresh "w" in let IH := fresh "IH" in
  intros b ws n v; induction ws as [|w ws IH] using rev_ind; intros H U; [destruct H|];
  rewrite apply_writes_snoc; unfold apply_write;
  destruct w as [m f]; cbn [fst snd];
  apply in_app_or in H; destruct H as [H|[H|[]]];
  [ specialize (IH H (fun v' Hv' => U v' (in_or_app _ _ _ (or_introl Hv'))));
    destruct (Nat.eqb_spec n m) as [E|E]; [|exact IH]; subst m;
    destruct f; try exact IH; cbn; apply U; apply in_or_app; right; left; reflexivity
  | injection H as -> ->; rewrite Nat.eqb_refl; reflexivity ].

Lemma sendto_some : forall b ws n v, In (n, Send v) ws ->
  (forall v', In (n, Send v') ws -> v' = v) -> sendto (apply_writes b ws n) = v.
Proof. field_some. Qed.
Lemma recvfrom_some : forall b ws n v, In (n, Recv v) ws ->
  (forall v', In (n, Recv v') ws -> v' = v) -> recvfrom (apply_writes b ws n) = v.
Proof. field_some. Qed.
Lemma reducefrom_some : forall b ws n v, In (n, Reduce v) ws ->
  (forall v', In (n, Reduce v') ws -> v' = v) -> reducefrom (apply_writes b ws n) = v.
Proof. field_some. Qed.
Lemma copyreducefrom_some : forall b ws n v, In (n, CopyReduce v) ws ->
  (forall v', In (n, CopyReduce v') ws -> v' = v) -> copyreducefrom (apply_writes b ws n) = v.
Proof. field_some. Qed.

(* ----- lists of lines ----- *)

Lemma filter_none {A} (f : A -> bool) l : (forall x, In x l -> f x = false) -> filter f l = [].
Proof.
  induction l as [|x l IH]; intros H; [reflexivity|]; cbn.
  rewrite (H x (or_introl eq_refl)). apply IH; intros; apply H; now right.
Qed.
Lemma filter_all {A} (f : A -> bool) l : (forall x, In x l -> f x = true) -> filter f l = l.
Proof.
  induction l as [|x l IH]; intros H; [reflexivity|]; cbn.
  rewrite (H x (or_introl eq_refl)). f_equal; apply IH; intros; apply H; now right.
Qed.

Lemma seq_split a k NL : a + k <= NL ->
  seq 0 NL = seq 0 a ++ seq a k ++ seq (a + k) (NL - (a + k)).
Proof.
  intros H. replace NL with (a + (k + (NL - (a + k)))) at 1 by lia.
  rewrite !seq_app; cbn. reflexivity.
Qed.

Lemma filter_seq (f : nat -> bool) NL a k : a + k <= NL ->
  (forall n, n < NL -> (f n = true <-> a <= n < a + k)) -> filter f (seq 0 NL) = seq a k.
Proof.
  intros Hle H. rewrite (seq_split a k NL Hle), !filter_app.
  rewrite (filter_none f (seq 0 a)), (filter_all f (seq a k)), (filter_none f (seq (a + k) _)).
  - cbn; apply app_nil_r.
  - intros x Hx; apply in_seq in Hx. apply not_true_is_false; intros E; apply H in E; lia.
  - intros x Hx; apply in_seq in Hx. apply H; lia.
  - intros x Hx; apply in_seq in Hx. apply not_true_is_false; intros E; apply H in E; lia.
Qed.

Lemma flat_map_nil {A B} (f : A -> list B) l : (forall x, In x l -> f x = []) -> flat_map f l = [].
Proof.
  induction l as [|x l IH]; intros H; [reflexivity|]; cbn.
  rewrite (H x (or_introl eq_refl)); apply IH; intros; apply H; now right.
Qed.
Lemma flat_map_self {A} (f : A -> list A) l : (forall x, In x l -> f x = [x]) -> flat_map f l = l.
Proof.
  induction l as [|x l IH]; intros H; [reflexivity|]; cbn.
  rewrite (H x (or_introl eq_refl)); cbn; f_equal; apply IH; intros; apply H; now right.
Qed.

Lemma sent_lines_seq blk p q a k : a + k <= num_lines (blk p) ->
  (forall n, n < num_lines (blk p) -> a <= n < a + k ->
     length (filter (is_node q) (sendto (lines (blk p) n))) = 1) ->
  (forall n, n < num_lines (blk p) -> ~ (a <= n < a + k) ->
     filter (is_node q) (sendto (lines (blk p) n)) = []) ->
  sent_lines blk p q = seq a k.
Proof.
  intros Hle H1 H0. unfold sent_lines.
  rewrite (seq_split a k _ Hle), !flat_map_app.
  rewrite (flat_map_nil _ (seq 0 a)), (flat_map_self _ (seq a k)), (flat_map_nil _ (seq (a + k) _)).
  - cbn; apply app_nil_r.
  - intros x Hx; apply in_seq in Hx. rewrite H0 by lia; reflexivity.
  - intros x Hx; apply in_seq in Hx. specialize (H1 x ltac:(lia) ltac:(lia)).
    destruct (filter _ _) as [|e [|? ?]]; cbn in *; try lia; reflexivity.
  - intros x Hx; apply in_seq in Hx. rewrite H0 by lia; reflexivity.
Qed.

Lemma sent_lines_nil blk p q :
  (forall n, n < num_lines (blk p) -> filter (is_node q) (sendto (lines (blk p) n)) = []) ->
  sent_lines blk p q = [].
Proof.
  intros H. apply flat_map_nil; intros x Hx; apply in_seq in Hx. rewrite H by lia; reflexivity.
Qed.

Lemma recv_lines_seq blk q p a k : a + k <= num_lines (blk q) ->
  (forall n, n < num_lines (blk q) ->
     (existsb (is_node p) (recvfrom (lines (blk q) n)) = true <-> a <= n < a + k)) ->
  recv_lines blk q p = seq a k.
Proof. intros Hle H. apply filter_seq; assumption. Qed.

Lemma recv_lines_nil blk q p :
  (forall n, n < num_lines (blk q) -> existsb (is_node p) (recvfrom (lines (blk q) n)) = false) ->
  recv_lines blk q p = [].
Proof. intros H; apply filter_none; intros x Hx; apply in_seq in Hx; apply H; lia. Qed.

(* ----- unpacking ----- *)

Lemma in_senders N q p : p < N -> q < N -> In p (map (fun o => (N + q - o) mod N) (seq 0 N)).
Proof.
  intros Hp Hq. apply in_map_iff.
  destruct (le_lt_dec p q).
  - exists (q - p). split; [|apply in_seq; lia].
    replace (N + q - (q - p)) with (p + 1 * N) by lia. rewrite Nat.mod_add by lia. apply Nat.mod_small; lia.
  - exists (N + q - p). split; [|apply in_seq; lia].
    replace (N + q - (N + q - p)) with p by lia. apply Nat.mod_small; lia.
Qed.
Lemma senders_lt N q p : In p (map (fun o => (N + q - o) mod N) (seq 0 N)) -> p < N.
Proof.
  intros H. apply in_map_iff in H. destruct H as (o & <- & Ho). apply in_seq in Ho.
  apply Nat.mod_upper_bound; lia.
Qed.

Section Received.
  Context {V : Type} (op : V -> V -> V) (N : nat) (blk : nat -> block) (st : nat -> nat -> V).

  (* adjacent receiving lines, none of them reducing *)
  Definition simple_recv (q : nat) : Prop := forall p, p < N -> p <> q ->
    (exists a, recv_lines blk q p = seq a (length (recv_lines blk q p))) /\
    reduces_into blk q (recv_lines blk q p) = false.

  Lemma unpack_miss q p mem n : p < N -> simple_recv q ->
    (p <> q -> ~ In n (recv_lines blk q p)) ->
    unpack op blk st q mem p n = mem n.
  Proof.
    intros Hp S Hn. unfold unpack. destruct (Nat.eqb_spec p q) as [|D]; [reflexivity|].
    destruct (S p Hp D) as ((a & Ha) & _). specialize (Hn D).
    remember (recv_lines blk q p) as l eqn:El. clear El.
    destruct l as [|f l]; [reflexivity|].
    destruct ((f <=? n) && (n <? f + length (f :: l))) eqn:B; [|reflexivity].
    exfalso. apply andb_true_iff in B. destruct B as [B1 B2].
    apply Nat.leb_le in B1. apply Nat.ltb_lt in B2.
    apply Hn. rewrite Ha. injection Ha as Ef _. subst f.
    apply in_seq. lia.
  Qed.

  Lemma unpack_hit q p mem n a k : p < N -> p <> q -> simple_recv q ->
    recv_lines blk q p = seq a k -> a <= n < a + k ->
    unpack op blk st q mem p n = nth (n - a) (message blk st p q) (mem n).
  Proof.
    intros Hp D S E Hn. unfold unpack. apply Nat.eqb_neq in D as D'. rewrite D'.
    destruct (S p Hp D) as (_ & R). rewrite R, E, seq_length.
    destruct k as [|k]; [lia|]. cbn [seq].
    replace ((a <=? n) && (n <? a + Datatypes.S k)) with true; [reflexivity|].
    symmetry; apply andb_true_iff; split; [apply Nat.leb_le|apply Nat.ltb_lt]; lia.
  Qed.

  Lemma nth_nth (A : Type) k (l : list A) d : nth k l (nth k l d) = nth k l d.
  Proof.
    destruct (Nat.lt_ge_cases k (length l)); [apply nth_indep; assumption|].
    rewrite !(nth_overflow l) by assumption; reflexivity.
  Qed.

  Lemma received_miss q n : simple_recv q ->
    (forall p, p < N -> p <> q -> ~ In n (recv_lines blk q p)) ->
    received op N blk st q n = st q n.
  Proof.
    intros S H. unfold received.
    assert (Hl : forall p, In p (map (fun o => (N + q - o) mod N) (seq 0 N)) -> p < N) by (intros p; apply senders_lt).
    revert Hl. generalize (map (fun o => (N + q - o) mod N) (seq 0 N)) as l.
    induction l as [|p l IH] using rev_ind; intros Hl; [reflexivity|].
    rewrite fold_left_app; cbn [fold_left].
    rewrite unpack_miss.
    - apply IH; intros; apply Hl, in_or_app; now left.
    - apply Hl, in_or_app; right; now left.
    - assumption.
    - intros D; apply H; [|assumption]. apply Hl, in_or_app; right; now left.
  Qed.

  Lemma received_hit q p n a k : p < N -> q < N -> p <> q -> simple_recv q ->
    recv_lines blk q p = seq a k -> a <= n < a + k ->
    (forall p', p' < N -> p' <> q -> p' <> p -> ~ In n (recv_lines blk q p')) ->
    received op N blk st q n = nth (n - a) (message blk st p q) (st q n).
  Proof.
    intros Hp Hq D S E Hn H. unfold received.
    assert (Hl : forall p, In p (map (fun o => (N + q - o) mod N) (seq 0 N)) -> p < N) by (intros p0; apply senders_lt).
    assert (Hi := in_senders N q p Hp Hq).
    revert Hl Hi. generalize (map (fun o => (N + q - o) mod N) (seq 0 N)) as l. intros l Hl Hi.
    enough (G : fold_left (unpack op blk st q) l (st q) n = nth (n - a) (message blk st p q) (st q n) \/
                ~ In p l /\ fold_left (unpack op blk st q) l (st q) n = st q n)
      by (destruct G as [G|[G _]]; [exact G|contradiction]).
    clear Hi. induction l as [|p' l IH] using rev_ind; [right; split; auto|].
    rewrite fold_left_app; cbn [fold_left].
    specialize (IH (fun p0 H0 => Hl p0 (in_or_app _ _ _ (or_introl H0)))).
    assert (Hp' : p' < N) by (apply Hl, in_or_app; right; now left).
    destruct (Nat.eq_dec p' p) as [->|D'].
    - left. rewrite (unpack_hit q p _ n a k) by assumption.
      destruct IH as [->|[_ ->]]; [apply nth_nth|reflexivity].
    - rewrite unpack_miss; auto.
      destruct IH as [IH|[I1 I2]]; [left; exact IH|right; split; [|exact I2]].
      intros I; apply in_app_or in I; destruct I as [I|[I|[]]]; congruence.
  Qed.

  Lemma message_nth p q a k j d : sent_lines blk p q = seq a k -> j < k ->
    nth j (message blk st p q) d = st p (a + j).
  Proof.
    intros E Hj. unfold message. rewrite E.
    rewrite (nth_indep _ d (st p 0)) by (rewrite map_length, seq_length; lia).
    rewrite map_nth, seq_nth by lia. reflexivity.
  Qed.
End Received.

(* ----- reductions ----- *)
Section Reduced.
  Context {V : Type} (op : V -> V -> V) (blk : nat -> block).

  Lemma reduce_line_other q mem n m : m <> n -> reduce_line op blk q mem n m = mem m.
  Proof.
    intros D. unfold reduce_line. generalize (reducefrom (lines (blk q) n)) as l.
    intros l; revert mem; induction l as [|r l IH]; intros mem; [reflexivity|].
    cbn [fold_left]. rewrite IH. apply upd_other; congruence.
  Qed.
  Lemma reduce_line_same q mem n :
    ~ In n (reducefrom (lines (blk q) n)) ->
    reduce_line op blk q mem n n =
    fold_left (fun a r => op a (mem r)) (reducefrom (lines (blk q) n)) (mem n).
  Proof.
    unfold reduce_line. generalize (reducefrom (lines (blk q) n)) as l.
    intros l; revert mem; induction l as [|r l IH]; intros mem H; [reflexivity|].
    cbn [fold_left]. rewrite IH by (intros I; apply H; now right).
    rewrite upd_same. cbn in H.
    assert (G : forall (m1 m2 : nat -> V) a, (forall x, In x l -> m1 x = m2 x) ->
              fold_left (fun a r => op a (m1 r)) l a = fold_left (fun a r => op a (m2 r)) l a).
    { clear. induction l as [|r l IH]; intros m1 m2 a Hm; [reflexivity|]. cbn.
      rewrite (Hm r (or_introl eq_refl)). apply IH; intros; apply Hm; now right. }
    apply G. intros x Hx. apply upd_other. intros ->. apply H; now right.
  Qed.

  Lemma fold_reduce_other q l mem m : ~ In m l ->
    fold_left (reduce_line op blk q) l mem m = mem m.
  Proof.
    revert mem; induction l as [|n l IH]; intros mem H; [reflexivity|].
    cbn [fold_left]. rewrite IH by (intros I; apply H; now right).
    apply reduce_line_other. intros ->; apply H; now left.
  Qed.
  Lemma fold_reduce_nil q l mem m : reducefrom (lines (blk q) m) = [] ->
    fold_left (reduce_line op blk q) l mem m = mem m.
  Proof.
    intros E. revert mem; induction l as [|n l IH]; intros mem; [reflexivity|].
    cbn [fold_left]. rewrite IH.
    destruct (Nat.eq_dec m n) as [->|D]; [|apply reduce_line_other; assumption].
    unfold reduce_line. rewrite E; reflexivity.
  Qed.

  Lemma reduced_nil q mem m : reducefrom (lines (blk q) m) = [] -> reduced op blk q mem m = mem m.
  Proof. apply fold_reduce_nil. Qed.
  Lemma reduced_out q mem m : num_lines (blk q) <= m -> reduced op blk q mem m = mem m.
  Proof. intros H. apply fold_reduce_other. rewrite in_seq; lia. Qed.

  Lemma reduced_at q mem n : n < num_lines (blk q) ->
    (forall r, In r (reducefrom (lines (blk q) n)) -> r <> n /\ reducefrom (lines (blk q) r) = []) ->
    reduced op blk q mem n = fold_left (fun a r => op a (mem r)) (reducefrom (lines (blk q) n)) (mem n).
  Proof.
    intros Hn H. unfold reduced.
    replace (num_lines (blk q)) with (n + (1 + (num_lines (blk q) - n - 1))) by lia.
    rewrite seq_app, seq_app, !fold_left_app. cbn [seq fold_left plus].
    rewrite fold_reduce_other by (rewrite in_seq; lia).
    rewrite reduce_line_same by (intros I; apply H in I; tauto).
    rewrite fold_reduce_other by (rewrite in_seq; lia).
    assert (G : forall l (m1 m2 : nat -> V) a, (forall x, In x l -> m1 x = m2 x) ->
              fold_left (fun a r => op a (m1 r)) l a = fold_left (fun a r => op a (m2 r)) l a).
    { clear. induction l as [|r l IH]; intros m1 m2 a Hm; [reflexivity|]. cbn.
      rewrite (Hm r (or_introl eq_refl)). apply IH; intros; apply Hm; now right. }
    apply G. intros x Hx. apply fold_reduce_nil, H, Hx.
  Qed.

  Lemma copyreduced_id q mem n :
    (forall m, copyreducefrom (lines (blk q) m) = []) -> copyreduced op blk q mem n = mem n.
  Proof.
    intros H. unfold copyreduced. generalize (seq 0 (num_lines (blk q))) as l.
    intros l; revert mem; induction l as [|m l IH]; intros mem; [reflexivity|].
    cbn [fold_left]. rewrite IH. unfold copyreduce_line; rewrite H; reflexivity.
  Qed.
End Reduced.
