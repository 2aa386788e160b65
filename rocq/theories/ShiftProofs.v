(* A stage in which every node sends to the nodes at some distances, the same
   lines at every node, and receives each message in adjacent lines. *)
From Verif Require Import Base SchedModel SchedSpec SchedProofs RecursiveArith RecursiveProofs MatchProofs CyclicProofs.
Local Ltac Zify.zify_post_hook ::= idtac.

Lemma filter_fst_length (q : nat) (l : list (Z * nat)) :
  length (filter (is_node q) l) = length (filter (fun z => z =? Z.of_nat q)%Z (map fst l)).
Proof. induction l as [|e l IH]; [reflexivity|]. cbn. unfold is_node at 1. destruct (_ =? _)%Z; cbn; lia. Qed.
Lemma existsb_fst (q : nat) (l : list (Z * nat)) :
  existsb (is_node q) l = existsb (fun z => z =? Z.of_nat q)%Z (map fst l).
Proof. induction l as [|e l IH]; [reflexivity|]. cbn. now rewrite IH. Qed.
Lemma flat_map_pick {A} (f : A -> list A) (g : A -> bool) l :
  (forall x, In x l -> f x = if g x then [x] else []) -> flat_map f l = filter g l.
Proof.
  induction l as [|x l IH]; intros H; [reflexivity|]. cbn. rewrite (H x (or_introl eq_refl)), IH by (intros; apply H; now right).
  now destruct (g x).
Qed.
Lemma count_one (Q : nat -> bool) (R : nat -> bool) P i : i < P -> (forall k, k < P -> R k = true <-> k = i) ->
  length (filter R (filter Q (seq 0 P))) = if Q i then 1 else 0.
Proof.
  intros Hi HR. assert (E : filter R (filter Q (seq 0 P)) = filter Q (filter R (seq 0 P))).
  { generalize (seq 0 P). induction l as [|x l IH]; [reflexivity|]. cbn.
    destruct (Q x) eqn:EQ, (R x) eqn:ER; cbn; rewrite ?EQ, ?ER, IH; reflexivity. }
  rewrite E, (filter_seq R P i 1) by (try lia; intros k Hk; rewrite HR by auto; lia). cbn. now destruct (Q i).
Qed.

Section Shift.
  Context (N NL P : nat) (blk : nat -> block) (d : nat -> nat) (pick : nat -> nat -> bool) (b : nat -> nat).
  Local Notation out i := (filter (pick i) (seq 0 NL)).
  Local Notation c i := (length (out i)).
  Local Notation hits i n := ((b i <=? n) && (n <? b i + c i)).
  Context (Dlt : forall i, i < P -> 0 < d i < N) (Dinj : forall i k, i < P -> k < P -> d i = d k -> i = k).
  Context (Hlen : forall q, q < N -> num_lines (blk q) = NL).
  Context (Hsend : forall q n, q < N -> n < NL ->
    map fst (sendto (lines (blk q) n)) = map (fun i => Z.of_nat ((q + d i) mod N)) (filter (fun i => pick i n) (seq 0 P))).
  Context (Hrecv : forall q n, q < N -> n < NL ->
    map fst (recvfrom (lines (blk q) n)) = map (fun i => Z.of_nat ((q + N - d i) mod N)) (filter (fun i => hits i n) (seq 0 P))).
  Context (HNL : 0 < NL) (Hb : forall i, i < P -> b i + c i <= NL).
  Context (Hdis : forall i k n, i < P -> k < P -> hits i n = true -> hits k n = true -> i = k).

  Lemma target q i k : q < N -> i < P -> k < P -> (q + d i) mod N = (q + d k) mod N -> i = k.
  Proof.
    intros Hq Hi Hk E. apply Dinj; auto. pose proof (Dlt i Hi). pose proof (Dlt k Hk). apply (shift_inj N q); lia.
  Qed.
  Lemma source q i k : q < N -> i < P -> k < P -> (q + N - d i) mod N = (q + N - d k) mod N -> i = k.
  Proof.
    intros Hq Hi Hk E. pose proof (Dlt i Hi). pose proof (Dlt k Hk).
    assert (Hv : (q + N - d k) mod N < N) by (apply Nat.mod_upper_bound; lia).
    remember ((q + N - d k) mod N) as v eqn:Ev. symmetry in Ev.
    apply back_forth in E; [|lia..]. apply back_forth in Ev; [|lia..].
    apply Dinj; auto. apply (shift_inj N v); lia.
  Qed.
  Lemma source_lt q i : q < N -> (q + N - d i) mod N < N.
  Proof. intros H. apply Nat.mod_upper_bound. lia. Qed.
  Lemma source_not q i : q < N -> i < P -> (q + N - d i) mod N <> q.
  Proof.
    intros Hq Hi E. pose proof (Dlt i Hi). apply back_forth in E; [|lia..]. apply shift_self in E; lia.
  Qed.

  Lemma shift_sent p q i : p < N -> q < N -> i < P -> (p + d i) mod N = q -> sent_lines blk p q = out i.
  Proof.
    intros Hp Hq Hi E. unfold sent_lines. rewrite Hlen by auto. apply flat_map_pick. intros n I. apply in_seq in I.
    assert (C : length (filter (is_node q) (sendto (lines (blk p) n))) = if pick i n then 1 else 0).
    { rewrite filter_fst_length, Hsend by (auto; lia).
      rewrite <- (count_one (fun i => pick i n) (fun k => Z.of_nat ((p + d k) mod N) =? Z.of_nat q)%Z P i Hi).
      - rewrite <- (map_length (fun k => Z.of_nat ((p + d k) mod N))).
        generalize (filter (fun i => pick i n) (seq 0 P)). induction l as [|k l IH]; [reflexivity|]. cbn [map filter].
        destruct (_ =? _)%Z; cbn [map length]; now rewrite IH.
      - intros k Hk. rewrite Z.eqb_eq. split; [|intros ->; now rewrite E].
        intros X. apply Nat2Z.inj in X. apply (target p); auto. congruence. }
    destruct (filter _ _) as [|e [|? ?]]; cbn in C |- *; destruct (pick i n); auto; lia.
  Qed.
  Lemma shift_sent_none p q : p < N -> q < N -> (forall i, i < P -> (p + d i) mod N <> q) -> sent_lines blk p q = [].
  Proof.
    intros Hp Hq H. apply sent_lines_nil. rewrite Hlen by auto. intros n Hn.
    assert (C : length (filter (is_node q) (sendto (lines (blk p) n))) = 0).
    { rewrite filter_fst_length, Hsend by auto. rewrite filter_none; [reflexivity|]. intros z I.
      apply in_map_iff in I. destruct I as (i & <- & I). apply filter_In in I. destruct I as [I _]. apply in_seq in I.
      apply Z.eqb_neq. intros X. apply Nat2Z.inj in X. apply (H i); auto. lia. }
    now destruct (filter _ _).
  Qed.
  Lemma recv_hit q p n : q < N -> p < N -> n < NL ->
    existsb (is_node p) (recvfrom (lines (blk q) n)) = true <-> exists i, i < P /\ hits i n = true /\ (q + N - d i) mod N = p.
  Proof.
    intros Hq Hp Hn. rewrite existsb_fst, Hrecv, existsb_exists by auto. split.
    - intros (z & I & E). apply in_map_iff in I. destruct I as (i & <- & I). apply filter_In in I. destruct I as [I H].
      apply in_seq in I. exists i. split; [lia|]. split; auto. apply Z.eqb_eq in E. now apply Nat2Z.inj in E.
    - intros (i & Hi & H & E). exists (Z.of_nat ((q + N - d i) mod N)). split; [|apply Z.eqb_eq; now rewrite E].
      apply in_map_iff. exists i. split; auto. apply filter_In. split; auto. apply in_seq. lia.
  Qed.
  Lemma shift_recv q p i : q < N -> p < N -> i < P -> (q + N - d i) mod N = p -> recv_lines blk q p = seq (b i) (c i).
  Proof.
    intros Hq Hp Hi E. apply recv_lines_seq; rewrite Hlen by auto; [auto|]. intros n Hn. rewrite recv_hit by auto. split.
    - intros (k & Hk & H & Ek). assert (k = i) by (apply (source q); auto; congruence). subst k.
      apply andb_true_iff in H. rewrite Nat.leb_le, Nat.ltb_lt in H. lia.
    - intros H. exists i. split; auto. split; auto. apply andb_true_iff. rewrite Nat.leb_le, Nat.ltb_lt. lia.
  Qed.
  Lemma shift_recv_none q p : q < N -> p < N -> (forall i, i < P -> (q + N - d i) mod N <> p) -> recv_lines blk q p = [].
  Proof.
    intros Hq Hp H. apply recv_lines_nil. rewrite Hlen by auto. intros n Hn. apply not_true_is_false. rewrite recv_hit by auto.
    intros (i & Hi & _ & E). now apply (H i).
  Qed.
  Lemma channel q p : q < N -> p < N -> (exists i, i < P /\ (q + N - d i) mod N = p) \/ (forall i, i < P -> (q + N - d i) mod N <> p).
  Proof.
    intros Hq Hp. destruct (existsb (fun i => (q + N - d i) mod N =? p) (seq 0 P)) eqn:E.
    - left. apply existsb_exists in E. destruct E as (i & I & E). apply in_seq in I. exists i. split; [lia|]. now apply Nat.eqb_eq.
    - right. intros i Hi X. assert (Y : existsb (fun i => (q + N - d i) mod N =? p) (seq 0 P) = true); [|congruence].
      apply existsb_exists. exists i. split; [apply in_seq; lia|now apply Nat.eqb_eq].
  Qed.
  Lemma channel_back q p i : q < N -> p < N -> i < P -> (q + N - d i) mod N = p <-> (p + d i) mod N = q.
  Proof. intros Hq Hp Hi. pose proof (Dlt i Hi). apply back_forth; lia. Qed.

  Lemma no_self q n : q < N -> n < NL -> match recvfrom (lines (blk q) n) with e :: _ => is_node q e | [] => false end = false.
  Proof.
    intros Hq Hn. destruct (recvfrom _) as [|e l] eqn:R; auto. destruct (is_node q e) eqn:X; auto. exfalso.
    assert (Y : existsb (is_node q) (recvfrom (lines (blk q) n)) = true) by (rewrite R; cbn; now rewrite X).
    apply recv_hit in Y; auto. destruct Y as (k & Hk & _ & Y). now apply (source_not q k).
  Qed.
  Lemma shift_simple q : q < N -> simple_recv N blk q.
  Proof.
    intros Hq p Hp D. destruct (channel q p Hq Hp) as [(i & Hi & E)|H].
    - rewrite (shift_recv q p i) by auto. split; [exists (b i); now rewrite seq_length|].
      apply no_self; auto. pose proof (Hb i Hi). destruct (c i); [auto|]. rewrite seq_S, last_last. lia.
    - rewrite (shift_recv_none q p) by auto. split; [now exists 0|]. now apply no_self.
  Qed.

  Section Matched.
  Context (Hquiet : forall q n, q < N -> reducefrom (lines (blk q) n) = [] /\ copyreducefrom (lines (blk q) n) = []).
  Context (Hfrac : forall q i k, q < N -> i < P -> k < c i ->
    frac (lines (blk q) (b i + k)) = frac (lines (blk ((q + N - d i) mod N)) (nth k (out i) 0))).
  Lemma shift_matched : well_matched N blk.
  Proof.
    split.
    - intros p q Hp Hq D. destruct (channel q p Hq Hp) as [(i & Hi & E)|H].
      + rewrite (shift_recv q p i), (shift_sent p q i) by (auto; now apply channel_back).
        split; [|exists (b i); now rewrite seq_length].
        apply (nth_ext _ _ 0 0); [now rewrite !map_length, seq_length|]. intros k Hk. rewrite map_length in Hk.
        rewrite (nth_indep _ 0 (frac (lines (blk p) 0))) by now rewrite map_length.
        rewrite (nth_indep _ 0 (frac (lines (blk q) 0))) by now rewrite map_length, seq_length.
        rewrite (map_nth (fun n => frac (lines (blk p) n))), (map_nth (fun n => frac (lines (blk q) n))), seq_nth by auto.
        rewrite Hfrac by auto. now rewrite E.
      + rewrite (shift_recv_none q p), (shift_sent_none p q); auto; [split; auto; now exists 0|].
        intros i Hi X. apply (H i Hi). now apply channel_back.
    - intros p n Hp Hn. rewrite Hlen in Hn by auto. destruct (Hquiet p n Hp) as [-> ->]. split; [|constructor].
      apply Forall_forall. intros e I. assert (I' : In (fst e) (map fst (sendto (lines (blk p) n)) ++ map fst (recvfrom (lines (blk p) n)))).
      { rewrite <- map_app. now apply in_map. }
      rewrite Hsend, Hrecv in I' by auto. apply in_app_or in I'.
      destruct I' as [I'|I']; apply in_map_iff in I'; destruct I' as (i & <- & I'); apply filter_In in I'; destruct I' as [I' _]; apply in_seq in I'.
      + pose proof (Dlt i ltac:(lia)). assert ((p + d i) mod N < N) by (apply Nat.mod_upper_bound; lia).
        pose proof (shift_self N p (d i) ltac:(lia) Hp). split; [lia|]. intros X. apply Nat2Z.inj in X. auto.
      + assert ((p + N - d i) mod N < N) by now apply source_lt.
        pose proof (source_not p i Hp ltac:(lia)). split; [lia|]. intros X. apply Nat2Z.inj in X. auto.
  Qed.
  End Matched.

  Context {V : Type} (op : V -> V -> V) (st : nat -> nat -> V).
  Lemma shift_received q i n : q < N -> i < P -> b i <= n < b i + c i ->
    received op N blk st q n = st ((q + N - d i) mod N) (nth (n - b i) (out i) 0).
  Proof.
    intros Hq Hi Hn. set (p := (q + N - d i) mod N).
    assert (Hp : p < N) by now apply source_lt.
    assert (Ri := shift_recv q p i Hq Hp Hi eq_refl).
    rewrite (received_hit op N blk st q p n (b i) (c i)); auto.
    - unfold message. rewrite (shift_sent p q i) by (auto; now apply channel_back).
      rewrite (nth_indep _ _ (st p 0)) by (rewrite map_length; lia). apply (map_nth (st p)).
    - now apply source_not.
    - now apply shift_simple.
    - intros p' Hp' D1 D2. destruct (channel q p' Hq Hp') as [(k & Hk & E)|H].
      + rewrite (shift_recv q p' k) by auto. rewrite in_seq. intros X. apply D2. unfold p. rewrite <- E. f_equal. f_equal. f_equal.
        apply (Hdis k i n); auto; apply andb_true_iff; rewrite Nat.leb_le, Nat.ltb_lt; lia.
      + rewrite (shift_recv_none q p') by auto. auto.
  Qed.
  Lemma shift_kept q n : q < N -> (forall i, i < P -> hits i n = false) -> received op N blk st q n = st q n.
  Proof.
    intros Hq H. apply received_miss; [now apply shift_simple|]. intros p Hp D.
    destruct (channel q p Hq Hp) as [(k & Hk & E)|H'].
    - rewrite (shift_recv q p k) by auto. rewrite in_seq. intros X. specialize (H k Hk).
      apply andb_false_iff in H. rewrite Nat.leb_gt, Nat.ltb_ge in H. lia.
    - rewrite (shift_recv_none q p) by auto. auto.
  Qed.

  Context (Hquiet : forall q n, q < N -> reducefrom (lines (blk q) n) = [] /\ copyreducefrom (lines (blk q) n) = []).
  Lemma shift_stage q n : q < N -> stage op N blk st q n = received op N blk st q n.
  Proof.
    intros Hq. unfold stage. rewrite copyreduced_id by (intros; now apply Hquiet). apply reduced_nil. now apply Hquiet.
  Qed.
End Shift.

(* a stage without messages *)
Section Still.
  Context (N : nat) (blk : nat -> block).
  Context (Hs : forall q n e, q < N -> n < num_lines (blk q) -> In e (sendto (lines (blk q) n)) -> fst e = (-1)%Z).
  Context (Hr : forall q n, q < N -> recvfrom (lines (blk q) n) = []).
  Context (Hc : forall q n, q < N -> copyreducefrom (lines (blk q) n) = []).
  Lemma still_sent p q : p < N -> sent_lines blk p q = [].
  Proof.
    intros Hp. apply sent_lines_nil. intros n Hn. apply filter_none. intros e I. unfold is_node. rewrite (Hs p n e) by auto.
    apply Z.eqb_neq. lia.
  Qed.
  Lemma still_recv q p : q < N -> recv_lines blk q p = [].
  Proof. intros Hq. apply recv_lines_nil. intros n Hn. now rewrite Hr. Qed.
  Lemma still_stage {V} (op : V -> V -> V) st q n : q < N -> stage op N blk st q n = reduced op blk q (st q) n.
  Proof.
    intros Hq. unfold stage. rewrite copyreduced_id by (intros; now apply Hc).
    assert (E : forall l m, fold_left (unpack op blk st q) l m = m).
    { induction l as [|p l IH]; intros m; [reflexivity|]. cbn [fold_left].
      replace (unpack op blk st q m p) with m; [apply IH|]. unfold unpack. destruct (p =? q); auto. now rewrite still_recv. }
    unfold received. now rewrite E.
  Qed.
  Lemma still_matched :
    (forall p n r, p < N -> n < num_lines (blk p) -> In r (reducefrom (lines (blk p) n)) ->
       r < num_lines (blk p) /\ frac (lines (blk p) r) = frac (lines (blk p) n)) -> well_matched N blk.
  Proof.
    intros H. split.
    - intros p q Hp Hq D. rewrite still_sent, still_recv by auto. split; auto. now exists 0.
    - intros p n Hp Hn. rewrite Hr, Hc, !app_nil_r by auto. split; apply Forall_forall.
      + intros e I. rewrite (Hs p n e) by auto. lia.
      + intros r I. now apply H.
  Qed.
End Still.
