(* The code that raw_code.c generates for one core, from its share of the
   schedule of the node (raw_code_tasks_node.c), is the core's part of the
   segments of the node. *)
From Verif Require Import Base SchedModel SchedSpec RawModel RawSpec MsgProofs RawCode RawStage RawProofs CoresModel CoresProofs.
From Verif Require Import MultiModel MultiSim MultiCode.
Local Ltac Zify.zify_post_hook ::= idtac.

(* the entry of core r for the entry e of the node; f gives the core on duty for a partner *)
Definition deal (c r : nat) (f : nat -> nat) (e : Z * nat) : Z * nat :=
  (if (fst e <? 0)%Z then fst e else core_entry c (f (Z.to_nat (fst e))) (Z.to_nat (fst e)) r, snd e).
Definition dealt_out (N c : nat) (blk cb : nat -> block) (duty : nat -> nat -> nat) : Prop :=
  (forall p q, duty p q < c) /\
  forall p r, p < N -> r < c -> num_lines (cb (p * c + r)) = num_lines (blk p) /\
   (forall n, frac (lines (cb (p * c + r)) n) = frac (lines (blk p) n) /\
              reducefrom (lines (cb (p * c + r)) n) = reducefrom (lines (blk p) n) /\
              copyreducefrom (lines (cb (p * c + r)) n) = copyreducefrom (lines (blk p) n)) /\
   (forall n, n < num_lines (blk p) ->
      sendto (lines (cb (p * c + r)) n) = map (deal c r (duty p)) (sendto (lines (blk p) n)) /\
      recvfrom (lines (cb (p * c + r)) n) = map (deal c r (fun q => duty q p)) (recvfrom (lines (blk p) n))).

Section Core.
  Context (size_of : nat -> nat) (N c p r : nat) (Hp : p < N) (Hr : r < c) (b cb : block) (duty : nat -> nat -> nat).
  Context (Hlines : num_lines cb = num_lines b).
  Context (Hsame : forall n, frac (lines cb n) = frac (lines b n) /\ reducefrom (lines cb n) = reducefrom (lines b n) /\
                             copyreducefrom (lines cb n) = copyreducefrom (lines b n)).
  Context (Hsr : forall n, n < num_lines b ->
      sendto (lines cb n) = map (deal c r (duty p)) (sendto (lines b n)) /\
      recvfrom (lines cb n) = map (deal c r (fun q => duty q p)) (recvfrom (lines b n))).
  Definition entry_fine (e : Z * nat) : Prop := fst e = (-1)%Z \/ exists q, q < N /\ q <> p /\ fst e = Z.of_nat q.
  Context (Hok : forall n, n < num_lines b -> Forall entry_fine (sendto (lines b n) ++ recvfrom (lines b n))).
  Local Notation rank := (p * c + r).
  Local Notation core0 := (r =? 0).

  Lemma csize_eq n : core_size size_of cb n = line_size size_of b n.
  Proof. unfold core_size, line_size. now destruct (Hsame n) as [-> _]. Qed.
  Lemma cstart_eq n : core_start size_of cb n = line_start size_of b n.
  Proof.
    unfold core_start, line_start. generalize 0 at 2 4. induction (seq 0 n) as [|k l IH]; intros a; [reflexivity|]. cbn [fold_left].
    now rewrite csize_eq, IH.
  Qed.

  (* ---------- entries ---------- *)
  Lemma mine_deal f q r' e : r' < c -> entry_fine e -> mine rank (q * c + r') (deal c r f e) = (r' =? r) && is_node q e && (f q =? r).
  Proof.
    intros Hr' [E|(q' & Hq' & D & E)]; unfold mine, deal, is_node; rewrite E; cbn [fst].
    - cbn [Z.ltb Z.compare]. replace (-1 =? Z.of_nat (q * c + r'))%Z with false by (symmetry; apply Z.eqb_neq; lia).
      replace (-1 =? Z.of_nat q)%Z with false by (symmetry; apply Z.eqb_neq; lia). now rewrite andb_false_r.
    - destruct (Z.ltb_spec (Z.of_nat q') 0); [lia|]. rewrite Nat2Z.id. pose proof (core_hit [] c ltac:(lia) (f q') q' q r r' Hr Hr') as X. unfold zz in X. rewrite X.
      destruct (Nat.eqb_spec q' q) as [->|Q].
      + rewrite Z.eqb_refl, andb_true_r, andb_true_l. destruct (Nat.eqb_spec (q * c + r') rank) as [Y|Y]; [apply rank_inj in Y; auto; lia|].
        cbn [negb]. rewrite andb_true_r. rewrite (Nat.eqb_sym r (f q)). destruct (Nat.eqb_spec (f q) r) as [->|F]; cbn [andb]; [now rewrite andb_true_r|now rewrite andb_false_r].
      + replace (Z.of_nat q' =? Z.of_nat q)%Z with false by (symmetry; apply Z.eqb_neq; lia). now rewrite andb_false_r.
  Qed.
  Lemma theirs_deal f q r' e : r' < c -> entry_fine e -> theirs rank (q * c + r') (deal c r f e) = (r' =? r) && is_node q e && negb (f q =? r).
  Proof.
    intros Hr' [E|(q' & Hq' & D & E)]; unfold theirs, deal, is_node; rewrite E; cbn [fst].
    - cbn [Z.ltb Z.compare]. replace (- -1 - 10 =? Z.of_nat (q * c + r'))%Z with false by (symmetry; apply Z.eqb_neq; lia).
      replace (-1 =? Z.of_nat q)%Z with false by (symmetry; apply Z.eqb_neq; lia). now rewrite andb_false_r.
    - destruct (Z.ltb_spec (Z.of_nat q') 0); [lia|]. rewrite Nat2Z.id. unfold core_entry, fake, zz.
      destruct (Nat.eqb_spec (f q') r) as [F|F].
      + replace (- Z.of_nat (q' * c + r) - 10 =? Z.of_nat (q * c + r'))%Z with false by (symmetry; apply Z.eqb_neq; lia).
        cbn [andb]. destruct (Z.eqb_spec (Z.of_nat q') (Z.of_nat q)) as [Q|Q]; [|now rewrite andb_false_r].
        apply Nat2Z.inj in Q. subst q'. rewrite (proj2 (Nat.eqb_eq _ _) F). now rewrite andb_false_r.
      + replace (- (- Z.of_nat (q' * c) - 10 - Z.of_nat r) - 10 =? Z.of_nat (q * c + r'))%Z with (q' * c + r =? q * c + r').
        2:{ destruct (Nat.eqb_spec (q' * c + r) (q * c + r')), (Z.eqb_spec (- (- Z.of_nat (q' * c) - 10 - Z.of_nat r) - 10) (Z.of_nat (q * c + r'))); auto; lia. }
        destruct (Nat.eqb_spec (q' * c + r) (q * c + r')) as [Y|Y].
        * apply rank_inj in Y; auto. destruct Y as [-> <-]. rewrite Nat.eqb_refl, Z.eqb_refl.
          destruct (Nat.eqb_spec (q * c + r) rank) as [Y|Y]; [apply rank_inj in Y; auto; lia|].
          now destruct (Nat.eqb_spec (f q) r).
        * destruct (Nat.eqb_spec r' r) as [->|R]; [|reflexivity].
          destruct (Z.eqb_spec (Z.of_nat q') (Z.of_nat q)) as [Q|Q]; [|reflexivity]. apply Nat2Z.inj in Q. congruence.
  Qed.
  Lemma own_entry f e : entry_fine e -> ((fst (deal c r f e) =? Z.of_nat rank)%Z || (- fst (deal c r f e) - 10 =? Z.of_nat rank)%Z) = false /\ is_node p e = false.
  Proof.
    intros [E|(q' & Hq' & D & E)]; unfold deal, is_node; rewrite E; cbn [fst].
    - cbn [Z.ltb Z.compare]. split; [apply orb_false_iff; split|]; apply Z.eqb_neq; lia.
    - destruct (Z.ltb_spec (Z.of_nat q') 0); [lia|]. rewrite Nat2Z.id. split; [|apply Z.eqb_neq; lia].
      assert (X : q' * c + r <> rank) by (intros Y; apply rank_inj in Y; auto; lia).
      unfold core_entry, fake, zz. destruct (f q' =? r); apply orb_false_iff; split; apply Z.eqb_neq; lia.
  Qed.

  (* ---------- one message ---------- *)
  Lemma recv_entry_deal f q r' es : r' < c -> Forall entry_fine es ->
    recv_entry_of rank (q * c + r') (map (deal c r f) es) = if (r' =? r) && existsb (is_node q) es then Some (f q =? r) else None.
  Proof.
    intros Hr' F. induction F as [|e es E F IH]; [cbn; now rewrite andb_false_r|]. cbn [map recv_entry_of existsb].
    rewrite mine_deal, theirs_deal, IH by auto. destruct (r' =? r); [|reflexivity]. cbn [andb].
    destruct (is_node q e); [|reflexivity]. cbn [andb orb]. destruct (f q =? r); reflexivity.
  Qed.
  Lemma fine_recv n : n < num_lines b -> Forall entry_fine (recvfrom (lines b n)).
  Proof. intros H. specialize (Hok n H). apply Forall_app in Hok. tauto. Qed.
  Lemma fine_send n : n < num_lines b -> Forall entry_fine (sendto (lines b n)).
  Proof. intros H. specialize (Hok n H). apply Forall_app in Hok. tauto. Qed.
  Lemma receives_fine q n : n < num_lines b -> receives_from p b q n = existsb (is_node q) (recvfrom (lines b n)).
  Proof.
    intros H. unfold receives_from. destruct (Nat.eqb_spec q p) as [->|D]; [|now rewrite andb_true_r]. cbn [negb]. rewrite andb_false_r.
    symmetry. pose proof (fine_recv n H) as F. induction F as [|e es E F IH]; [reflexivity|]. cbn [existsb]. rewrite IH.
    now destruct (own_entry (fun _ => 0) e E) as [_ ->].
  Qed.
  Definition sel (o a : nat) : nat * nat := if o =? r then (a, 0) else (0, a).
  Lemma recv_sizes_deal q r' : r' < c -> recv_sizes size_of rank cb (q * c + r') = if r' =? r then sel (duty q p) (recv_size size_of p b q) else (0, 0).
  Proof.
    intros Hr'. unfold recv_sizes, recv_size. rewrite Hlines.
    assert (G : forall ns a, (forall n, In n ns -> n < num_lines b) ->
      fold_left (fun a n => match recv_entry_of rank (q * c + r') (recvfrom (lines cb n)) with
                          | Some true => (fst a + core_size size_of cb n, snd a)
                          | Some false => (fst a, snd a + core_size size_of cb n)
                          | None => a end) ns (sel (duty q p) a) =
      if r' =? r then sel (duty q p) (fold_left (fun a n => if receives_from p b q n then a + line_size size_of b n else a) ns a) else sel (duty q p) a).
    { induction ns as [|n ns IH]; intros a B; [now destruct (r' =? r)|]. cbn [fold_left]. assert (Hn : n < num_lines b) by (apply B; now left).
      destruct (Hsr n Hn) as [_ ->]. rewrite recv_entry_deal by (auto using fine_recv). rewrite receives_fine by auto.
      assert (B' : forall x, In x ns -> x < num_lines b) by (intros; apply B; now right).
      destruct (r' =? r) eqn:R; cbn [andb]; [|now apply IH]. destruct (existsb _ _); [|now apply IH].
      rewrite csize_eq. rewrite <- IH by auto. f_equal. unfold sel. destruct (duty q p =? r); reflexivity. }
    assert (Z : (0, 0) = sel (duty q p) 0) by (unfold sel; now destruct (duty q p =? r)). rewrite Z at 1. rewrite G.
    - destruct (r' =? r); [reflexivity|]. now rewrite <- Z.
    - intros n I. apply in_seq in I. lia.
  Qed.

  Definition dealt_lines (l : list instr) : list cline := map (own_line core0) l.
  Lemma translated_own l : translated (dealt_lines l) = if core0 then l else [].
  Proof.
    unfold dealt_lines, own_line, translated. induction l as [|i l IH]; [now destruct core0|]. cbn [map flat_map]. rewrite IH.
    now destruct core0.
  Qed.
  Lemma translated_app l k : translated (l ++ k) = translated l ++ translated k.
  Proof. apply flat_map_app. Qed.
  Lemma pack_entries_deal q n k es : Forall entry_fine es -> forall add,
    core_pack_entries size_of rank core0 cb (q * c + r) n k (map (deal c r (duty p)) es) (sel (duty p q) add) =
    (dealt_lines (fst (pack_entries size_of p b q n k es add)), sel (duty p q) (snd (pack_entries size_of p b q n k es add))).
  Proof.
    intros F. induction F as [|e es E F IH]; intros add; [reflexivity|]. cbn [map core_pack_entries pack_entries].
    rewrite mine_deal, theirs_deal, Nat.eqb_refl by auto. cbn [andb].
    assert (Q : is_node q e && negb (q =? p) = is_node q e).
    { destruct (Nat.eqb_spec q p) as [->|D]; [|apply andb_true_r]. destruct (own_entry (fun _ => 0) e E) as [_ ->]. reflexivity. }
    rewrite Q. destruct (is_node q e); cbn [andb]; [|apply IH].
    specialize (IH (add + line_size size_of b n)). rewrite !csize_eq, cstart_eq.
    destruct (pack_entries size_of p b q n k es (add + line_size size_of b n)) as [code add']. cbn [fst snd] in *.
    unfold sel in *. destruct (duty p q =? r); cbn [fst snd negb] in *; rewrite IH; unfold dealt_lines; rewrite map_app; destruct (line_size size_of b n =? 0); reflexivity.
  Qed.
  Lemma pack_entries_none q r' n k es : Forall entry_fine es -> r' < c -> r' <> r -> forall add,
    core_pack_entries size_of rank core0 cb (q * c + r') n k (map (deal c r (duty p)) es) add = ([], add).
  Proof.
    intros F H D. induction F as [|e es E F IH]; intros add; [reflexivity|]. cbn [map core_pack_entries].
    rewrite mine_deal, theirs_deal by auto. destruct (Nat.eqb_spec r' r); [lia|]. cbn [andb]. apply IH.
  Qed.
  Lemma pack_lines_deal q k ns : (forall n, In n ns -> n < num_lines b) -> forall add,
    core_pack_lines size_of rank core0 cb (q * c + r) k ns (sel (duty p q) add) =
    (dealt_lines (fst (pack_lines size_of p b q k ns add)), sel (duty p q) (snd (pack_lines size_of p b q k ns add))).
  Proof.
    induction ns as [|n ns IH]; intros B add; [reflexivity|]. cbn [core_pack_lines pack_lines].
    assert (Hn : n < num_lines b) by (apply B; now left). destruct (Hsr n Hn) as [-> _].
    rewrite pack_entries_deal by (auto using fine_send). destruct (pack_entries size_of p b q n k (sendto (lines b n)) add) as [c1 a1]. cbn [fst snd].
    rewrite IH by (intros; apply B; now right). destruct (pack_lines size_of p b q k ns a1) as [c2 a2]. cbn [fst snd].
    unfold dealt_lines. now rewrite map_app.
  Qed.
  Lemma pack_lines_none q r' k ns : r' < c -> r' <> r -> (forall n, In n ns -> n < num_lines b) -> forall add,
    core_pack_lines size_of rank core0 cb (q * c + r') k ns add = ([], add).
  Proof.
    intros H D. induction ns as [|n ns IH]; intros B add; [reflexivity|]. cbn [core_pack_lines].
    assert (Hn : n < num_lines b) by (apply B; now left). destruct (Hsr n Hn) as [-> _].
    rewrite pack_entries_none by (auto using fine_send). rewrite IH by (intros; apply B; now right). reflexivity.
  Qed.

  Lemma core_receives_deal q r' n : r' < c -> n < num_lines b ->
    core_receives_from rank cb (q * c + r') n = (r' =? r) && receives_from p b q n.
  Proof.
    intros H Hn. unfold core_receives_from. destruct (Hsr n Hn) as [_ ->]. rewrite receives_fine by auto.
    pose proof (fine_recv n Hn) as F. induction F as [|e es E F IH]; [cbn; now rewrite andb_false_r|]. cbn [map existsb].
    rewrite IH, mine_deal, theirs_deal by auto. destruct (r' =? r); [|reflexivity]. cbn [andb]. destruct (is_node q e), (duty q p =? r); reflexivity.
  Qed.
  Lemma core_recv_size_deal q r' : r' < c -> core_recv_size size_of rank cb (q * c + r') = if r' =? r then recv_size size_of p b q else 0.
  Proof.
    intros H. unfold core_recv_size, recv_size. rewrite Hlines.
    assert (G : forall ns a, (forall n, In n ns -> n < num_lines b) ->
      fold_left (fun a n => if core_receives_from rank cb (q * c + r') n then a + core_size size_of cb n else a) ns a =
      if r' =? r then fold_left (fun a n => if receives_from p b q n then a + line_size size_of b n else a) ns a else a).
    { induction ns as [|n ns IH]; intros a B; [now destruct (r' =? r)|]. cbn [fold_left]. rewrite core_receives_deal, csize_eq by (auto; apply B; now left).
      assert (B' : forall x, In x ns -> x < num_lines b) by (intros; apply B; now right). rewrite IH by auto. now destruct (r' =? r). }
    apply G. intros n I. apply in_seq in I. lia.
  Qed.
  Lemma first_start_deal q ns : (forall n, In n ns -> n < num_lines b) -> forall j,
    core_first_start size_of rank cb (q * c + r) ns j = first_start size_of p b q ns j.
  Proof.
    induction ns as [|n ns IH]; intros B j; [reflexivity|]. cbn [core_first_start first_start].
    rewrite core_receives_deal, Nat.eqb_refl, csize_eq by (auto; apply B; now left). cbn [andb].
    destruct (receives_from p b q n); [reflexivity|]. apply IH. intros; apply B; now right.
  Qed.
  Lemma last_receiving_deal q : core_last_receiving rank cb (q * c + r) = last_receiving p b q.
  Proof.
    unfold core_last_receiving, last_receiving. rewrite Hlines.
    assert (G : forall ns a, (forall n, In n ns -> n < num_lines b) ->
      fold_left (fun k n => if core_receives_from rank cb (q * c + r) n then n else k) ns a =
      fold_left (fun k n => if receives_from p b q n then n else k) ns a).
    { induction ns as [|n ns IH]; intros a B; [reflexivity|]. cbn [fold_left]. rewrite core_receives_deal, Nat.eqb_refl by (auto; apply B; now left).
      cbn [andb]. apply IH. intros; apply B; now right. }
    apply G. intros n I. apply in_seq in I. lia.
  Qed.
  Lemma last_receiving_lt q : recv_size size_of p b q <> 0 -> last_receiving p b q < num_lines b.
  Proof.
    intros Z. unfold last_receiving. rewrite fold_last. unfold recv_size in Z. rewrite fold_add_if in Z.
    destruct (filter (receives_from p b q) (seq 0 (num_lines b))) as [|x l] eqn:E; [cbn in Z; lia|].
    assert (I : In (last (x :: l) 0) (filter (receives_from p b q) (seq 0 (num_lines b)))).
    { rewrite E. clear. revert x. induction l as [|y l IH]; intros x; [now left|]. right. apply IH. }
    apply filter_In in I. destruct I as [I _]. apply in_seq in I. lia.
  Qed.

  (* ---------- the loop over all ranks ---------- *)
  Definition around (os : list nat) : list nat := flat_map (fun o => (o * c) :: map (fun j => o * c + j) (seq 1 (c - 1))) os.
  Lemma around_all : seq 0 (N * c) = around (seq 0 N).
  Proof.
    clear - Hr. induction N as [|n IH]; [reflexivity|]. rewrite seq_S. unfold around. rewrite flat_map_app. fold (around (seq 0 n)). rewrite <- IH.
    replace (S n * c) with (n * c + c) by lia. rewrite seq_app. f_equal. cbn [flat_map plus]. rewrite app_nil_r.
    destruct c as [|c']; [lia|]. cbn [seq]. f_equal. rewrite Nat.sub_succ, Nat.sub_0_r.
    generalize (n * S c') as a. intros a. clear. replace (S a) with (a + 1) by lia. generalize 1 as k.
    induction c' as [|c' IH]; intros k; [reflexivity|]. cbn [seq map]. f_equal. replace (S (a + k)) with (a + S k) by lia. apply IH.
  Qed.
  Lemma rank_mod a x : x < c -> (a * c + x) mod (N * c) = (a mod N) * c + x.
  Proof.
    intros Hx. assert (Z : 0 < N) by lia. symmetry. apply (Nat.mod_unique _ _ (a / N)).
    - apply rank_lt; auto. apply Nat.mod_upper_bound. lia.
    - rewrite (Nat.div_mod a N) at 1 by lia. rewrite Nat.mul_add_distr_r, <- Nat.mul_assoc, (Nat.mul_comm (a / N)), Nat.mul_assoc. lia.
  Qed.
  Lemma from_rank_zero o : o < N -> from_rank (N * c) rank (o * c) = from_node N p o * c + r.
  Proof.
    intros Ho. unfold from_rank, from_node. rewrite <- rank_mod by auto. f_equal. rewrite Nat.mul_sub_distr_r, Nat.mul_add_distr_r.
    assert (o * c <= N * c) by (apply Nat.mul_le_mono_r; lia). lia.
  Qed.
  Lemma to_rank_zero o : to_rank (N * c) rank (o * c) = to_node N p o * c + r.
  Proof. unfold to_rank, to_node. rewrite <- rank_mod by auto. f_equal. lia. Qed.
  Lemma from_rank_else o j : o < N -> 0 < j < c -> exists q r', r' < c /\ r' <> r /\ from_rank (N * c) rank (o * c + j) = q * c + r'.
  Proof.
    intros Ho Hj. unfold from_rank. assert (o * c + c <= N * c) by (replace (o * c + c) with (S o * c) by lia; apply Nat.mul_le_mono_r; lia).
    assert (X : (N + p - o) * c = N * c + p * c - o * c) by (rewrite Nat.mul_sub_distr_r, Nat.mul_add_distr_r; lia).
    assert (Y : (N + p - o - 1) * c = N * c + p * c - o * c - c) by (rewrite Nat.mul_sub_distr_r, X; lia).
    destruct (Nat.le_gt_cases j r).
    - exists ((N + p - o) mod N), (r - j). split; [lia|]. split; [lia|]. rewrite <- rank_mod by lia. f_equal. lia.
    - exists ((N + p - o - 1) mod N), (c + r - j). split; [lia|]. split; [lia|]. rewrite <- rank_mod by lia. f_equal. lia.
  Qed.
  Lemma to_rank_else o j : 0 < j < c -> exists q r', r' < c /\ r' <> r /\ to_rank (N * c) rank (o * c + j) = q * c + r'.
  Proof.
    intros Hj. unfold to_rank. destruct (Nat.le_gt_cases c (r + j)).
    - exists ((p + o + 1) mod N), (r + j - c). split; [lia|]. split; [lia|]. rewrite <- rank_mod by lia. f_equal. lia.
    - exists ((p + o) mod N), (r + j). split; [lia|]. split; [lia|]. rewrite <- rank_mod by lia. f_equal. lia.
  Qed.

  Lemma receives_skip o l k ctr : o < N -> (forall j, In j l -> 0 < j < c) ->
    core_receives size_of (N * c) rank cb (map (fun j => o * c + j) l ++ k) ctr = core_receives size_of (N * c) rank cb k ctr.
  Proof.
    intros Ho. induction l as [|j l IH]; intros B; [reflexivity|]. cbn [map app core_receives].
    destruct (from_rank_else o j Ho (B j (or_introl eq_refl))) as (q & r' & H1 & H2 & ->). rewrite recv_sizes_deal by auto.
    destruct (Nat.eqb_spec r' r); [lia|]. cbn [Nat.eqb]. rewrite IH by (intros; apply B; now right).
    destruct (core_receives size_of (N * c) rank cb k ctr). reflexivity.
  Qed.
  Lemma sends_skip o l k ctr : o < N -> (forall j, In j l -> 0 < j < c) ->
    core_sends size_of (N * c) rank core0 cb (map (fun j => o * c + j) l ++ k) ctr = core_sends size_of (N * c) rank core0 cb k ctr.
  Proof.
    intros Ho. induction l as [|j l IH]; intros B; [reflexivity|]. cbn [map app core_sends].
    destruct (to_rank_else o j (B j (or_introl eq_refl))) as (q & r' & H1 & H2 & ->).
    rewrite pack_lines_none by (auto; intros n I; apply in_seq in I; lia). cbn [Nat.eqb app]. apply IH. intros; apply B; now right.
  Qed.
  Lemma unpacks_skip o l k ctr : o < N -> (forall j, In j l -> 0 < j < c) ->
    core_unpacks size_of (N * c) rank core0 cb (map (fun j => o * c + j) l ++ k) ctr = core_unpacks size_of (N * c) rank core0 cb k ctr.
  Proof.
    intros Ho. induction l as [|j l IH]; intros B; [reflexivity|]. cbn [map app core_unpacks].
    destruct (from_rank_else o j Ho (B j (or_introl eq_refl))) as (q & r' & H1 & H2 & ->).
    rewrite core_recv_size_deal by auto. destruct (Nat.eqb_spec r' r); [lia|]. cbn [Nat.eqb orb]. apply IH. intros; apply B; now right.
  Qed.
  Lemma in_turns j : In j (seq 1 (c - 1)) -> 0 < j < c.
  Proof. intros I. apply in_seq in I. lia. Qed.

  Lemma receives_deal os : (forall o, In o os -> o < N) -> forall ctr,
    translated (fst (core_receives size_of (N * c) rank cb (around os) ctr)) = map (post_core c) (of_core r (recv_posts size_of N p duty b os ctr)) /\
    snd (core_receives size_of (N * c) rank cb (around os) ctr) = ctr + length (recv_posts size_of N p duty b os ctr).
  Proof.
    induction os as [|o os IH]; intros B ctr; [split; [reflexivity|cbn; lia]|]. unfold around. cbn [flat_map]. fold (around os). cbn [app core_receives recv_posts].
    assert (Ho : o < N) by (apply B; now left). rewrite from_rank_zero by auto. rewrite recv_sizes_deal, Nat.eqb_refl by auto.
    assert (B' : forall x, In x os -> x < N) by (intros; apply B; now right). unfold sel.
    set (q := from_node N p o). destruct (Nat.eqb_spec (duty q p) r) as [D|D].
    - destruct (Nat.eqb_spec (recv_size size_of p b q) 0) as [Z|Z]; cbn [Nat.eqb]; rewrite receives_skip by (auto using in_turns).
      + specialize (IH B' ctr). destruct (core_receives _ _ _ _ _ _) as [l3 c3]. exact IH.
      + specialize (IH B' (S ctr)). destruct (core_receives _ _ _ _ _ _) as [l3 c3]. cbn [fst snd app] in *. destruct IH as [I1 I2].
        cbn [length]. split; [|lia]. unfold of_core in *. cbn [filter own]. rewrite (proj2 (Nat.eqb_eq _ _) D). cbn [map translated flat_map app].
        fold (translated l3). rewrite I1. f_equal. unfold post_core, rank_to. cbn [is_recv spot size other own]. now rewrite D.
    - destruct (Nat.eqb_spec (recv_size size_of p b q) 0) as [Z|Z]; cbn [Nat.eqb]; rewrite receives_skip by (auto using in_turns).
      + specialize (IH B' ctr). destruct (core_receives _ _ _ _ _ _) as [l3 c3]. exact IH.
      + specialize (IH B' (S ctr)). destruct (core_receives _ _ _ _ _ _) as [l3 c3]. cbn [fst snd app] in *. destruct IH as [I1 I2].
        cbn [length]. split; [|lia]. unfold of_core in *. cbn [filter own]. rewrite (proj2 (Nat.eqb_neq _ _) D). exact I1.
  Qed.
  Lemma sends_deal os : (forall o, In o os -> o < N) -> forall ps ctr,
    join_core c r (send_segs size_of N p duty b ps os ctr) =
    map (post_core c) (of_core r ps) ++ translated (core_sends size_of (N * c) rank core0 cb (around os) ctr) ++ [Waitall].
  Proof.
    induction os as [|o os IH]; intros B ps ctr.
    - cbn [send_segs join_core later_core around flat_map core_sends translated app]. unfold seg_core. cbn [posts locals wait waits].
      rewrite app_nil_r. now destruct (r =? 0).
    - unfold around. cbn [flat_map]. fold (around os). cbn [app core_sends send_segs].
      assert (Ho : o < N) by (apply B; now left). rewrite to_rank_zero. set (q := to_node N p o).
      assert (B' : forall x, In x os -> x < N) by (intros; apply B; now right).
      assert (Z0 : (0, 0) = sel (duty p q) 0) by (unfold sel; now destruct (duty p q =? r)). rewrite Z0, Hlines, pack_lines_deal.
      2:{ intros n I. apply in_seq in I. lia. }
      destruct (pack_lines size_of p b q ctr (seq 0 (num_lines b)) 0) as [code add] eqn:E. cbn [fst snd]. unfold sel.
      destruct (Nat.eqb_spec add 0) as [->|Z].
      + apply (pack_lines_zero _ _ duty) in E. subst code. rewrite IH by auto. destruct (duty p q =? r); cbn [Nat.eqb]; rewrite sends_skip by (auto using in_turns); reflexivity.
      + cbn [join_core]. rewrite later_core_join by apply send_segs_some. rewrite IH by auto.
        assert (X : forall l1, translated (dealt_lines code ++ l1) = (if r =? 0 then code else []) ++ translated l1) by (intros; now rewrite translated_app, translated_own).
        unfold seg_core. cbn [posts locals wait waits]. rewrite app_nil_r.
        destruct (Nat.eqb_spec (duty p q) r) as [D|D]; destruct (Nat.eqb_spec add 0) as [|_]; try lia; cbn [Nat.eqb]; rewrite sends_skip by (auto using in_turns);
          rewrite X; cbn [app]; unfold of_core; cbn [filter own].
        * rewrite (proj2 (Nat.eqb_eq _ _) D). cbn [map translated flat_map app]. rewrite <- !app_assoc. cbn [app]. do 2 f_equal.
          unfold post_core at 1, rank_to. cbn [is_recv spot MultiSim.size other own]. now rewrite D.
        * rewrite (proj2 (Nat.eqb_neq _ _) D). cbn [map translated flat_map app]. rewrite <- !app_assoc. reflexivity.
  Qed.
  Lemma recv_size_self : recv_size size_of p b p = 0.
  Proof.
    unfold recv_size. rewrite fold_add_if. rewrite (filter_ext_in _ (fun _ => false)); [|].
    - induction (seq 0 _); auto.
    - intros n _. unfold receives_from. rewrite Nat.eqb_refl. apply andb_false_r.
  Qed.
  Lemma unpacks_deal os : (forall o, In o os -> o < N) -> forall ctr,
    core_unpacks size_of (N * c) rank core0 cb (around os) ctr = dealt_lines (unpacks size_of N p b os ctr).
  Proof.
    induction os as [|o os IH]; intros B ctr; [reflexivity|]. unfold around. cbn [flat_map]. fold (around os). cbn [app core_unpacks unpacks].
    assert (Ho : o < N) by (apply B; now left). rewrite from_rank_zero by auto. set (q := from_node N p o).
    assert (B' : forall x, In x os -> x < N) by (intros; apply B; now right).
    rewrite core_recv_size_deal, Nat.eqb_refl by auto. destruct (Nat.eqb_spec (recv_size size_of p b q) 0) as [Z|Z]; cbn [orb].
    - rewrite unpacks_skip by (auto using in_turns). now apply IH.
    - destruct (Nat.eqb_spec (q * c + r) rank) as [X|X].
      + apply rank_inj in X; auto. destruct X as [X _]. rewrite X in Z. now rewrite recv_size_self in Z.
      + rewrite unpacks_skip by (auto using in_turns). rewrite IH by auto. unfold dealt_lines. cbn [map]. f_equal. f_equal.
        rewrite Hlines, first_start_deal by (intros n I; apply in_seq in I; lia). rewrite last_receiving_deal.
        pose proof (last_receiving_lt q Z) as L. destruct (Hsr _ L) as [_ ->].
        pose proof (fine_recv _ L) as F. destruct (recvfrom (lines b (last_receiving p b q))) as [|e es]; [reflexivity|].
        inversion F; subst. cbn [map]. destruct (own_entry (fun q0 => duty q0 p) e) as [-> ->]; auto.
  Qed.
  Lemma reduces_deal : translated (core_reduces size_of core0 cb ++ core_copyreduces size_of core0 cb) = if core0 then reduces size_of b ++ copyreduces size_of b else [].
  Proof.
    rewrite translated_app. unfold core_reduces, core_copyreduces, reduces, copyreduces, sized_line. rewrite Hlines.
    assert (G1 : forall ns, translated (flat_map (fun n => map (fun k => if core0 && negb (core_size size_of cb n =? 0)
        then Real (Reduce_ (Shm 0, core_start size_of cb n) (Shm 0, core_start size_of cb k) (core_size size_of cb n))
        else Fake (Reduce_ (Shm 0, core_start size_of cb n) (Shm 0, core_start size_of cb k) (core_size size_of cb n))) (reducefrom (lines cb n))) ns) =
      if core0 then flat_map (fun n => flat_map (fun k => if line_size size_of b n =? 0 then [] else [Reduce_ (Shm 0, line_start size_of b n) (Shm 0, line_start size_of b k) (line_size size_of b n)])
      (reducefrom (lines b n))) ns else []).
    { induction ns as [|n ns IH]; [now destruct core0|]. cbn [flat_map]. rewrite translated_app, IH. destruct (Hsame n) as (_ & -> & _).
      rewrite csize_eq. assert (X : forall ks, translated (map (fun k => if core0 && negb (line_size size_of b n =? 0)
        then Real (Reduce_ (Shm 0, core_start size_of cb n) (Shm 0, core_start size_of cb k) (line_size size_of b n))
        else Fake (Reduce_ (Shm 0, core_start size_of cb n) (Shm 0, core_start size_of cb k) (line_size size_of b n))) ks) =
        if core0 then flat_map (fun k => if line_size size_of b n =? 0 then [] else [Reduce_ (Shm 0, line_start size_of b n) (Shm 0, line_start size_of b k) (line_size size_of b n)]) ks else []).
      { induction ks as [|k ks IHk]; [now destruct core0|]. cbn [map]. unfold translated in *. cbn [flat_map]. rewrite IHk, !cstart_eq.
        destruct core0, (line_size size_of b n =? 0); reflexivity. }
      rewrite X. now destruct core0. }
    rewrite G1. clear G1.
    match goal with |- _ ++ ?l = _ => assert (G2 : l = if core0 then copyreduces size_of b else []) end.
    { unfold copyreduces. induction (seq 0 (num_lines b)) as [|n ns IH]; [now destruct core0|]. cbn [flat_map]. rewrite translated_app, IH.
      destruct (Hsame n) as (_ & _ & ->). rewrite csize_eq, !cstart_eq. destruct (copyreducefrom (lines b n)) as [|r0 rs].
      - destruct core0, (line_size size_of b n =? 0); reflexivity.
      - rewrite cstart_eq. unfold translated at 1. cbn [flat_map]. fold (translated (map (fun r1 => if core0 && negb (line_size size_of b n =? 0)
          then Real (Reduce_ (Shm 0, line_start size_of b n) (Shm 0, core_start size_of cb r1) (line_size size_of b n))
          else Fake (Reduce_ (Shm 0, line_start size_of b n) (Shm 0, core_start size_of cb r1) (line_size size_of b n))) rs)).
        assert (X : forall ks, translated (map (fun r1 => if core0 && negb (line_size size_of b n =? 0)
          then Real (Reduce_ (Shm 0, line_start size_of b n) (Shm 0, core_start size_of cb r1) (line_size size_of b n))
          else Fake (Reduce_ (Shm 0, line_start size_of b n) (Shm 0, core_start size_of cb r1) (line_size size_of b n))) ks) =
          if core0 && negb (line_size size_of b n =? 0) then map (fun r1 => Reduce_ (Shm 0, line_start size_of b n) (Shm 0, line_start size_of b r1) (line_size size_of b n)) ks else []).
        { induction ks as [|k ks IHk]; [now destruct (core0 && _)|]. cbn [map]. unfold translated in *. cbn [flat_map]. rewrite IHk, !cstart_eq.
          destruct (core0 && _); reflexivity. }
        rewrite X. destruct core0, (line_size size_of b n =? 0); reflexivity. }
    rewrite G2. unfold copyreduces. now destruct core0.
  Qed.

  Theorem core_block_segs (first : bool) :
    translated (core_block_code size_of (N * c) rank core0 cb first) = (if first then [] else [Barrier]) ++ join_core c r (block_segs size_of N p duty b).
  Proof.
    unfold core_block_code, block_segs. rewrite around_all. assert (B : forall o, In o (seq 0 N) -> o < N) by (intros o I; apply in_seq in I; lia).
    pose proof (receives_deal _ B 1) as [R1 R2]. destruct (core_receives _ _ _ _ _ _) as [l k]. cbn [fst snd] in *.
    rewrite join_core_app by apply send_segs_some. rewrite sends_deal by auto. rewrite !translated_app, R1, R2, unpacks_deal by auto.
    rewrite <- !app_assoc. f_equal; [now destruct first|]. f_equal. f_equal.
    change (Real Waitall :: Real Barrier :: dealt_lines (unpacks size_of N p b (seq 0 N) 1) ++ Real Barrier :: core_reduces size_of core0 cb ++ core_copyreduces size_of core0 cb)
      with ([Real Waitall; Real Barrier] ++ dealt_lines (unpacks size_of N p b (seq 0 N) 1) ++ [Real Barrier] ++ core_reduces size_of core0 cb ++ core_copyreduces size_of core0 cb).
    rewrite translated_app, (translated_app (dealt_lines _)), (translated_app [_]), reduces_deal, translated_own.
    cbn [later_core translated flat_map app]. unfold seg_core. cbn [posts of_core filter map locals wait waits app]. now rewrite !app_nil_r.
  Qed.
End Core.
