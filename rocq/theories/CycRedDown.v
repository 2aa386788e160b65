(* The reducing part of the cyclic schedule. *)
From Coq Require Import Sorted.
From Verif Require Import Base SchedModel SchedSpec SchedProofs MatchProofs CombineProofs CyclicSpec CyclicProofs CycRedModel ShiftProofs LooseSpec LooseChain.
Local Ltac Zify.zify_post_hook ::= idtac.

Lemma shrink_bounds s p : 0 < s -> 0 < shrink s p <= s /\ s <= shrink s p * (p + 1).
Proof.
  intros Hs. unfold shrink. assert (D := Nat.div_mod (s - 1) (p + 1) ltac:(lia)). assert (M := Nat.mod_upper_bound (s - 1) (p + 1) ltac:(lia)).
  assert (L := Nat.div_le_upper_bound (s - 1) (p + 1) (s - 1) ltac:(lia) ltac:(nia)). nia.
Qed.

Section Send.
  Context (N s p : nat) (Hs : 0 < s) (HN : s <= N) (prev : nat -> block).
  Context (Hprev : forall q n, q < N -> n < s -> frac (lines (prev q) n) = (q + n) mod N).
  Context (j P : nat) (Ej : shrink s p = j) (Hj : 0 < j <= s) (HP : forall i, i < P <-> (i + 1) * j < s).
  Local Notation blk := (fun q => cr_send N s j p q (prev q)).
  Local Notation NL := (s + (s - j)).
  Definition sd (j i : nat) : nat := (i + 1) * j.
  Definition spick (j s i n : nat) : bool := (n / j =? i + 1) && (n <? s).
  Definition sb (j s i : nat) : nat := s + i * j.
  Local Notation d := (sd j).
  Local Notation pick := (spick j s).
  Local Notation b := (sb j s).

  Lemma send_d i : i < P -> (i + 1) * j < s.
  Proof. apply HP. Qed.
  Lemma send_lines q n : lines (blk q) n =
    if n <? s then
      Line (frac (lines (prev q) n)) (if n <? j then [] else [(Z.of_nat ((q + j * (n / j)) mod N), n mod j)]) [] [] []
    else Line (frac (lines (prev q) ((j + (n - s)) mod j))) []
           [(Z.rem (Z.of_nat N + Z.of_nat q - Z.of_nat j * Z.of_nat ((j + (n - s)) / j)) (Z.of_nat N), j + (n - s))] [] [].
  Proof. unfold cr_send. cbn [lines]. now rewrite Ej. Qed.
  Lemma send_out i : i < P -> filter (pick i) (seq 0 NL) = seq ((i + 1) * j) (Nat.min j (s - (i + 1) * j)).
  Proof.
    intros Hi. pose proof (send_d i Hi). apply filter_seq; [lia|]. intros n Hn. unfold spick. rewrite andb_true_iff, Nat.eqb_eq, Nat.ltb_lt.
    assert (D := Nat.div_mod n j ltac:(lia)). assert (M := Nat.mod_upper_bound n j ltac:(lia)). split.
    - intros [E L]. rewrite E in D. lia.
    - intros H'. split; [|lia]. symmetry. apply (Nat.div_unique n j (i + 1) (n - (i + 1) * j)); lia.
  Qed.
  Lemma send_c i : i < P -> length (filter (pick i) (seq 0 NL)) = Nat.min j (s - (i + 1) * j).
  Proof. intros Hi. now rewrite send_out, seq_length. Qed.
  Lemma in_group n i : n / j = i -> i * j <= n < i * j + j.
  Proof. intros <-. assert (D := Nat.div_mod n j ltac:(lia)). assert (M := Nat.mod_upper_bound n j ltac:(lia)). lia. Qed.
  Lemma group_in n i : i * j <= n < i * j + j -> n / j = i.
  Proof. intros H. symmetry. apply (Nat.div_unique n j i (n - i * j)); lia. Qed.

  Lemma sl1 : forall i, i < P -> 0 < d i < N.
  Proof. intros i Hi. pose proof (send_d i Hi). unfold sd. nia. Qed.
  Lemma sl2 : forall i k, i < P -> k < P -> d i = d k -> i = k.
  Proof. intros i k _ _ E. unfold sd in E. apply Nat.mul_cancel_r in E; lia. Qed.
  Lemma sl3 : forall q, q < N -> num_lines (blk q) = NL.
  Proof. intros q _. unfold cr_send. cbn [num_lines]. now rewrite Ej. Qed.
  Lemma div_P n : n < s -> n / j <= P.
  Proof.
    intros H. destruct (n / j) as [|i] eqn:E; [lia|]. apply in_group in E. apply HP. lia.
  Qed.
  Lemma sl4 : forall q n, q < N -> n < NL ->
    map fst (sendto (lines (blk q) n)) = map (fun i => Z.of_nat ((q + d i) mod N)) (filter (fun i => pick i n) (seq 0 P)).
  Proof.
    intros q n Hq Hn. unfold sd, spick. cbv beta. rewrite send_lines. destruct (Nat.ltb_spec n s) as [L|L]; cbn [sendto].
    - destruct (Nat.ltb_spec n j) as [L'|L'].
      + rewrite filter_none; [reflexivity|]. intros i _. rewrite Nat.div_small by auto. destruct (Nat.eqb_spec 0 (i + 1)); [lia|reflexivity].
      + assert (1 <= n / j) by (apply Nat.div_le_lower_bound; lia). pose proof (div_P n L).
        rewrite (filter_seq _ P (n / j - 1) 1); [|lia|].
        * cbn [seq map fst]. replace (n / j - 1 + 1) with (n / j) by lia. now rewrite (Nat.mul_comm j).
        * intros i Hi. rewrite andb_true_r, Nat.eqb_eq. lia.
    - rewrite filter_none; [reflexivity|]. intros i _. now rewrite andb_false_r.
  Qed.
  Lemma sl5 : forall q n, q < N -> n < NL ->
    map fst (recvfrom (lines (blk q) n)) = map (fun i => Z.of_nat ((q + N - d i) mod N))
      (filter (fun i => (b i <=? n) && (n <? b i + length (filter (pick i) (seq 0 NL)))) (seq 0 P)).
  Proof.
    intros q n Hq Hn. unfold sd, sb. cbv beta. rewrite send_lines. destruct (Nat.ltb_spec n s) as [L|L]; cbn [recvfrom].
    - rewrite filter_none; [reflexivity|]. intros i _. destruct (Nat.leb_spec (s + i * j) n); [lia|reflexivity].
    - cbn [recvfrom map fst].
      set (l := j + (n - s)) in *. assert (Hl : j <= l < s) by lia.
      assert (1 <= l / j) by (apply Nat.div_le_lower_bound; lia). pose proof (div_P l ltac:(lia)).
      pose proof (in_group l (l / j) eq_refl) as G.
      rewrite (filter_seq _ P (l / j - 1) 1); [|lia|].
      + cbn [seq map]. f_equal. rewrite (Nat.sub_add 1 (l / j)) by auto.
        replace (Z.of_nat j * Z.of_nat (l / j))%Z with (Z.of_nat (l / j * j)) by lia.
        rewrite (Z.add_comm (Z.of_nat N)). apply zrem_back; lia.
      + intros i Hi. rewrite send_c by auto. rewrite andb_true_iff, Nat.leb_le, Nat.ltb_lt. split.
        * intros [A B]. enough (l / j = i + 1) by lia. apply group_in. lia.
        * intros E. assert (E' : i = l / j - 1) by lia. subst i. rewrite (Nat.sub_add 1 (l / j)) by auto.
          replace ((l / j - 1) * j) with (l / j * j - j) by nia. lia.
  Qed.
  Lemma sl6 : forall i, i < P -> b i + length (filter (pick i) (seq 0 NL)) <= NL.
  Proof. intros i Hi. rewrite send_c by auto. pose proof (send_d i Hi). unfold sb. lia. Qed.
  Lemma sl7 : forall i k n, i < P -> k < P ->
    (b i <=? n) && (n <? b i + length (filter (pick i) (seq 0 NL))) = true ->
    (b k <=? n) && (n <? b k + length (filter (pick k) (seq 0 NL))) = true -> i = k.
  Proof.
    intros i k n Hi Hk. unfold sd, sb. rewrite !send_c by auto. rewrite !andb_true_iff, !Nat.leb_le, !Nat.ltb_lt. intros A B.
    assert ((n - s) / j = i) by (apply group_in; lia). assert ((n - s) / j = k) by (apply group_in; lia). lia.
  Qed.
  Lemma sl8 : forall q n, q < N -> reducefrom (lines (blk q) n) = [] /\ copyreducefrom (lines (blk q) n) = [].
  Proof. intros q n _. cbv beta. rewrite send_lines. destruct (n <? s); auto. Qed.

  (* fragments *)
  Lemma send_frac q n : q < N -> n < NL -> frac (lines (blk q) n) = (q + (if n <? s then n else (n - s) mod j)) mod N.
  Proof.
    intros Hq Hn. cbv beta. rewrite send_lines. destruct (Nat.ltb_spec n s); cbn [frac]; [now apply Hprev|]. cbn [frac].
    replace ((j + (n - s)) mod j) with ((n - s) mod j).
    - apply Hprev; auto. pose proof (Nat.mod_upper_bound (n - s) j ltac:(lia)). lia.
    - replace (j + (n - s)) with (n - s + 1 * j) by lia. now rewrite Nat.mod_add by lia.
  Qed.
  Lemma shift_frac q i l : q < N -> (i + 1) * j <= N -> ((q + N - (i + 1) * j) mod N + ((i + 1) * j + l)) mod N = (q + l) mod N.
  Proof.
    intros Hq Hi. rewrite Nat.add_mod_idemp_l by lia. replace (q + N - (i + 1) * j + ((i + 1) * j + l)) with (q + l + 1 * N) by lia.
    apply Nat.mod_add. lia.
  Qed.
  Lemma sl9 : forall q i k, q < N -> i < P -> k < length (filter (pick i) (seq 0 NL)) ->
    frac (lines (blk q) (b i + k)) = frac (lines (blk ((q + N - d i) mod N)) (nth k (filter (pick i) (seq 0 NL)) 0)).
  Proof.
    intros q i k Hq Hi Hk. rewrite send_c in Hk by auto. rewrite send_out, seq_nth by auto. pose proof (send_d i Hi) as D.
    unfold sd, sb. assert (K1 : (i + 1) * j + k < s) by (clear - Hk D; lia). assert (K2 : k < j) by (clear - Hk; lia). clear Hk Hi.
    assert (X : (q + N - (i + 1) * j) mod N < N) by (apply Nat.mod_upper_bound; lia).
    assert (K3 : s + i * j + k < NL) by (clear - K1 Hj; lia).
    rewrite (send_frac q) by auto. rewrite (send_frac ((q + N - (i + 1) * j) mod N)) by (auto; clear - K1; lia). clear X.
    replace (s + i * j + k <? s) with false by (symmetry; apply Nat.ltb_ge; clear; lia).
    replace ((i + 1) * j + k <? s) with true by (symmetry; apply Nat.ltb_lt; auto).
    rewrite shift_frac by (auto; clear - K1 HN; lia). f_equal. f_equal.
    replace (s + i * j + k - s) with (k + i * j) by (clear; lia). rewrite Nat.mod_add by (clear - Hj; lia). now apply Nat.mod_small.
  Qed.

  Lemma sl0 : 0 < NL.
  Proof. clear - Hs. lia. Qed.
  Lemma send_matched : well_matched N blk.
  Proof. exact (shift_matched N NL P blk d pick b sl1 sl2 sl3 sl4 sl5 sl0 sl6 sl7 sl8 sl9). Qed.
  (* the reductions *)
  Local Notation add := (fun q => cr_add s (blk q)).
  Lemma add_frac q n : frac (lines (add q) n) = frac (lines (blk q) n).
  Proof. reflexivity. Qed.
  Lemma add_still q n : sendto (lines (add q) n) = [] /\ recvfrom (lines (add q) n) = [] /\ copyreducefrom (lines (add q) n) = [].
  Proof. auto. Qed.
  Lemma add_matched : well_matched N add.
  Proof.
    apply still_matched; auto.
    - intros q n e _ _ [].
    - intros q n r Hq Hn I. cbn [cr_add lines reducefrom num_lines] in *. destruct (n <? s); [|destruct I].
      apply filter_In in I. destruct I as [I E]. apply in_seq in I. apply Nat.eqb_eq in E. rewrite (sl3 q Hq) in *. split; [lia|symmetry; exact E].
  Qed.
  Lemma add_from q l : q < N -> l < j ->
    reducefrom (lines (add q) l) = map (fun i => s + (i * j + l)) (filter (fun i => (i + 1) * j + l <? s) (seq 0 P)).
  Proof.
    intros Hq Hl. cbn [cr_add lines reducefrom]. replace (l <? s) with true by (symmetry; apply Nat.ltb_lt; lia).
    rewrite (sl3 q Hq). replace (s + (s - j) - s) with (s - j) by lia.
    (* both lists are increasing and have the same elements *)
    assert (Inc : forall f : nat -> bool, forall a k, StronglySorted lt (filter f (seq a k))).
    { intros f a k. revert a. induction k as [|k IH]; intros a; [constructor|]. cbn [seq filter]. destruct (f a); auto.
      constructor; auto. apply Forall_forall. intros x I. apply filter_In in I. destruct I as [I _]. apply in_seq in I. lia. }
    assert (Inc2 : forall f : nat -> bool, forall a k, StronglySorted lt (map (fun i => s + (i * j + l)) (filter f (seq a k)))).
    { intros f a k. revert a. induction k as [|k IH]; intros a; [constructor|]. cbn [seq filter]. destruct (f a); auto. cbn [map].
      constructor; auto. apply Forall_forall. intros x I. apply in_map_iff in I. destruct I as (i & <- & I).
      apply filter_In in I. destruct I as [I _]. apply in_seq in I. assert (a * j < i * j) by (apply Nat.mul_lt_mono_pos_r; lia). lia. }
    assert (Uniq : forall l1 l2 : list nat, StronglySorted lt l1 -> StronglySorted lt l2 -> (forall x, In x l1 <-> In x l2) -> l1 = l2).
    { clear. induction l1 as [|x l1 IH]; intros l2 S1 S2 H.
      - destruct l2 as [|y l2]; auto. destruct (proj2 (H y) (or_introl eq_refl)).
      - destruct l2 as [|y l2]; [destruct (proj1 (H x) (or_introl eq_refl))|].
        inversion S1 as [|? ? S1' F1]; inversion S2 as [|? ? S2' F2]; subst. rewrite Forall_forall in F1, F2.
        assert (x = y).
        { destruct (proj1 (H x) (or_introl eq_refl)) as [|I1]; auto. destruct (proj2 (H y) (or_introl eq_refl)) as [|I2]; auto.
          apply F1 in I2. apply F2 in I1. lia. }
        subst y. f_equal. apply IH; auto. intros z. split; intros I.
        + destruct (proj1 (H z) (or_intror I)) as [<-|]; auto. apply F1 in I. lia.
        + destruct (proj2 (H z) (or_intror I)) as [<-|]; auto. apply F2 in I. lia. }
    apply Uniq; auto. intros x. rewrite filter_In, in_map_iff, in_seq, Nat.eqb_eq. split.
    - intros [Hx E]. rewrite !send_frac in E by (auto; lia).
      replace (l <? s) with true in E by (symmetry; apply Nat.ltb_lt; lia).
      replace (x <? s) with false in E by (symmetry; apply Nat.ltb_ge; lia).
      pose proof (Nat.mod_upper_bound (x - s) j ltac:(lia)) as M. pose proof (Nat.div_mod (x - s) j ltac:(lia)) as D.
      apply shift_inj in E; [|lia|lia]. rewrite <- E in D. revert D. generalize ((x - s) / j). intros i D. exists i. clear M E.
      split; [lia|]. apply filter_In. split; [apply in_seq; split; [lia|apply HP; lia]|apply Nat.ltb_lt; lia].
    - intros (i & <- & I). apply filter_In in I. destruct I as [I B]. apply in_seq in I. apply Nat.ltb_lt in B.
      split; [lia|]. rewrite !send_frac by (auto; lia).
      replace (l <? s) with true by (symmetry; apply Nat.ltb_lt; lia).
      replace (s + (i * j + l) <? s) with false by (symmetry; apply Nat.ltb_ge; lia).
      f_equal. f_equal. replace (s + (i * j + l) - s) with (l + i * j) by lia. rewrite Nat.mod_add by lia. symmetry. apply Nat.mod_small. auto.
  Qed.

  Context {V : Type} (op : V -> V -> V) (st : nat -> nat -> V).
  Lemma send_old q n : q < N -> n < s -> stage op N blk st q n = st q n.
  Proof.
    intros Hq Hn. rewrite (shift_stage N blk op st sl8) by auto.
    apply (shift_kept N NL P blk d pick b sl1 sl2 sl3 sl4 sl5 sl0 sl6 sl7); auto.
    intros i Hi. unfold sb. destruct (Nat.leb_spec (s + i * j) n); [lia|reflexivity].
  Qed.
  Lemma send_new q i l : q < N -> 1 <= i -> l < j -> i * j + l < s ->
    stage op N blk st q (s + ((i - 1) * j + l)) = st ((q + N - i * j) mod N) (i * j + l).
  Proof.
    intros Hq Hi Hl H. rewrite (shift_stage N blk op st sl8) by auto.
    assert (Ei : (i - 1 + 1) * j = i * j) by (f_equal; lia).
    assert (Hi' : i - 1 < P) by (apply HP; lia).
    rewrite (shift_received N NL P blk d pick b sl1 sl2 sl3 sl4 sl5 sl0 sl6 sl7 op st q (i - 1)); auto.
    - unfold sb, sd. rewrite send_out, seq_nth by (auto; rewrite ?Ei; lia). rewrite Ei. f_equal. clear. lia.
    - rewrite send_c by auto. unfold sb. rewrite Ei. clear - Hl H. lia.
  Qed.
End Send.

Lemma mod_shift_sub N a b x : 0 < N -> x <= N -> a mod N = b mod N -> (a + N - x) mod N = (b + N - x) mod N.
Proof.
  intros HN Hx E. rewrite <- !Nat.add_sub_assoc by lia. rewrite <- (Nat.add_mod_idemp_l a), <- (Nat.add_mod_idemp_l b) by lia. now rewrite E.
Qed.

Section Down.
  Context {V : Type} (op : V -> V -> V).
  Hypothesis op_assoc : forall a b c, op a (op b c) = op (op a b) c.
  Hypothesis op_comm : forall a b, op a b = op b a.
  Context (N : nat) (X : nat -> nat -> V).
  Definition partial (f : nat) (c : nat -> bool) : option V := combine op (map (fun x => X x f) (filter c (seq 0 N))).
  (* line n of node q holds the contributions of the nodes x at distance L = q + n - x with R L = n *)
  Definition gathered (R : nat -> nat) (s : nat) (S : nat -> nat -> V) : Prop :=
    (forall L, L < N -> R L < s) /\
    forall q n, q < N -> n < s -> Some (S q n) = partial ((q + n) mod N) (fun x => R ((q + n + N - x) mod N) =? n).
  Lemma partial_ext f c c' : (forall x, x < N -> c x = c' x) -> partial f c = partial f c'.
  Proof.
    intros H. unfold partial. f_equal. f_equal. apply filter_ext_in. intros x I. apply in_seq in I. apply H. lia.
  Qed.

  Definition by_row (N : nat) (s : nat) (prev : nat -> block) : Prop := forall q n, q < N -> n < s -> frac (lines (prev q) n) = (q + n) mod N.
  Lemma down_step s p prev s0 s2 R : 0 < s <= N -> by_row N s prev -> gathered R s s0 ->
    chain op N prev [fun q => cr_send N s (shrink s p) p q (prev q); fun q => cr_add s (cr_send N s (shrink s p) p q (prev q))] s0 s2 ->
    gathered (fun L => R L mod shrink s p) (shrink s p) s2.
  Proof.
    intros Hs Hprev [HR G] (st & s1 & A & B & st' & s2' & A' & B' & C).
    remember (shrink s p) as j eqn:Ej. symmetry in Ej. assert (Hj : 0 < j <= s) by (rewrite <- Ej; now apply shrink_bounds).
    assert (HP : forall i, i < (s - 1) / j <-> (i + 1) * j < s).
    { intros i. pose proof (Nat.div_mod (s - 1) j ltac:(lia)) as D. pose proof (Nat.mod_upper_bound (s - 1) j ltac:(lia)) as M.
      revert D M. generalize ((s - 1) / j) ((s - 1) mod j). intros a m D M. split; intros H.
      - assert ((i + 1) * j <= a * j) by (apply Nat.mul_le_mono_r; lia). lia.
      - destruct (Nat.lt_ge_cases i a); auto. assert ((a + 1) * j <= (i + 1) * j) by (apply Nat.mul_le_mono_r; lia). lia. }
    remember ((s - 1) / j) as P eqn:EP. clear EP.
    assert (Est : forall q n, q < N -> n < s -> st q n = s0 q n).
    { intros q n Hq Hn. apply A; auto. intros k Hk. rewrite Hprev by (auto; lia). 
      rewrite (send_frac N s p (proj1 Hs) (proj2 Hs) prev Hprev j P Ej Hj HP q k) by (auto; lia). now replace (k <? s) with true by (symmetry; apply Nat.ltb_lt; lia). }
    split; [intros L _; apply Nat.mod_upper_bound; lia|]. intros q l Hq Hl. rewrite C, B' by auto.
    rewrite still_stage by auto.
    rewrite reduced_at; [|cbn [cr_add num_lines]; rewrite (sl3 N s p prev j Ej q Hq); lia|].
    2:{ intros r I. cbv beta. rewrite (add_from N s p (proj1 Hs) (proj2 Hs) prev Hprev j P Ej Hj HP) in I by auto.
        apply in_map_iff in I. destruct I as (i & <- & _). split; [lia|].
        cbn [cr_add lines reducefrom]. now replace (s + (i * j + l) <? s) with false by (symmetry; apply Nat.ltb_ge; lia). }
    cbv beta. rewrite (add_from N s p (proj1 Hs) (proj2 Hs) prev Hprev j P Ej Hj HP) by auto.
    set (v := fun u => s0 ((q + N - u * j) mod N) (u * j + l)).
    assert (Ev0 : st' q l = v 0).
    { rewrite A' by (auto; intros k _; reflexivity). rewrite B by auto. 
      rewrite (send_old N s p (proj1 Hs) (proj2 Hs) prev Hprev j P Ej Hj HP) by (auto; lia).
      rewrite Est by (auto; lia). unfold v. cbn [Nat.mul plus]. f_equal. rewrite Nat.sub_0_r.
      rewrite <- (Nat.mod_small q N Hq) at 1. rewrite <- (Nat.mod_add q 1 N) by lia. f_equal. lia. }
    assert (Evi : forall i, (i + 1) * j + l < s -> st' q (s + (i * j + l)) = v (S i)).
    { intros i Hi. rewrite A' by (auto; intros k _; reflexivity). rewrite B by auto. 
      replace i with (S i - 1) at 1 by lia.
      rewrite (send_new N s p (proj1 Hs) (proj2 Hs) prev Hprev j P Ej Hj HP) by (auto; lia).
      rewrite Est; [reflexivity|apply Nat.mod_upper_bound; lia|lia]. }
    set (us := filter (fun u => u * j + l <? s) (seq 0 (S P))).
    assert (Eus : us = 0 :: map S (filter (fun i => (i + 1) * j + l <? s) (seq 0 P))).
    { unfold us. cbn [seq filter]. replace (0 * j + l <? s) with true by (symmetry; apply Nat.ltb_lt; lia). f_equal.
      rewrite <- seq_shift. generalize (seq 0 P). induction l0 as [|i l0 IH]; [reflexivity|]. cbn [map filter].
      replace (S i) with (i + 1) at 1 by lia. destruct ((i + 1) * j + l <? s); cbn [map]; now rewrite IH. }
    transitivity (combine op (map v us)).
    { rewrite Eus. cbn [map combine]. rewrite Ev0. f_equal.
      assert (F : forall i, In i (filter (fun i => (i + 1) * j + l <? s) (seq 0 P)) -> (i + 1) * j + l < s).
      { intros i I. apply filter_In in I. now apply Nat.ltb_lt. }
      revert F. generalize (filter (fun i => (i + 1) * j + l <? s) (seq 0 P)) (v 0). clear - Evi.
      induction l0 as [|i l0 IH]; intros a F; [reflexivity|]. cbn [map fold_left]. rewrite Evi by (apply F; now left).
      apply IH. intros; apply F; now right. }
    unfold partial.
    apply (combine_union op op_assoc op_comm _ N (fun u x => R ((q + l + N - x) mod N) =? u * j + l)).
    - apply NoDup_filter, seq_NoDup.
    - intros u I. apply filter_In in I. destruct I as [_ I]. apply Nat.ltb_lt in I. unfold v.
      assert (Hp : (q + N - u * j) mod N < N) by (apply Nat.mod_upper_bound; lia).
      rewrite G by auto. unfold partial.
      assert (E : ((q + N - u * j) mod N + (u * j + l)) mod N = (q + l) mod N).
      { rewrite Nat.add_mod_idemp_l by lia. replace (q + N - u * j + (u * j + l)) with (q + l + 1 * N) by lia. apply Nat.mod_add. lia. }
      rewrite E. f_equal. f_equal. apply filter_ext_in. intros x Ix. apply in_seq in Ix. 
      now rewrite (mod_shift_sub N _ (q + l) x) by (auto; lia).
    - intros u u' x _ _ Hx E1 E2. apply Nat.eqb_eq in E1, E2. assert (Y : u * j = u' * j) by lia. apply Nat.mul_cancel_r in Y; lia.
    - intros x Hx. set (L := (q + l + N - x) mod N). assert (HL : L < N) by (apply Nat.mod_upper_bound; lia).
      specialize (HR L HL). pose proof (Nat.div_mod (R L) j ltac:(lia)) as D. pose proof (Nat.mod_upper_bound (R L) j ltac:(lia)) as M.
      rewrite Nat.eqb_eq. split.
      + intros E. rewrite E in D. revert D. generalize (R L / j). intros u D. exists u. split.
        * apply filter_In. split; [|apply Nat.ltb_lt; lia]. apply in_seq. split; [lia|]. destruct u as [|u]; [lia|].
          enough (u < P) by lia. apply HP. lia.
        * apply Nat.eqb_eq. lia.
      + intros (u & _ & E). apply Nat.eqb_eq in E. rewrite E. replace (u * j + l) with (l + u * j) by lia.
        rewrite Nat.mod_add by lia. now apply Nat.mod_small.
  Qed.
End Down.
