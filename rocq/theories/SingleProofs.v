(* The reduce_scatter on one node. *)
From Verif Require Import Base BarrierModel NodeModel SyncProofs SyncItems SyncConcat NodeCode NodeZero SingleModel SyncBank SingleSpec.
Local Ltac Zify.zify_post_hook ::= idtac.
Local Open Scope nat_scope.
Notation adst a := (snd (fst (a : act))).

(* ---- tags ---- *)
Lemma okt_pair n own h l : forall b : bool, okb n own b l ->
  okt n own (if b then Some h else None) (map (pair h) l).
Proof.
  induction l as [|[e|e|k d s] l IH]; simpl; intros b H.
  - now subst.
  - destruct H as (-> & -> & H). repeat split. apply (IH true H).
  - destruct H as (-> & Hx & H). repeat split; auto. apply (IH false H).
  - destruct H as (-> & H). split; auto. apply (IH false H).
Qed.

Lemma wtags_pair h l : wtags (map (pair h) l) = repeat h (nW l).
Proof. induction l as [|[e|e|k d s] l IH]; simpl; auto. unfold nW in *. simpl. now rewrite IH. Qed.

Lemma snd_pair (h : nat) (l : list micro) : map snd (map (pair h) l) = l.
Proof. rewrite map_map. simpl. apply map_id. Qed.

Lemma executions_S alt code k : executions alt code (S k) = executions alt code k ++ map (pair (bank alt k)) (micro_code (code k)).
Proof. unfold executions. rewrite seq_S, flat_map_app. simpl. now rewrite app_nil_r. Qed.

Lemma executions_split alt code k r : k <= r -> exists l,
  executions alt code r = executions alt code k ++ l /\
  (forall h x, In (h, x) l -> exists j, k <= j < r /\ In x (micro_code (code j))).
Proof.
  intros L. exists (flat_map (fun j => map (pair (bank alt j)) (micro_code (code j))) (seq k (r - k))).
  split.
  - unfold executions. rewrite <- flat_map_app. f_equal. rewrite <- seq_app. f_equal. lia.
  - intros h x I. apply in_flat_map in I. destruct I as (j & Ij & I). apply in_seq in Ij.
    apply in_map_iff in I. destruct I as (y & E & I). injection E as <- <-. exists j. split; auto. lia.
Qed.

Lemma suffix_in {A} (a l bd r : list A) x : a ++ l = bd ++ r -> length r <= length l -> In x r -> In x l.
Proof.
  intros E L I.
  assert (E' : skipn (length bd) (a ++ l) = r).
  { rewrite E. rewrite skipn_app, skipn_all, Nat.sub_diag. reflexivity. }
  assert (length a <= length bd).
  { apply (f_equal (@length A)) in E. rewrite !app_length in E. lia. }
  rewrite skipn_app, skipn_all2 in E' by auto. simpl in E'. rewrite <- E' in I.
  rewrite <- (firstn_skipn (length bd - length a) l). apply in_or_app. auto.
Qed.

(* what is left after the return from execution k belongs to later executions *)
Lemma returned_left {V} alt code times (s : @bstate V) c k bd : k < times ->
  executions alt code times = bd ++ brest s c -> returned (executions alt code) times s c k ->
  forall h x, In (h, x) (brest s c) -> exists j, k < j < times /\ In x (micro_code (code j)).
Proof.
  intros L E R h x I. destruct (executions_split alt code (S k) times L) as (l & El & Hl).
  unfold returned in R. rewrite El in E, R. rewrite app_length in R.
  destruct (Hl h x) as (j & Hj & Ij).
  - eapply suffix_in; eauto. lia.
  - exists j. split; [lia|auto].
Qed.

(* one transfer *)
Lemma in_move k d s z a : In a (move_acts (Move k d s z)) <->
  exists x, (0 <= x < z)%Z /\ a = (k, (d + x)%Z, shift s x).
Proof.
  simpl. rewrite in_map_iff. split.
  - intros (i & <- & I). apply in_seq in I. exists (Z.of_nat i). split; auto. lia.
  - intros (x & Hx & ->). exists (Z.to_nat x). rewrite Z2Nat.id by lia. split; auto. apply in_seq. lia.
Qed.

(* ---- one phase ---- *)
Section Phase.
  Context (n : nat) {V : Type} (op : V -> V -> V) (send : nat -> Z -> V).

  Lemma phases_other X l m y : (forall c a, In c l -> In a (X c) -> adst a <> y) -> phases op send X l m y = m y.
  Proof.
    revert m. unfold phases. induction l as [|c l IH]; intros m H; [reflexivity|]. cbn [fold_left].
    rewrite IH by (intros; eapply H; simpl; eauto). apply seg_other. intros a I. eapply H; simpl; eauto.
  Qed.

  Lemma phases_own X m c y : c < n ->
    (forall d a b, d < n -> d <> c -> In a (X c) -> In b (X d) -> quiet a b) ->
    (forall d a, d < n -> d <> c -> In a (X d) -> adst a <> y) ->
    phases op send X (seq 0 n) m y = segment op send c (X c) m y.
  Proof.
    intros Hc Q W. replace n with (c + S (n - c - 1)) by lia. rewrite seq_app.
    unfold phases. rewrite fold_left_app. cbn [seq fold_left]. simpl (0 + c).
    change (phases op send X (seq (S c) (n - c - 1)) (segment op send c (X c) (phases op send X (seq 0 c) m)) y =
            segment op send c (X c) m y).
    rewrite phases_other.
    - rewrite commute_phases.
      + apply phases_other. intros d a I Ia. apply in_seq in I. apply (W d); auto; lia.
      + intros d a b Hd Ia Ib. apply (Q d); auto; lia.
    - intros d a I Ia. apply in_seq in I. apply (W d); auto; lia.
  Qed.

  Lemma seg_move c k d s z m x : (0 <= x < z)%Z ->
    (forall a, s = Shm a -> (a + z <= d \/ d + z <= a)%Z) ->
    segment op send c (move_acts (Move k d s z)) m (d + x)%Z =
      match k with Copy => sval send c (shift s x) m | Reduce => op (m (d + x)%Z) (sval send c (shift s x) m) end.
  Proof.
    intros Hx D. simpl.
    replace (Z.to_nat z) with (Z.to_nat x + S (Z.to_nat (z - x - 1))) by lia.
    rewrite seq_app, map_app. cbn [seq map]. simpl (0 + Z.to_nat x). rewrite Z2Nat.id by lia.
    apply seg_one.
    - intros a I. apply in_app_or in I. destruct I as [I|I]; apply in_map_iff in I; destruct I as (i & <- & I);
        apply in_seq in I; simpl; lia.
    - intros b a Es I. apply in_map_iff in I. destruct I as (i & <- & I). apply in_seq in I. simpl.
      destruct s as [a0|a0]; simpl in Es; [|discriminate]. injection Es as <-. specialize (D a0 eq_refl). lia.
  Qed.
End Phase.

Lemma block_unique t c c' b b' : (0 <= b < t -> 0 <= b' < t -> t * c + b = t * c' + b' -> c = c' /\ b = b')%Z.
Proof.
  intros Hb Hb' E.
  assert (c = c')%Z.
  { rewrite (Z.div_unique (t * c + b) t c b) by lia. rewrite E. symmetry. apply (Z.div_unique _ _ _ b'); lia. }
  subst. lia.
Qed.
Lemma block_inside t c N b : (0 <= b < t -> 0 <= c < N -> 0 <= t * c + b < N * t)%Z.
Proof. intros. nia. Qed.

Section Scatter.
  Context (counts : list Z) (first alt : bool).
  Hypothesis cok : counts_ok counts.
  Let n := length counts.
  Let N := Z.of_nat n.
  Let tot := total counts.
  Let own c := nth c counts 0%Z.

  Lemma n_pos : 0 < n.
  Proof. destruct cok as (H & _). unfold n. destruct counts; simpl; [congruence|lia]. Qed.
  Lemma nn : Forall (fun z => (0 <= z)%Z) counts.
  Proof. apply cok. Qed.

  Notation seg_of := (segment_of counts alt).
  Notation rcv := (recvbuf_of counts).
  Definition wmove (c k : nat) : instr := Move Copy (seg_of k + tot * Z.of_nat c) (Snd (sendbuf_of counts k)) tot.
  Definition rmove (c k i : nat) : instr :=
    Move (if i =? 0 then Copy else Reduce) (rcv k c) (Shm (seg_of k + (tot * Z.of_nat i + moffset counts c))) (own c).
  Definition wr (c k : nat) : list act := move_acts (wmove c k).
  Definition rd (c k : nat) : list act := macts (map (rmove c k) (seq 0 n)).

  Definition swait (c i : nat) : list nat := if Nat.even i then if first then diss n c else [] else diss n c.
  Definition slen (i : nat) : nat := if Nat.even i then if first then clg n else 0 else clg n.
  Definition sacts (c i : nat) : list act := if Nat.even i then wr c (i / 2) else rd c (i / 2).

  Lemma diss_len c : length (diss n c) = clg n.
  Proof. unfold diss, rounds. now rewrite map_length, seq_length. Qed.
  Lemma diss_n c x : In x (diss n c) -> x < n.
  Proof.
    unfold diss, rounds. intros I. apply in_map_iff in I. destruct I as (e & <- & _).
    apply Nat.mod_upper_bound. pose proof n_pos. lia.
  Qed.
  Lemma swait_len c i : c < n -> length (swait c i) = slen i.
  Proof. intros _. unfold swait, slen. destruct (Nat.even i), first; auto using diss_len. Qed.
  Lemma swait_n c i x : c < n -> In x (swait c i) -> x < n.
  Proof. intros _. unfold swait. destruct (Nat.even i), first; eauto using diss_n. intros []. Qed.

  Notation run_ := (scatter_run counts first alt).
  Notation code_ c := (fun k => single_code counts c first (segment_of counts alt k)
                             (sendbuf_of counts k) (recvbuf_of counts k c)).

  Lemma even_2 k : Nat.even (2 * k) = true.
  Proof. apply Nat.even_spec. exists k. lia. Qed.
  Lemma even_2S k : Nat.even (S (2 * k)) = false.
  Proof. rewrite Nat.even_succ, <- Nat.negb_even, even_2. reflexivity. Qed.
  Lemma half_2 k : 2 * k / 2 = k.
  Proof. rewrite Nat.mul_comm. apply Nat.div_mul. lia. Qed.
  Lemma half_2S k : S (2 * k) / 2 = k.
  Proof. symmetry. apply (Nat.div_unique _ _ _ 1); lia. Qed.

  Lemma micro_single c k : c < n ->
    micro_code (code_ c k) = item swait sacts c (2 * k) ++ item swait sacts c (S (2 * k)).
  Proof.
    intros Hc. unfold single_code. fold n tot. fold (own c). rewrite !micro_app.
    unfold item, swait, sacts. rewrite even_2, even_2S, half_2, half_2S.
    rewrite <- !app_assoc. rewrite sb_eq by auto. rewrite micro_bar.
    f_equal.
    { destruct first; [apply micro_bar|reflexivity]. }
    change [?x] with (x :: []).
    rewrite (micro_moves [Move Copy (seg_of k + tot * Z.of_nat c) (Snd (sendbuf_of counts k)) tot]) by (repeat constructor).
    unfold macts at 1. cbn [flat_map]. rewrite app_nil_r. f_equal. f_equal.
    rewrite <- micro_app.
    unfold rd. assert (E : map (rmove c k) (seq 0 n) =
      [Move Copy (rcv k c) (Shm (seg_of k + moffset counts c)) (own c)] ++
      map (fun i => Move Reduce (rcv k c) (Shm (seg_of k + (tot * Z.of_nat i + moffset counts c))) (own c)) (seq 1 (n - 1))).
    { pose proof n_pos. replace n with (S (n - 1)) at 1 by lia. cbn [seq map app]. f_equal.
      - unfold rmove. simpl. rewrite Z.mul_0_r. reflexivity.
      - apply map_ext_in. intros i I. apply in_seq in I. unfold rmove. now rewrite (proj2 (Nat.eqb_neq i 0)) by lia. }
    rewrite E. apply micro_moves. rewrite <- E. apply Forall_forall. intros x I.
    apply in_map_iff in I. destruct I as (i & <- & _). exact I.
  Qed.

  Lemma run_items t c : c < n -> map snd (run_ t c) = iprog swait sacts (2 * t) c.
  Proof.
    intros Hc. unfold scatter_run. induction t as [|t IH]; [reflexivity|].
    rewrite executions_S, map_app, IH, snd_pair, micro_single by auto.
    replace (2 * S t) with (S (S (2 * t))) by lia. rewrite !iprog_S. now rewrite <- app_assoc.
  Qed.

  Definition stag_list (t : nat) : list nat :=
    flat_map (fun k => repeat (bank alt k) (slen 0 + slen 1)) (seq 0 t).

  Lemma slen_2 k : slen (2 * k) = slen 0.
  Proof. unfold slen. now rewrite even_2. Qed.
  Lemma slen_2S k : slen (S (2 * k)) = slen 1.
  Proof. unfold slen. now rewrite even_2S. Qed.

  Lemma run_tags t c : c < n -> wtags (run_ t c) = stag_list t.
  Proof.
    intros Hc. unfold scatter_run, stag_list. induction t as [|t IH]; [reflexivity|].
    rewrite executions_S, wtags_app, IH, wtags_pair, seq_S, flat_map_app. f_equal. simpl (0 + t).
    cbn [flat_map]. rewrite app_nil_r. f_equal. rewrite micro_single, nW_app by auto.
    rewrite !(nW_item n slen swait sacts swait_len swait_n) by auto. now rewrite slen_2, slen_2S.
  Qed.

  Lemma ok_item c i : c < n -> okb n c false (item swait sacts c i).
  Proof.
    intros Hc. unfold item. apply okb_app.
    - pose proof (fun x => swait_n c i x Hc) as H. revert H.
      induction (swait c i) as [|w l IHl]; simpl; intros H; auto. repeat split; auto. exists w. auto.
    - induction (sacts c i); simpl; auto.
  Qed.

  Lemma run_okt t c : c < n -> okt n c None (run_ t c).
  Proof.
    intros Hc. unfold scatter_run. induction t as [|t IH]; [reflexivity|].
    rewrite executions_S. apply okt_app; auto. apply (okt_pair n c _ _ false).
    rewrite micro_single by auto. apply okb_app; apply ok_item; auto.
  Qed.

  (* ---- knowledge ---- *)
  Notation iprog_ := (iprog swait sacts).
  Notation cum_ := (cum slen).

  Lemma full_wait i c : first = true \/ Nat.even i = false -> swait c i = diss n c /\ slen i = clg n.
  Proof. unfold swait, slen. intros [->| ->]; auto. destruct (Nat.even i); auto. Qed.

  Lemma barrier_knows M b c d : b < M -> first = true \/ Nat.even b = false -> c < n -> d < n -> c <> d ->
    knows (iprog_ M) d (cum_ (S b)) c (cum_ b).
  Proof.
    intros Hb F Hc Hd Ne.
    assert (Dm := disseminate n slen swait sacts swait_len swait_n M (fun t => t) n b Hb n_pos (fun t Ht => Ht)).
    destruct (Dm ltac:(rewrite (proj2 (full_wait b 0 F)); auto)) with (t := d) (u := c) as (_ & Q); auto.
    intros t e Ht He. rewrite (proj1 (full_wait b t F)). unfold diss.
    unfold rounds. rewrite (nth_indep _ 0 ((fun e => (t + 2 ^ e) mod n) 0)) by (rewrite map_length, seq_length; auto).
    rewrite (map_nth (fun e => (t + 2 ^ e) mod n)). now rewrite seq_nth by auto.
  Qed.

  Lemma cum_2 k : cum_ (2 * k) = k * (slen 0 + slen 1).
  Proof.
    induction k as [|k IH]; [reflexivity|]. replace (2 * S k) with (S (S (2 * k))) by lia.
    rewrite !(cum_S slen swait sacts), IH, slen_2, slen_2S. lia.
  Qed.

  Lemma clg_small : (Z.of_nat (clg n) <= 31)%Z.
  Proof.
    unfold clg. destruct (le_lt_dec n 1) as [L|L].
    - rewrite Nat.log2_up_eqn0 by auto. lia.
    - assert (Nat.log2_up n <= 31); [|lia].
      apply Nat.log2_up_le_pow2; [lia|]. destruct cok as (_ & Hs & _). fold n in Hs.
      apply Nat2Z.inj_le. rewrite Nat2Z.inj_pow. change (Z.of_nat 2 ^ Z.of_nat 31)%Z with (2 ^ 31)%Z. lia.
  Qed.

  Lemma near_items t : near n (iprog_ (2 * t)) (cum_ (2 * t)).
  Proof.
    intros c x j Hc Hx Hj. exists (4 * clg n + 1). pose proof clg_small as CS. split; [lia|].
    destruct (le_lt_dec j (4 * clg n + 1)) as [L|L]; auto. right.
    destruct (Nat.eq_dec c x) as [->|Ne]; [apply k_self; lia|].
    set (p := slen 0 + slen 1).
    assert (C1 : slen 1 = clg n) by reflexivity.
    assert (C0 : slen 0 <= clg n) by (unfold slen; simpl; destruct first; lia).
    assert (Cp : 0 < clg n) by (unfold clg; apply Nat.log2_up_pos; lia).
    assert (Hp : 0 < p <= 2 * clg n) by (unfold p; lia).
    set (k := j / p).
    assert (K1 : p * k <= j) by (apply Nat.mul_div_le; lia).
    assert (K2 : j < p * S k) by (apply Nat.mul_succ_div_gt; lia).
    rewrite cum_2 in Hj. fold p in Hj.
    assert (Hk : 0 < k) by (destruct k; lia).
    assert (Kt : k <= t).
    { apply Nat.nlt_ge. intros Q. assert (p * S t <= p * k) by (apply Nat.mul_le_mono_l; lia). lia. }
    set (b := S (2 * (k - 1))).
    assert (Eb : cum_ (S b) = k * p).
    { unfold b. replace (S (S (2 * (k - 1)))) with (2 * k) by lia. apply cum_2. }
    assert (Lb : k * p - p <= cum_ b).
    { unfold b. rewrite (cum_S slen swait sacts), cum_2. fold p.
      rewrite Nat.mul_sub_distr_r. lia. }
    eapply k_mono; [eapply k_down; [apply (barrier_knows (2 * t) b x c)|]|]; auto; try lia.
    right. apply even_2S.
  Qed.

  (* ---- where the actions are ---- *)
  Lemma tot_moff c : c < n -> (0 <= moffset counts c /\ moffset counts c + own c <= tot)%Z.
  Proof. intros Hc. apply moffset_in; auto. apply nn. Qed.

  Lemma in_wr c k a : In a (wr c k) -> exists b, (0 <= b < tot)%Z /\
    a = (Copy, (seg_of k + (tot * Z.of_nat c + b))%Z, Snd (sendbuf_of counts k + b)).
  Proof.
    unfold wr, wmove. intros I. apply in_move in I. destruct I as (b & Hb & ->). exists b. split; auto.
    simpl. now rewrite Z.add_assoc.
  Qed.

  Lemma in_rd c k a : c < n -> In a (rd c k) -> exists i x, i < n /\ (0 <= x < own c)%Z /\
    snd (fst a) = (rcv k c + x)%Z /\ snd a = Shm (seg_of k + (tot * Z.of_nat i + (moffset counts c + x))).
  Proof.
    intros Hc I. unfold rd, macts in I. apply in_flat_map in I. destruct I as (y & Iy & I).
    apply in_map_iff in Iy. destruct Iy as (i & <- & Ii). apply in_seq in Ii.
    unfold rmove in I. apply in_move in I. destruct I as (x & Hx & ->). exists i, x. simpl.
    repeat split; try lia. f_equal. lia.
  Qed.

  Lemma bank_01 k : (0 <= Z.of_nat (bank alt k) <= 1)%Z.
  Proof. unfold bank. destruct alt; [|lia]. pose proof (Nat.mod_upper_bound k 2). lia. Qed.

  Lemma shm_below k c b : c < n -> (0 <= b < tot -> 0 <= seg_of k + (tot * Z.of_nat c + b) < 2 * (N * tot))%Z.
  Proof.
    intros Hc Hb. unfold segment_of. fold n N tot. pose proof (bank_01 k).
    pose proof (block_inside tot (Z.of_nat c) N b Hb ltac:(unfold N; lia)).
    pose proof (block_inside (N * tot) (Z.of_nat (bank alt k)) 2 (tot * Z.of_nat c + b) ltac:(lia) ltac:(lia)). lia.
  Qed.

  Lemma shm_inj k c b k' c' b' : c < n -> c' < n -> (0 <= b < tot)%Z -> (0 <= b' < tot)%Z ->
    (seg_of k + (tot * Z.of_nat c + b) = seg_of k' + (tot * Z.of_nat c' + b'))%Z ->
    bank alt k = bank alt k' /\ c = c' /\ b = b'.
  Proof.
    intros Hc Hc' Hb Hb' E. unfold segment_of in E. fold n N tot in E.
    pose proof (block_inside tot (Z.of_nat c) N b Hb ltac:(unfold N; lia)) as B1.
    pose proof (block_inside tot (Z.of_nat c') N b' Hb' ltac:(unfold N; lia)) as B2.
    rewrite (Z.mul_comm _ (N * tot)), (Z.mul_comm (Z.of_nat (bank alt k')) (N * tot)) in E.
    destruct (block_unique _ _ _ _ _ B1 B2 E) as (E1 & E2).
    destruct (block_unique _ _ _ _ _ Hb Hb' E2) as (E3 & E4).
    repeat split; auto; apply Nat2Z.inj; auto.
  Qed.

  Lemma rcv_above k c x : (0 <= tot -> 0 <= x -> 2 * (N * tot) <= rcv k c + x)%Z.
  Proof. intros. unfold recvbuf_of. fold n N tot. unfold N. nia. Qed.

  Lemma rcv_inj k c x k' c' x' : c < n -> c' < n -> (0 <= x < tot)%Z -> (0 <= x' < tot)%Z ->
    (rcv k c + x = rcv k' c' + x')%Z -> k = k' /\ c = c' /\ x = x'.
  Proof.
    intros Hc Hc' Hx Hx' E. unfold recvbuf_of in E. fold n N tot in E.
    destruct (block_unique tot (Z.of_nat k * N + Z.of_nat c) (Z.of_nat k' * N + Z.of_nat c') x x' Hx Hx' ltac:(lia)) as (E1 & E2).
    destruct (block_unique N (Z.of_nat k) (Z.of_nat k') (Z.of_nat c) (Z.of_nat c')) as (E3 & E4); try (unfold N; lia).
  Qed.

  (* ---- no races ---- *)
  Lemma clash_where c d i j k1 d1 s1 k2 d2 s2 : c < n -> d < n -> c <> d ->
    In (k1, d1, s1) (sacts c i) -> In (k2, d2, s2) (sacts d j) -> clash k1 d1 s1 k2 d2 s2 ->
    bank alt (i / 2) = bank alt (j / 2) /\ Nat.even i = negb (Nat.even j).
  Proof.
    intros Hc Hd Ne I1 I2 C. unfold sacts in I1, I2.
    set (p := i / 2) in *. set (q := j / 2) in *. clearbody p q.
    pose proof (tot_moff c Hc) as Mc. pose proof (tot_moff d Hd) as Md.
    destruct (Nat.even i), (Nat.even j).
    - exfalso. apply in_wr in I1. apply in_wr in I2. destruct I1 as (b & Hb & E1), I2 as (b' & Hb' & E2).
      injection E1 as -> -> ->. injection E2 as -> -> ->. destruct C as [C|[C|C]]; try discriminate.
      apply Ne. eapply shm_inj in C; eauto. tauto.
    - apply in_wr in I1. apply in_rd in I2; auto. destruct I1 as (b & Hb & E1), I2 as (i2 & x & Hi & Hx & E2 & E3).
      injection E1 as -> -> ->. cbn [fst snd] in E2, E3. subst d2 s2. destruct C as [C|[C|C]]; try discriminate.
      + exfalso. pose proof (shm_below p c b Hc Hb). pose proof (rcv_above q d x ltac:(lia) ltac:(lia)). lia.
      + injection C as C. apply shm_inj in C; auto; [|lia]. destruct C as (<- & _). auto.
    - apply in_rd in I1; auto. apply in_wr in I2. destruct I2 as (b & Hb & E1), I1 as (i2 & x & Hi & Hx & E2 & E3).
      injection E1 as -> -> ->. cbn [fst snd] in E2, E3. subst d1 s1. destruct C as [C|[C|C]]; try discriminate.
      + exfalso. pose proof (shm_below q d b Hd Hb). pose proof (rcv_above p c x ltac:(lia) ltac:(lia)). lia.
      + injection C as C. apply shm_inj in C; auto; [|lia]. destruct C as (<- & _). auto.
    - exfalso. apply in_rd in I1; auto. apply in_rd in I2; auto.
      destruct I1 as (i1 & x1 & Hi1 & Hx1 & E1 & F1), I2 as (i2 & x2 & Hi2 & Hx2 & E2 & F2).
      cbn [fst snd] in E1, E2, F1, F2. subst d1 s1 d2 s2.
      destruct C as [C|[C|C]].
      + apply rcv_inj in C; auto; lia.
      + injection C as C. pose proof (shm_below q i2 (moffset counts d + x2) Hi2 ltac:(lia)).
        pose proof (rcv_above p c x1 ltac:(lia) ltac:(lia)). lia.
      + injection C as C. pose proof (shm_below p i1 (moffset counts c + x1) Hi1 ltac:(lia)).
        pose proof (rcv_above q d x2 ltac:(lia) ltac:(lia)). lia.
  Qed.

  Hypothesis safe : first = true \/ alt = true.

  Lemma later_knows M i j c d : i < j -> j < M -> c < n -> d < n -> c <> d ->
    bank alt (i / 2) = bank alt (j / 2) -> Nat.even i = negb (Nat.even j) ->
    knows (iprog_ M) d (cum_ (S j)) c (cum_ (S i)).
  Proof.
    intros L HM Hc Hd Ne Bk Ev.
    assert (X : exists b, i < b <= j /\ (first = true \/ Nat.even b = false)).
    { destruct first eqn:F; [exists j; split; auto; lia|].
      destruct safe as [?|A]; [congruence|]. rewrite A in Bk. unfold bank in Bk.
      destruct (Nat.even i) eqn:Ei.
      - exists (S i). split; [lia|]. right. rewrite Nat.even_succ, <- Nat.negb_even, Ei. reflexivity.
      - exists (S (S i)). split; [|right; simpl; exact Ei]. split; [lia|].
        destruct (Nat.eq_dec j (S i)) as [->|]; [exfalso|lia].
        assert (Ei' : exists q, i = S (2 * q)).
        { exists (i / 2). rewrite (Nat.div_mod i 2) at 1 by lia.
          rewrite <- Nat.bit0_mod, Nat.bit0_odd, <- Nat.negb_even, Ei. simpl. lia. }
        destruct Ei' as (q & ->). rewrite half_2S in Bk. replace (S (S (2 * q))) with (2 * S q) in Bk by lia.
        rewrite half_2 in Bk. pose proof (Nat.mod_upper_bound q 2).
        destruct (Nat.eq_dec (q mod 2) 0) as [Z|Z].
        + pose proof (Nat.div_mod q 2 ltac:(lia)). pose proof (Nat.div_mod (S q) 2 ltac:(lia)). lia.
        + pose proof (Nat.div_mod q 2 ltac:(lia)). pose proof (Nat.div_mod (S q) 2 ltac:(lia)). lia. }
    destruct X as (b & Hb & F).
    eapply k_mono; [eapply k_down; [apply (barrier_knows M b c d)|]|]; auto; try lia.
    - apply (cum_mono slen swait sacts). lia.
    - apply (cum_mono slen swait sacts). lia.
  Qed.

  Lemma items_race M : race_free n (iprog_ M).
  Proof.
    intros c d j k k1 d1 s1 k2 d2 s2 Hc Hd Ne I1 I2 C.
    apply (in_segm_iprog n slen swait sacts swait_len swait_n) in I1; auto.
    apply (in_segm_iprog n slen swait sacts swait_len swait_n) in I2; auto.
    destruct I1 as (i1 & H1 & I1 & ->), I2 as (i2 & H2 & I2 & ->).
    destruct (clash_where c d i1 i2 _ _ _ _ _ _ Hc Hd Ne I1 I2 C) as (Bk & Ev).
    destruct (lt_eq_lt_dec i1 i2) as [[L|L]|L].
    - left. apply later_knows; auto.
    - subst. destruct (Nat.even i2); discriminate.
    - right. apply later_knows; auto. rewrite Ev. now rewrite negb_involutive.
  Qed.

  (* ---- values ---- *)
  Context {V : Type} (op : V -> V -> V) (send : nat -> Z -> V).

  Notation phs X m := (phases op send X (seq 0 n) m).

  Lemma written k m c b : c < n -> (0 <= b < tot)%Z ->
    phs (fun c => wr c k) m (seg_of k + (tot * Z.of_nat c + b))%Z = send c (sendbuf_of counts k + b)%Z.
  Proof.
    intros Hc Hb. rewrite (phases_own n op send (fun c => wr c k) m c); auto.
    - unfold wr, wmove. rewrite Z.add_assoc, seg_move; auto. intros a E. discriminate.
    - intros d [[ka da] sa] [[kb db] sb] Hd Ne I I' C.
      destruct (clash_where c d (2 * k) (2 * k) ka da sa kb db sb Hc Hd (not_eq_sym Ne)) as (_ & Q); [| |exact C|].
      + unfold sacts. rewrite even_2, half_2. exact I.
      + unfold sacts. rewrite even_2, half_2. exact I'.
      + rewrite even_2 in Q. discriminate.
    - intros d a Hd Ne I E. apply in_wr in I. destruct I as (b' & Hb' & ->). simpl in E.
      apply shm_inj in E; auto. destruct E as (_ & E & _). congruence.
  Qed.

  Lemma written_recv k m k' c x : c < n -> (0 <= x < own c)%Z ->
    phs (fun c => wr c k) m (rcv k' c + x)%Z = m (rcv k' c + x)%Z.
  Proof.
    intros Hc Hx. apply phases_other. intros d a Id I. apply in_seq in Id. apply in_wr in I.
    destruct I as (b & Hb & ->). simpl. pose proof (shm_below k d b ltac:(lia) Hb). pose proof (rcv_above k' c x ltac:(lia) ltac:(lia)). lia.
  Qed.

  Lemma read_other k m k' c x : c < n -> (0 <= x < own c)%Z -> k <> k' ->
    phs (fun c => rd c k) m (rcv k' c + x)%Z = m (rcv k' c + x)%Z.
  Proof.
    intros Hc Hx Nk. apply phases_other. intros d a Id I. apply in_seq in Id. apply in_rd in I; [|lia].
    destruct I as (i & x' & Hi & Hx' & E & _). rewrite E. pose proof (tot_moff c Hc). pose proof (tot_moff d ltac:(lia)).
    intros Q. apply rcv_inj in Q; try lia.
  Qed.

  Lemma read_value k m c x : c < n -> (0 <= x < own c)%Z ->
    phs (fun c => rd c k) m (rcv k c + x)%Z =
    in_order op (fun i => m (seg_of k + (tot * Z.of_nat i + (moffset counts c + x)))%Z) n.
  Proof.
    intros Hc Hx. pose proof (tot_moff c Hc) as Mc.
    rewrite (phases_own n op send (fun c => rd c k) m c); auto.
    - unfold rd, in_order.
      set (f := fun i => m (seg_of k + (tot * Z.of_nat i + (moffset counts c + x)))%Z).
      assert (G : forall j, j < n -> segment op send c (macts (map (rmove c k) (seq 0 (S j)))) m (rcv k c + x)%Z =
                  fold_left op (map f (seq 1 j)) (f 0) /\
                  (forall y, (y < 2 * (N * tot))%Z -> segment op send c (macts (map (rmove c k) (seq 0 (S j)))) m y = m y)).
      { assert (Dj : forall i, i < n -> forall a, Shm (seg_of k + (tot * Z.of_nat i + moffset counts c)) = Shm a ->
                     (a + own c <= rcv k c \/ rcv k c + own c <= a)%Z).
        { intros i Hi a E. injection E as <-. left.
          pose proof (shm_below k i (moffset counts c + (own c - 1)) Hi ltac:(lia)).
          pose proof (rcv_above k c 0 ltac:(lia) ltac:(lia)). lia. }
        assert (Low : forall i m y, i < n -> (y < 2 * (N * tot))%Z -> segment op send c (move_acts (rmove c k i)) m y = m y).
        { intros i m' y Hi Hy. apply seg_other. intros a I. unfold rmove in I. apply in_move in I.
          destruct I as (x' & Hx' & ->). simpl. pose proof (rcv_above k c x' ltac:(lia) ltac:(lia)). lia. }
        assert (One : forall i m, i < n -> segment op send c (move_acts (rmove c k i)) m (rcv k c + x)%Z =
                  let v := m (seg_of k + (tot * Z.of_nat i + (moffset counts c + x)))%Z in
                  if i =? 0 then v else op (m (rcv k c + x)%Z) v).
        { intros i m' Hi. unfold rmove. rewrite seg_move by (auto; apply Dj; auto).
          cbn [shift sval]. cbv zeta.
          replace (seg_of k + (tot * Z.of_nat i + moffset counts c) + x)%Z with
            (seg_of k + (tot * Z.of_nat i + (moffset counts c + x)))%Z by lia.
          destruct (i =? 0); reflexivity. }
        induction j as [|j IH]; intros Hj.
        - cbn [seq map]. unfold macts. cbn [flat_map]. rewrite app_nil_r. split.
          + rewrite One by auto. reflexivity.
          + intros y Hy. apply Low; auto.
        - destruct (IH ltac:(lia)) as (I1 & I2).
          rewrite (seq_S (S j) 0), map_app. unfold macts. rewrite flat_map_app. cbn [map flat_map plus]. rewrite app_nil_r.
          change (flat_map move_acts (map (rmove c k) (seq 0 (S j)))) with (macts (map (rmove c k) (seq 0 (S j)))).
          split.
          + rewrite segment_app, One by auto. simpl (S j =? 0). cbv iota. cbv zeta.
            rewrite I1, I2.
            * rewrite (seq_S j 1), map_app, fold_left_app. reflexivity.
            * apply shm_below; auto; lia.
          + intros y Hy. rewrite segment_app, Low by auto. apply I2, Hy. }
      pose proof n_pos. destruct (G (n - 1) ltac:(lia)) as (G1 & _).
      replace (S (n - 1)) with n in G1 by lia. exact G1.
    - intros d [[ka da] sa] [[kb db] sb] Hd Ne I I' C.
      destruct (clash_where c d (S (2 * k)) (S (2 * k)) ka da sa kb db sb Hc Hd (not_eq_sym Ne)) as (_ & Q); [| |exact C|].
      + unfold sacts. rewrite even_2S, half_2S. exact I.
      + unfold sacts. rewrite even_2S, half_2S. exact I'.
      + rewrite even_2S in Q. discriminate.
    - intros d a Hd Ne I E. apply in_rd in I; auto. destruct I as (i & x' & Hi & Hx' & E' & _). rewrite E' in E.
      pose proof (tot_moff d Hd). apply rcv_inj in E; auto; try lia.
  Qed.

  Lemma all_values t m c x k : k < t -> c < n -> (0 <= x < own c)%Z ->
    fold_left (fun m i => phs (fun c => sacts c i) m) (seq 0 (2 * t)) m (rcv k c + x)%Z =
    in_order op (fun i => send i (sendbuf_of counts k + (moffset counts c + x))%Z) n.
  Proof.
    intros Hk Hc Hx. pose proof (tot_moff c Hc) as Mc. induction t as [|t IH]; [lia|].
    replace (2 * S t) with (S (S (2 * t))) by lia. rewrite !seq_S, !fold_left_app. cbn [fold_left plus].
    set (m1 := fold_left (fun m i => phs (fun c => sacts c i) m) (seq 0 (2 * t)) m) in *.
    assert (W : phs (fun c => sacts c (2 * t)) m1 = phs (fun c => wr c t) m1).
    { unfold phases. apply fold_left_eq. intros a d _. unfold sacts. now rewrite even_2, half_2. }
    change (t + (t + 0)) with (2 * t). rewrite W.
    assert (Rd : forall m, phs (fun c => sacts c (S (2 * t))) m = phs (fun c => rd c t) m).
    { intros m'. unfold phases. apply fold_left_eq. intros a d _. unfold sacts. now rewrite even_2S, half_2S. }
    rewrite Rd. destruct (Nat.eq_dec k t) as [->|Ne].
    - rewrite read_value by auto. unfold in_order. 
      rewrite written by (try apply n_pos; lia). f_equal. apply map_ext_in. intros i I. apply in_seq in I.
      apply written; lia.
    - rewrite read_other by auto. rewrite written_recv by auto. apply IH. lia.
  Qed.

  Lemma in_code c k k1 d1 s1 : c < n -> In (MAct k1 d1 s1) (micro_code (code_ c k)) ->
    In (k1, d1, s1) (wr c k) \/ In (k1, d1, s1) (rd c k).
  Proof.
    intros Hc I. cbv beta in I. rewrite micro_single in I by auto. unfold item, sacts in I.
    rewrite even_2, even_2S, half_2, half_2S in I.
    assert (P : forall l, ~ In (MAct k1 d1 s1) (pairs c l)).
    { intros l Q. unfold pairs in Q. apply in_flat_map in Q. destruct Q as (w & _ & [Q|[Q|[]]]); discriminate. }
    assert (M : forall l, In (MAct k1 d1 s1) (map mact l) -> In (k1, d1, s1) l).
    { intros l Q. apply in_map_iff in Q. destruct Q as ([[k' d'] s'] & Q & J). unfold mact in Q. simpl in Q.
      injection Q as -> -> ->. exact J. }
    repeat (apply in_app_or in I; destruct I as [I|I]).
    - destruct (P _ I).
    - left. auto.
    - destruct (P _ I).
    - right. auto.
  Qed.

  Lemma in_code_recv d k' k1 s1 k c x : d < n -> c < n -> (0 <= x < own c)%Z ->
    In (MAct k1 (rcv k c + x)%Z s1) (micro_code (code_ d k')) -> c = d /\ k = k'.
  Proof.
    intros Hd Hc Hx I. pose proof (tot_moff c Hc). pose proof (tot_moff d Hd).
    apply in_code in I; auto. destruct I as [I|I].
    - exfalso. apply in_wr in I. destruct I as (b & Hb & E). injection E as _ E _.
      pose proof (shm_below k' d b Hd Hb). pose proof (rcv_above k c x ltac:(lia) ltac:(lia)). lia.
    - apply in_rd in I; auto. destruct I as (i & x' & Hi & Hx' & E & _). cbn [fst snd] in E.
      apply rcv_inj in E; auto; try lia.
  Qed.

  (* ---- executions ---- *)
  Context (c0 : nat -> Z) (m0 : Z -> V) (times : nat).
  Notation start_ := (bstart (fun c => run_ times c) c0 m0).

  Lemma tag_count : length (stag_list times) = cum_ (2 * times).
  Proof. pose proof n_pos. rewrite <- (run_tags times 0) by auto. rewrite wtags_length, run_items by auto.
    now apply (nW_iprog n slen swait sacts swait_len swait_n). Qed.

  Theorem scatter_progress s : breach op send n start_ s ->
    bfinished n s \/ exists c s', c < n /\ bstep op send s c = Some s'.
  Proof.
    intros R. apply (bank_progress n (fun c => run_ times c) (iprog_ (2 * times)) (stag_list times)
                       (run_items times) (run_okt times) (run_tags times)) in R; auto.
    rewrite tag_count. apply near_items.
  Qed.

  Theorem scatter_value s c k x : breach op send n start_ s -> c < n -> k < times ->
    returned (fun t => run_ t c) times s c k -> (0 <= x < own c)%Z ->
    bmem s (rcv k c + x)%Z = in_order op (fun i => send i (sendbuf_of counts k + (block_start counts c + x))%Z) n.
  Proof.
    intros R Hc Hk Rt Hx. pose proof (tot_moff c Hc) as Mc.
    assert (Nr : near n (iprog_ (2 * times)) (length (stag_list times))) by (rewrite tag_count; apply near_items).
    rewrite (settled n (fun c => run_ times c) (iprog_ (2 * times)) (stag_list times)
               (run_items times) (run_okt times) (run_tags times) Nr op send c0 m0 s c); auto.
    - rewrite tag_count. rewrite (lock_items_calm n op send slen swait sacts swait_len swait_n).
      + apply all_values; auto.
      + apply race_calm, items_race.
    - apply items_race.
    - intros d k1 s1 Hd I. rewrite <- run_items in I by auto. apply in_map_iff in I.
      destruct I as ([h y] & E & I). simpl in E. subst y. unfold scatter_run, executions in I.
      apply in_flat_map in I. destruct I as (k' & _ & I). apply in_map_iff in I. destruct I as (y & E & I).
      injection E as _ ->. symmetry. eapply (in_code_recv d k' k1 s1 k c x); eauto.
    - intros h k1 s1 I.
      destruct (bank_run n (fun c => run_ times c) (iprog_ (2 * times)) (stag_list times)
               (run_items times) (run_okt times) (run_tags times) Nr op send c0 m0 s R) as (t' & s' & _ & Si).
      destruct (si_count _ _ _ _ _ Si c Hc) as (bd & E & _).
      destruct (returned_left alt (code_ c) times s c k bd Hk E Rt h _ I) as (j & Hj & Ij).
      pose proof (in_code_recv c j k1 s1 k c x Hc Hc Hx Ij). lia.
  Qed.
End Scatter.

Lemma bstep_work {V} (op : V -> V -> V) send n (s : @bstate V) c s' :
  c < n -> bstep op send s c = Some s' -> bwork n s' < bwork n s.
Proof.
  intros Hc St. unfold bwork.
  assert (E : exists x p, brest s c = x :: p /\ brest s' = upd Nat.eq_dec (brest s) c p).
  { unfold bstep in St. destruct (brest s c) as [|[h [e|e|k d src]] p]; [discriminate| | |].
    - injection St as <-. simpl. eauto.
    - destruct (not_reached _ _); [discriminate|]. injection St as <-. simpl. eauto.
    - injection St as <-. simpl. eauto. }
  destruct E as (x & p & E1 & E2).
  assert (L : length (brest s' c) < length (brest s c)) by (rewrite E2, E1, upd_same; simpl; lia).
  assert (O : forall d, length (brest s' d) <= length (brest s d)).
  { intros d. destruct (Nat.eq_dec d c) as [->|Ne]; [lia|]. rewrite E2, upd_other by auto. lia. }
  clear - Hc L O. induction n as [|n IH]; [lia|].
  rewrite !seq_S, !map_app, !list_sum_app. simpl. pose proof (O n).
  destruct (Nat.eq_dec c n) as [->|Ne].
  - assert (G : forall l, list_sum (map (fun c => length (brest s' c)) l) <= list_sum (map (fun c => length (brest s c)) l)).
    { induction l as [|a l IHl]; simpl; auto. pose proof (O a). unfold list_sum in *. lia. }
    pose proof (G (seq 0 n)). unfold list_sum in *. lia.
  - specialize (IH ltac:(lia)). unfold list_sum in *. lia.
Qed.
