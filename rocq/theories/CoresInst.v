(* The generated schedules rotate, so that the cores agree on them. *)
From Coq Require Import Permutation.
From Verif Require Import Base SchedModel SchedSpec SchedProofs RecursiveModel RecursiveArith RecursiveSpec RecursiveProofs ReduceProofs AllreduceProofs MatchProofs.
From Verif Require Import CyclicModel CyclicSpec CyclicProofs CycRedModel CycRedDown CycRedSpread CycRedAll CycRedScatter CycRedWhole ShiftProofs LooseChain LooseAlike.
From Verif Require Import CoresModel CoresSpec CoresProofs.
Local Ltac Zify.zify_post_hook ::= idtac.

Lemma rotating_ext N num num' b1 b2 : (forall q, q < N -> num q = num' q) ->
  (forall p q, p < N -> q < N -> (sent_lines b1 p q <> [] <-> sent_lines b2 p q <> [])) -> rotating N num b1 -> rotating N num' b2.
Proof.
  intros En Eb (w & g & S & Hw & Hg & HN & R). exists w, g, S. repeat (split; [assumption|]).
  intros p q Hp Hq D. rewrite <- Eb, <- !En by auto. now apply R.
Qed.
Local Notation turning N := (rotating N (fun x => x)).
Lemma turning_ext N b1 b2 : (forall q, b1 q = b2 q) -> turning N b1 -> turning N b2.
Proof. intros E. apply rotating_ext; [reflexivity|]. intros p q _ _. unfold sent_lines. now rewrite E. Qed.
Lemma turning_quiet N blk : (forall p n e, p < N -> n < num_lines (blk p) -> In e (sendto (lines (blk p) n)) -> fst e = (-1)%Z) -> turning N blk.
Proof.
  intros H. exists 1, 1, (fun _ => false). split; [lia|]. split; [lia|]. split; [reflexivity|].
  intros p q Hp Hq D. split; [|intros (_ & _ & X); discriminate].
  intros X. exfalso. apply X. apply sent_lines_nil. intros n Hn. apply filter_none. intros e He.
  unfold is_node. rewrite (H p n e Hp Hn He). apply Z.eqb_neq. lia.
Qed.
Lemma turning_empty N : turning N (fun _ => empty_block).
Proof. apply turning_quiet. intros p n e _ H. cbn in H. lia. Qed.
(* messages at fixed distances *)
Lemma turning_dist N blk (S : nat -> bool) : 0 < N ->
  (forall p q, p < N -> q < N -> p <> q -> (sent_lines blk p q <> [] <-> S ((p + N - q) mod N) = true)) -> turning N blk.
Proof.
  intros HN H. exists 1, N, S. split; [lia|]. split; [lia|]. split; [rewrite Nat.mul_1_l; apply Nat.mod_same; lia|].
  intros p q Hp Hq D. rewrite H by auto. rewrite !Nat.mod_1_r, Nat.mul_1_l, !Nat.div_1_r, !Nat.div_small by auto.
  rewrite (Nat.mod_small p N), (Nat.mod_small q N) by auto. tauto.
Qed.
(* messages within the groups of a stage of the recursive schedules *)
Lemma turning_peers N g p blk : 0 < g -> N mod (g * (p + 1)) = 0 ->
  (forall t q, t < N -> q < N -> t <> q -> (sent_lines blk t q <> [] <-> q / (g * (p + 1)) = t / (g * (p + 1)) /\ q mod g = t mod g)) -> turning N blk.
Proof.
  intros Hg HN H. exists g, (p + 1), (fun _ => true). split; [lia|]. split; [lia|]. split; [assumption|].
  intros t q Ht Hq D. rewrite H by auto. tauto.
Qed.
Lemma seq_full a k : 0 < k -> seq a k <> [].
Proof. destruct k; [lia|discriminate]. Qed.

Lemma turning_ag N NL off g p b blk : 0 < g -> N mod (g * (p + 1)) = 0 -> off + N <= NL -> blanks b ->
  (forall q, blk q = Block NL (apply_writes b (ag_writes off g p q))) -> turning N blk.
Proof.
  intros Hg HN HNL Hb Hblk. apply (turning_peers N g p); auto. intros u q Hu Hq D.
  destruct (ag_sent off g p Hg b Hb N NL HN HNL blk Hblk u q Hu D) as (S1 & S2).
  destruct (peers_dec g p u q) as [P|P].
  - rewrite (S1 P). split; [intros _; exact P|intros _; now apply seq_full].
  - rewrite (S2 P). split; [congruence|intros X; now destruct P].
Qed.
Lemma turning_rs g p N (Hg : 0 < g) (Hp : 0 < p) (first last : bool) (HN : N mod (g * (p + 1)) = 0) b (Hb : blanks b) blk :
  (forall q, blk q = Block ((if last then 2 + p else 3 + p) * N) (apply_writes b (rs_writes N (g * (p + 1)) p first last q))) -> turning N blk.
Proof.
  intros Hblk. apply (turning_peers N g p); auto. intros t q Ht Hq D.
  destruct (div_mod_dec g (g * (p + 1)) t q) as [P|P].
  - destruct P as (P1 & P2). rewrite (rs_sent g p N Hg Hp first last HN b Hb blk Hblk) by auto.
    split; [auto|intros _; now apply seq_full].
  - rewrite (rs_sent_none g p N Hg Hp first last HN b Hb blk Hblk) by auto. split; [congruence|tauto].
Qed.
Lemma turning_mid g p M N (Hg : 0 < g) (Hp : 0 < p) (HM : 0 < M) (first : bool) (HGM : M mod (g * (p + 1)) = 0) (HMN : N mod M = 0) b (Hb : blanks b) blk :
  (forall q, blk q = Block ((if first then p + 1 else p + 2) * N) (apply_writes b (mid_writes N M g p first q))) -> turning N blk.
Proof.
  intros Hblk. assert (HN := mid_HN g p M N Hg Hp HM first HGM HMN b). apply (turning_peers N g p); auto. intros t q Ht Hq D.
  destruct (div_mod_dec g (g * (p + 1)) t q) as [P|P].
  - destruct P as (P1 & P2). rewrite (mid_sent g p M N Hg Hp HM first HGM HMN b Hb blk Hblk) by auto.
    split; [auto|intros _; now apply seq_full].
  - rewrite (mid_sent_none g p M N Hg Hp HM first HGM HMN b Hb blk Hblk) by auto. split; [congruence|tauto].
Qed.
Lemma turning_user N NL b ws blk : blanks b -> (forall q, blk q = Block NL (apply_writes b (ws q))) ->
  (forall p n f, In (n, f) (ws p) -> match f with Send v | Recv v => Forall (fun e => fst e = (-1)%Z) v | _ => False end) -> turning N blk.
Proof.
  intros Hb Hblk H. apply turning_quiet. intros p n e _ _. rewrite Hblk. cbn [lines]. intros He.
  destruct (entries_of_writes b (ws p) n) as (I1 & _). destruct (Hb n) as (f0 & E0).
  destruct (I1 e He) as [X|(v & Hv & Hev)]; [rewrite E0 in X; destruct X|].
  specialize (H p n _ Hv). cbn in H. rewrite Forall_forall in H. now apply H.
Qed.
Lemma turning_first lb N : turning N (fun _ => rs_first lb).
Proof.
  apply (turning_user N (2 * lb) (fun x => blank (x mod lb)) (fun _ => map (fun line => (line, Recv [((-1)%Z, line)])) (seq 0 lb))).
  - apply blanks_mod.
  - reflexivity.
  - intros p n f H. apply in_map_iff in H. destruct H as (l & [= <- <-] & _). repeat constructor.
Qed.

(* ---------- recursive schedules ---------- *)
Lemma allgather_turning ports m : turning (product ports) (fun q => nth m (allgather_core ports q) empty_block).
Proof.
  set (N := product ports). assert (EN : ports_product ports = N) by apply ports_product_eq.
  assert (Np : 0 < N) by apply product_pos.
  destruct m as [|m].
  - apply (turning_user N N blank
      (fun q => flat_map (fun line => if line =? q then [(line, Recv [((-1)%Z, 0)])] else []) (seq 0 N))).
    + apply blanks_id.
    + intros q. cbn [nth allgather_core]. rewrite EN. reflexivity.
    + intros p n f H. apply in_flat_map in H. destruct H as (l & _ & H).
      destruct (l =? p); [|destruct H]. destruct H as [[= <- <-]|[]]. repeat constructor.
  - destruct (Nat.lt_trichotomy m (length ports)) as [H|[->|H]].
    + destruct (up_stage_at N N 0 blank ports 1 m) as (g & p & Hg & HN & E); [lia|assumption| |].
      { rewrite Nat.mul_1_l. apply Nat.mod_same. lia. }
      apply (turning_ag N N 0 g p blank); auto using blanks_id.
      intros q. rewrite <- E. unfold allgather_core. rewrite EN. cbn [nth].
      rewrite app_nth1 by (rewrite ag_stages_up, up_stages_length; assumption).
      rewrite ag_stages_up. reflexivity.
    + apply (turning_user N N blank (fun _ => map (fun line => (line, Send [((-1)%Z, line)])) (seq 0 N))).
      * apply blanks_id.
      * intros q. unfold allgather_core. rewrite EN. cbn [nth].
        rewrite app_nth2; rewrite ag_stages_up, up_stages_length; [|lia]. rewrite Nat.sub_diag. reflexivity.
      * intros p n f H. apply in_map_iff in H. destruct H as (l & [= <- <-] & _). repeat constructor.
    + apply (turning_ext N (fun _ => empty_block)); [|apply turning_empty].
      intros q. symmetry. apply nth_overflow. rewrite allgather_length. lia.
Qed.

Lemma reduce_scatter_turning ports m : nonzero ports -> turning (product ports) (fun q => nth m (reduce_scatter_core ports q) empty_block).
Proof.
  intros Hz. set (N := product ports). assert (EN : ports_product ports = N) by apply ports_product_eq.
  assert (Np : 0 < N) by apply product_pos.
  destruct m as [|m].
  - apply (turning_ext N (fun _ => rs_first N)); [|apply turning_first].
    intros q. cbn [nth reduce_scatter_core]. rewrite EN. reflexivity.
  - destruct (Nat.lt_trichotomy m (length ports)) as [H|[->|H]].
    + destruct (rs_stage_at N ports 1 true m) as (g & p & f & l & Hg & Hp & HN & E); auto.
      { rewrite Nat.mul_1_l. apply Nat.mod_same. lia. }
      apply (turning_rs g p N Hg Hp f l HN (fun x => blank (x mod N))); auto using blanks_mod.
      intros q. assert (E' := E q). rewrite Nat.mul_1_l in E'. unfold reduce_scatter_core. rewrite EN. cbn [nth].
      rewrite app_nth1 by (rewrite rs_stages_length; assumption). exact E'.
    + apply (turning_user N (2 * N) (fun x => blank (x mod N))
        (fun q => flat_map (fun line => if line - (2 * N) / 2 =? q
                           then [(line, Send [((-1)%Z, line - N)])] else []) (seq N N))).
      * apply blanks_mod.
      * intros q. unfold reduce_scatter_core. rewrite EN. cbn [nth].
        rewrite app_nth2; rewrite rs_stages_length; [|lia]. rewrite Nat.sub_diag. reflexivity.
      * intros p n f Hf. apply in_flat_map in Hf. destruct Hf as (l & _ & Hf).
        destruct (_ =? p); [|destruct Hf]. destruct Hf as [[= <- <-]|[]]. repeat constructor.
    + apply (turning_ext N (fun _ => empty_block)); [|apply turning_empty].
      intros q. symmetry. apply nth_overflow. rewrite reduce_scatter_length. lia.
Qed.

Lemma allreduce_turning down mid up m : balanced down mid up ->
  turning (product (mid ++ up)) (fun q => nth m (allreduce_core (down ++ mid ++ up) q) empty_block).
Proof.
  intros (Hd & Hm & Hu & Hi & Hne).
  set (N := product (mid ++ up)).
  assert (EN : N = product mid * product up) by apply product_app.
  assert (AE := allreduce_core_eq down mid up Hd Hm Hu Hi). 
  set (M := product mid) in *. rewrite <- EN in AE.
  set (fm := match down with [] => true | _ => false end) in *.
  assert (Mp : 0 < M) by apply product_pos. assert (Np : 0 < N) by apply product_pos.
  assert (END : N = M * product down) by (rewrite EN; f_equal; exact Hi).
  assert (HMN : N mod M = 0) by (rewrite END, Nat.mul_comm; apply Nat.mod_mul; lia).
  assert (Zd : nonzero down) by (eapply Forall_impl; [|exact Hd]; cbn; lia).
  assert (Zm : nonzero mid) by (eapply Forall_impl; [|exact Hm]; cbn; lia).
  destruct m as [|m].
  { apply (turning_ext N (fun _ => rs_first N)); [|apply turning_first].
    intros q. rewrite AE. reflexivity. }
  assert (Nth : forall q, nth (S m) (allreduce_core (down ++ mid ++ up) q) empty_block =
    nth m (rs_stages N N true down q ++ mid_stages N M 1 fm mid q ++
           up_stages N (2 * N) (fun y => blank (y mod N)) M up q ++ [ar_last N]) empty_block).
  { intros q. rewrite AE. reflexivity. }
  destruct (le_lt_dec (length down) m) as [H1|H1].
  2:{ destruct (rs_stage_at N down M true m) as (g & p & f & l & Hg & Hp & HN & E); auto.
      { rewrite <- END. apply Nat.mod_same. lia. }
      apply (turning_rs g p N Hg Hp f l HN (fun x => blank (x mod N))); auto using blanks_mod.
      intros q. rewrite Nth, app_nth1 by (rewrite rs_stages_length; assumption).
      assert (E' := E q). rewrite <- END in E'. exact E'. }
  assert (Nth1 : forall q, nth (S m) (allreduce_core (down ++ mid ++ up) q) empty_block =
    nth (m - length down) (mid_stages N M 1 fm mid q ++
           up_stages N (2 * N) (fun y => blank (y mod N)) M up q ++ [ar_last N]) empty_block).
  { intros q. rewrite Nth, app_nth2; rewrite rs_stages_length; [reflexivity|assumption]. }
  set (m1 := m - length down) in *.
  destruct (le_lt_dec (length mid) m1) as [H2|H2].
  2:{ destruct (mid_stage_at N M mid 1 fm m1) as (g & p & f & Hg & Hp & HN & E); auto.
      { rewrite Nat.mul_1_l. apply Nat.mod_same. fold M; lia. }
      apply (turning_mid g p M N Hg Hp Mp f HN HMN (fun x => blank (x mod N))); auto using blanks_mod.
      intros q. rewrite Nth1, app_nth1 by (rewrite mid_stages_length; assumption). apply E. }
  assert (Nth2 : forall q, nth (S m) (allreduce_core (down ++ mid ++ up) q) empty_block =
    nth (m1 - length mid) (up_stages N (2 * N) (fun y => blank (y mod N)) M up q ++ [ar_last N]) empty_block).
  { intros q. rewrite Nth1, app_nth2; rewrite mid_stages_length; [reflexivity|assumption]. }
  set (m2 := m1 - length mid) in *.
  destruct (Nat.lt_trichotomy m2 (length up)) as [H|[H|H]].
  - destruct (up_stage_at N (2 * N) N (fun y => blank (y mod N)) up M m2) as (g & p & Hg & HN & E); auto.
    { rewrite <- EN. apply Nat.mod_same. lia. }
    apply (turning_ag N (2 * N) N g p (fun y => blank (y mod N))); auto using blanks_mod; [lia|].
    intros q. rewrite Nth2, app_nth1 by (rewrite up_stages_length; assumption). apply E.
  - apply (turning_user N (2 * N) (fun x => blank (x mod N))
      (fun _ => map (fun line => (line, Send [((-1)%Z, line mod N)])) (seq N N))).
    + apply blanks_mod.
    + intros q. rewrite Nth2, app_nth2; rewrite up_stages_length; [|lia].
      rewrite H, Nat.sub_diag. reflexivity.
    + intros p n f Hf. apply in_map_iff in Hf. destruct Hf as (l & [= <- <-] & _). repeat constructor.
  - apply (turning_ext N (fun _ => empty_block)); [|apply turning_empty].
    intros q. symmetry. rewrite Nth2. apply nth_overflow. rewrite app_length, up_stages_length. cbn. lia.
Qed.

(* ---------- cyclic schedules ---------- *)
Lemma cyclic_turning n ports m : minimal n ports -> turning n (fun q => nth m (cyclic_allgather n ports q) empty_block).
Proof.
  intros Hm. apply minimal_reaches in Hm.
  destruct m as [|m].
  { apply turning_quiet. intros p k e _ _. rewrite cyclic_eq by assumption. intros []. }
  destruct (Nat.lt_trichotomy m (length ports)) as [H|[->|H]].
  - assert (A : forall ports g m, 0 < g -> reaches n g ports -> m < length ports ->
      exists g' p NL, 0 < g' /\ 0 < p /\ g' * p < NL /\ NL <= g' * (p + 1) /\ NL <= n /\
        forall q, nth m (fst (cy_stages n g g ports q)) empty_block = Block NL (cy_line n NL g' g' p q)).
    { clear. induction ports as [|p r IH]; intros g m Hg H Hm; [cbn in Hm; lia|].
      cbn [reaches] in H. destruct H as (Hp & Hl & H).
      destruct (cy_lines_bounds n g p Hg Hp Hl) as (B1 & B2 & B3).
      destruct m as [|m].
      - exists g, p, (cy_lines n g p). repeat (split; [assumption|]). intros q. cbn [cy_stages].
        destruct (cy_stages _ _ _ _ _). reflexivity.
      - destruct (IH (cy_lines n g p) m ltac:(lia) H ltac:(cbn in Hm; lia)) as (g' & p' & NL & C1 & C2 & C3 & C4 & C5 & C6).
        exists g', p', NL. repeat (split; [assumption|]). intros q. rewrite <- C6. cbn [cy_stages].
        rewrite cy_stages_next by assumption. destruct (cy_stages _ _ _ _ _). reflexivity. }
    destruct (A ports 1 m ltac:(lia) Hm H) as (g & p & NL & C1 & C2 & C3 & C4 & C5 & C6).
    set (blk := fun q => nth (S m) (cyclic_allgather n ports q) empty_block).
    assert (Hblk : forall q, blk q = Block NL (cy_line n NL g g p q)).
    { intros q. rewrite <- C6. unfold blk. rewrite cyclic_eq by assumption. cbn [nth].
      rewrite app_nth1 by (rewrite cy_stages_length; assumption). reflexivity. }
    assert (DL : forall i, i < p -> 0 < (i + 1) * g < n).
    { intros i Hi. split; [apply Nat.mul_pos_pos; lia|]. apply Nat.le_lt_trans with (p * g); [apply Nat.mul_le_mono_r; lia|lia]. }
    apply (turning_dist n blk (fun s => existsb (fun i => s =? (i + 1) * g) (seq 0 p))); [lia|].
    intros t q Ht Hq D. rewrite existsb_exists. destruct (dist_dec n g p q t) as [(i & Hi & E)|Z].
    + rewrite (cy_sent n g p NL C1 C2 C3 C4 C5 blk Hblk t q i) by auto.
      split; [intros _|intros _; apply seq_full].
      * exists i. split; [apply in_seq; lia|]. apply Nat.eqb_eq. specialize (DL i Hi). apply (shift_inj n q); [| |].
        -- apply Nat.mod_upper_bound. lia.
        -- lia.
        -- rewrite Nat.add_mod_idemp_r by lia. replace (q + (t + n - q)) with (t + 1 * n) by lia. rewrite Nat.mod_add, E by lia. apply Nat.mod_small. lia.
      * pose proof (cy_recv n g p NL C1 C2 C3 C4 C5 blk Hblk q t i Hq Hi E).
        unfold part. destruct (_ =? _); lia.
    + rewrite (cy_sent_none n g p NL C1 C2 C3 C4 C5 blk Hblk t q) by auto. split; [congruence|].
      intros (i & I & E). apply in_seq in I. apply Nat.eqb_eq in E. exfalso. apply (Z i); [lia|]. rewrite <- E.
      rewrite Nat.add_mod_idemp_r by lia. replace (q + (t + n - q)) with (t + 1 * n) by lia. rewrite Nat.mod_add by lia. apply Nat.mod_small. lia.
  - apply turning_quiet. intros p k e _ _. rewrite cyclic_eq by assumption. cbn [nth].
    rewrite app_nth2; rewrite cy_stages_length; [|lia]. rewrite Nat.sub_diag. cbn. intros [<-|[]]. reflexivity.
  - apply (turning_ext n (fun _ => empty_block)); [|apply turning_empty].
    intros q. symmetry. apply nth_overflow. rewrite cyclic_length. lia.
Qed.

(* shifted entries *)
Lemma turning_shift N NL P blk d (pick : nat -> nat -> bool) : 0 < N ->
  (forall i, i < P -> 0 < d i < N) -> (forall q, q < N -> num_lines (blk q) = NL) ->
  (forall q n, q < N -> n < NL ->
     map fst (sendto (lines (blk q) n)) = map (fun i => Z.of_nat ((q + d i) mod N)) (filter (fun i => pick i n) (seq 0 P))) ->
  turning N blk.
Proof.
  intros HN Dlt Hlen Hsend.
  apply (turning_dist N blk (fun s => existsb (fun n => existsb (fun i => pick i n && (s + d i =? N)) (seq 0 P)) (seq 0 NL))); [assumption|].
  intros p q Hp Hq D. rewrite (sends_entry [] 1 Nat.lt_0_1), existsb_exists, (Hlen p Hp).
  assert (Dist : forall i, i < P -> ((p + d i) mod N = q <-> (p + N - q) mod N + d i = N)).
  { intros i Hi. specialize (Dlt i Hi). destruct (Nat.lt_ge_cases p q) as [L|L].
    - rewrite (Nat.mod_small (p + N - q)) by lia. destruct (Nat.lt_ge_cases (p + d i) N) as [L'|L'].
      + rewrite Nat.mod_small by lia. lia.
      + replace (p + d i) with (p + d i - N + 1 * N) by lia. rewrite Nat.mod_add, Nat.mod_small by lia. lia.
    - replace (p + N - q) with (p - q + 1 * N) by lia. rewrite Nat.mod_add, (Nat.mod_small (p - q)) by lia.
      destruct (Nat.lt_ge_cases (p + d i) N) as [L'|L'].
      + rewrite Nat.mod_small by lia. lia.
      + replace (p + d i) with (p + d i - N + 1 * N) by lia. rewrite Nat.mod_add, Nat.mod_small by lia. lia. }
  split.
  - intros (n & e & Hn & I & E). exists n. split; [apply in_seq; lia|].
    apply (in_map fst) in I. rewrite (Hsend p n Hp Hn), E in I. apply in_map_iff in I. destruct I as (i & X & I).
    apply filter_In in I. destruct I as [I Pi]. apply in_seq in I. apply existsb_exists. exists i. split; [apply in_seq; lia|].
    rewrite Pi. apply Nat.eqb_eq. apply Dist; [lia|]. unfold zz in X. lia.
  - intros (n & I & X). apply in_seq in I. apply existsb_exists in X. destruct X as (i & J & X). apply andb_true_iff in X. destruct X as [Pi X].
    apply in_seq in J. apply Nat.eqb_eq, Dist in X; [|lia].
    assert (K : In (Z.of_nat q) (map fst (sendto (lines (blk p) n)))).
    { rewrite Hsend by lia. apply in_map_iff. exists i. split; [now rewrite X|]. apply filter_In. split; [apply in_seq; lia|assumption]. }
    apply in_map_iff in K. destruct K as (e & E & K). exists n, e. split; [lia|]. split; [exact K|exact E].
Qed.

Lemma down_turning N ports : forall s prev, 0 < s <= N -> by_row N s prev -> Forall (rotating N (fun x => x)) (down_fam N s s ports prev).
Proof.
  induction ports as [|p r IH]; intros s prev Hs H; [constructor|]. cbn [down_fam].
  destruct (shrink_bounds s p (proj1 Hs)) as [Hj _].
  assert (C := send_channels s (shrink s p) (proj1 Hj) (proj1 Hs)).
  constructor; [|constructor].
  - apply (turning_shift N (s + (s - shrink s p)) ((s - 1) / shrink s p) _ (sd (shrink s p)) (spick (shrink s p) s)); [lia| | |].
    + exact (sl1 N s p (proj1 Hs) (proj2 Hs) prev H _ _ eq_refl Hj C).
    + exact (sl3 N s p prev _ eq_refl).
    + exact (sl4 N s p (proj1 Hs) (proj2 Hs) prev H _ _ eq_refl Hj C).
  - apply turning_quiet. intros q n e _ _ [].
  - apply IH; [lia|]. intros q n Hq Hn. cbn [cr_add lines frac]. apply (send_row N s p prev Hs H q n); auto. lia.
Qed.
Lemma family_turning N b0 bs alg (Halg : forall q, alg q = at_node q (b0 :: bs)) m : turning N b0 -> Forall (rotating N (fun x => x)) bs ->
  turning N (fun q => nth m (alg q) empty_block).
Proof.
  intros H0 H. apply (turning_ext N (nth m (b0 :: bs) (fun _ => empty_block))); [intros q; now rewrite Halg, nth_at_node|].
  destruct (nth_in_or_default m (b0 :: bs) (fun _ => empty_block)) as [I|E]; [|rewrite E].
  - destruct I as [<-|I]; auto. rewrite Forall_forall in H. auto.
  - apply turning_empty.
Qed.
Lemma scatter_turning N down m : 0 < N -> turning N (fun q => nth m (cyclic_reduce N down [] q) empty_block).
Proof.
  intros HN. eapply family_turning; [apply scatter_family| |].
  - apply turning_quiet. intros p n e _ _ [].
  - apply Forall_app. split; [apply down_turning; [lia|apply first_row]|]. constructor; [|constructor].
    apply turning_quiet. intros q n e _ _ I. cbn [cr_last lines sendto] in I. destruct (existsb _ _); [destruct I|destruct I as [<-|[]]]. reflexivity.
Qed.

Lemma up_turning N s (Hs : 0 < s) u (U0 : u 0 = true) ports : forall g prev, 0 < N -> 0 < g -> fits N g ports -> by_cls N s (s * g) prev -> closed u (up_fam N s g ports prev) ->
  Forall (rotating N (fun x => x)) (kept_fam u (up_fam N s g ports prev)).
Proof.
  induction ports as [|p r IH]; intros g prev HN Hg F H K; [constructor|].
  destruct (cap_ok N g p r F Hg) as (A & B & C & D & E). destruct (closed_step N s Hs u g p r prev HN Hg F H K) as [U1 U2].
  cbn [up_fam kept_fam map]. constructor; [|constructor].
  - apply (turning_shift N (cr_place u (s * cap N g p)) p _ (ud N g) (upick u (s * g) (s * cap N g p))); [assumption| | |].
    + exact (kl1 N s g p (cap N g p) _ _ Hs Hg A B C eq_refl eq_refl u U1 U2).
    + exact (kl3 N g p _ _ prev u).
    + exact (kl4 N s g p (cap N g p) _ _ Hs Hg A B C eq_refl eq_refl prev u U1 U2).
  - apply turning_quiet. intros q n e _ _ I. cbn [cr_keep lines sendto cr_collect filter map] in I. destruct I.
  - destruct r as [|p' r]; [constructor|]. destruct F as (_ & _ & _ & F). apply IH; auto.
    + apply Nat.mul_pos_pos; lia.
    + rewrite <- D by congruence. exact (collect_frac N s g p (cap N g p) _ _ Hs Hg A B C eq_refl eq_refl prev H).
    + exact (closed_rest N s u g p (p' :: r) prev K).
Qed.
Lemma alike_turning N b1 b2 : (forall q, q < N -> alike (b1 q) (b2 q)) -> turning N b1 -> turning N b2.
Proof.
  intros E. apply rotating_ext; [reflexivity|]. intros p q Hp Hq. unfold sent_lines.
  destruct (E p Hp) as [A B]. rewrite A. rewrite (flat_map_ext _ (fun n => map (fun _ => n) (filter (is_node q) (sendto (lines (b2 p) n))))); [reflexivity|].
  intros n. now rewrite B.
Qed.
Lemma whole_turning N down up m : 0 < N -> up <> [] -> minimal N up -> turning N (fun q => nth m (cyclic_reduce N down up q) empty_block).
Proof.
  intros HN Ne M. eapply family_turning; [apply whole_family; assumption| |].
  - apply turning_quiet. intros p n e _ _ [].
  - apply Forall_app. split; [apply down_turning; [lia|apply first_row]|]. apply Forall_app. split.
    + assert (Q := up_turning N _ (proj1 (s_ok N down HN)) _ (used_0 N down up HN Ne M) up 1 _ HN ltac:(lia) (fit N up Ne M) (mid_cls N down HN) (used_closed N down up HN Ne M)).
      unfold kept_fam in Q. rewrite Forall_map in *. eapply Forall_impl; [|exact Q]. intros b. cbv beta. apply alike_turning.
      intros q Hq. destruct (keep_alike N down up HN Ne M false b q Hq) as [A B]. split; [auto|]. intros n. now rewrite B.
    + constructor; [|constructor]. apply turning_quiet. intros q n e Hq Hn I.
      destruct (keep_alike N down up HN Ne M true (fun q => cr_last (num_lines (last (up_fam N (fold_left shrink down N) 1 up (last (down_fam N N N down (cr_first N)) (cr_first N))) (last (down_fam N N N down (cr_first N)) (cr_first N)) q)) (last (up_fam N (fold_left shrink down N) 1 up (last (down_fam N N N down (cr_first N)) (cr_first N))) (last (down_fam N N N down (cr_first N)) (cr_first N)) q)) q Hq) as [A B].
      cbv beta in A, B. rewrite A in Hn. rewrite B in I. eapply last_sends; eauto. now rewrite <- (last_num N down up HN Ne M q).
Qed.

(* ---------- consequences ---------- *)
(* what a rank sends, the other one receives *)
Lemma ranks_matched N c blk cb : 0 < c -> well_matched N blk -> shared_out N c blk cb ->
  forall a b, a < N * c -> b < N * c -> a / c <> b / c ->
  map (fun n => frac (lines (cb a) n)) (sent_lines cb a b) = map (fun n => frac (lines (cb b) n)) (recv_lines cb b a).
Proof.
  intros Hc [W _] [S L] a b Ha Hb D.
  assert (Pa : a / c < N) by (apply Nat.div_lt_upper_bound; lia). assert (Pb : b / c < N) by (apply Nat.div_lt_upper_bound; lia).
  assert (Ra : a mod c < c) by (apply Nat.mod_upper_bound; lia). assert (Rb : b mod c < c) by (apply Nat.mod_upper_bound; lia).
  assert (Ea : a = a / c * c + a mod c) by (rewrite Nat.mul_comm; apply Nat.div_mod; lia).
  assert (Eb : b = b / c * c + b mod c) by (rewrite Nat.mul_comm; apply Nat.div_mod; lia).
  destruct (S (a / c) (b / c) Pa Pb) as (o & Ho & So). destruct (So (a mod c) (b mod c) Ra Rb) as [S1 R1]. rewrite <- Ea, <- Eb in S1, R1.
  rewrite S1, R1. destruct (_ && _); [|reflexivity]. destruct (W (a / c) (b / c) Pa Pb D) as [X _].
  destruct (L (a / c) (a mod c) Pa Ra) as [_ La]. destruct (L (b / c) (b mod c) Pb Rb) as [_ Lb]. rewrite <- Ea in La. rewrite <- Eb in Lb.
  rewrite (map_ext _ (fun n => frac (lines (blk (a / c)) n))) by (intros n; apply La). rewrite X.
  apply map_ext. intros n. symmetry. apply Lb.
Qed.

(* without a permutation *)
Lemma identity_perm N : Permutation (seq 0 N) (seq 0 N).
Proof. apply Permutation_refl. Qed.
Lemma cores_agree_id N c blk : 0 < c -> well_matched N blk -> turning N blk -> shared_out N c blk (core_block N (seq 0 N) c blk).
Proof.
  intros Hc W T. apply cores_agree; auto. revert T. apply rotating_ext; [|reflexivity]. intros q Hq. now rewrite seq_nth.
Qed.

(* with a permutation that is its own inverse *)
Section Moved.
  Context (perm : list nat) (N : nat) (Hp : Permutation perm (seq 0 N)) (blk : nat -> block) (W : well_matched N blk).
  Local Notation back s := (nth s (PermModel.back_perm perm) 0).
  Local Notation moved := (fun s => PermModel.permute_block perm (blk (back s))).
  Lemma moved_sent p q : p < N -> q < N -> (sent_lines blk (back p) (back q) <> [] <-> sent_lines moved p q <> []).
  Proof.
    intros Hp' Hq. destruct (PermProofs.back_right perm N Hp p Hp') as [Bp Ep]. destruct (PermProofs.back_right perm N Hp q Hq) as [Bq Eq].
    rewrite !(sends_entry [] 1 Nat.lt_0_1). cbn [PermModel.permute_block num_lines lines PermModel.permute_line sendto]. split.
    - intros (n & e & Hn & I & E). exists n, (PermModel.permute_node perm (fst e), snd e). split; [assumption|]. split.
      + apply (in_map (fun e : Z * nat => (PermModel.permute_node perm (fst e), snd e))). assumption.
      + cbn [fst]. rewrite E. unfold PermModel.permute_node, zz. destruct (Z.leb_spec 0 (Z.of_nat (back q))); [|lia]. now rewrite Nat2Z.id, Eq.
    - intros (n & e & Hn & I & E). apply in_map_iff in I. destruct I as (e' & <- & I). exists n, e'. split; [assumption|]. split; [assumption|].
      cbn [fst] in E. unfold PermModel.permute_node in E. destruct (Z.leb_spec 0 (fst e')) as [L|L]; [|unfold zz in E; lia].
      destruct W as [_ W2]. destruct (W2 (back p) n Bp Hn) as [F _]. rewrite Forall_forall in F.
      destruct (F e' (in_or_app _ _ _ (or_introl I))) as [[X|X] _]; [lia|].
      apply Nat2Z.inj in E. rewrite <- E, (PermProofs.back_left perm N Hp) by lia. unfold zz. lia.
  Qed.
  Lemma moved_agree c : 0 < c -> turning N blk -> (forall x, x < N -> nth (nth x perm 0) perm 0 = x) ->
    shared_out N c moved (core_block N perm c moved).
  Proof.
    intros Hc T Inv. apply cores_agree; auto; [now apply PermProofs.permuted_matched|].
    assert (B : forall x, x < N -> back x = nth x perm 0).
    { intros x Hx. destruct (PermProofs.back_right perm N Hp x Hx) as [Bx Ex]. apply (PermProofs.perm_inj perm N Hp); auto; [now apply PermProofs.perm_bound|]. now rewrite Ex, Inv. }
    destruct T as (w & g & S & Hw & Hg & HN & R). exists w, g, S. repeat (split; [assumption|]).
    intros p q Hp' Hq D. rewrite <- moved_sent, <- !B by auto.
    apply R; try (rewrite !B by auto; now apply (PermProofs.perm_bound perm N Hp)). rewrite !B by auto. intros E. apply D. now apply (PermProofs.perm_inj perm N Hp).
  Qed.
End Moved.
