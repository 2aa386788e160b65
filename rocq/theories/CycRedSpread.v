(* The blocks of the spreading part of the cyclic allreduce. *)
From Verif Require Import Base SchedModel SchedSpec SchedProofs MatchProofs CyclicProofs CycRedModel ShiftProofs CycRedClosure CycRedPlace.
Local Ltac Zify.zify_post_hook ::= idtac.

(* the distance of the fragment of a line from the node *)
Definition cls (N s n : nat) : nat := (n / s + n mod s) mod N.
Definition src (N s s0 n : nat) : option nat := find (fun j => cls N s j =? cls N s n) (rev (seq 0 (n / s0 * s0))).
Definition by_cls (N s s0 : nat) (prev : nat -> block) : Prop :=
  forall q n, q < N -> n < s0 -> frac (lines (prev q) n) = (q + cls N s n) mod N.

Lemma find_skip {A} (f : A -> bool) l1 l2 : (forall x, In x l1 -> f x = false) -> find f (l1 ++ l2) = find f l2.
Proof. induction l1 as [|x l IH]; intros H; [reflexivity|]. cbn. rewrite (H x (or_introl eq_refl)). apply IH. intros; apply H; now right. Qed.
Lemma find_cong {A} (f g : A -> bool) l : (forall x, In x l -> f x = g x) -> find f l = find g l.
Proof. induction l as [|x l IH]; intros H; [reflexivity|]. cbn. rewrite (H x (or_introl eq_refl)), IH; auto. intros; apply H; now right. Qed.
Lemma find_rev_seq f a : 
  match find f (rev (seq 0 a)) with
  | Some j => j < a /\ f j = true /\ forall m, j < m < a -> f m = false
  | None => forall m, m < a -> f m = false
  end.
Proof.
  induction a as [|a IH]; [cbn; lia|]. rewrite seq_S, rev_app_distr. cbn [rev app find plus]. destruct (f a) eqn:E.
  - split; [lia|]. split; auto. intros m Hm. lia.
  - destruct (find f (rev (seq 0 a))) as [j|].
    + destruct IH as (A & B & C). split; [lia|]. split; auto. intros m Hm. destruct (Nat.eq_dec m a) as [->|]; auto. apply C. lia.
    + intros m Hm. destruct (Nat.eq_dec m a) as [->|]; auto. apply IH. lia.
Qed.
Lemma shift_eq N q a b : 0 < N -> (q + a) mod N = (q + b) mod N -> a mod N = b mod N.
Proof.
  intros HN E. rewrite <- (Nat.mod_add a (q + 1) N), <- (Nat.mod_add b (q + 1) N) by lia.
  replace (a + (q + 1) * N) with (q + a + (q * N + N - q)) by nia. replace (b + (q + 1) * N) with (q + b + (q * N + N - q)) by nia.
  rewrite <- Nat.add_mod_idemp_l, E, Nat.add_mod_idemp_l by lia. reflexivity.
Qed.
Lemma cls_lt N s n : 0 < N -> cls N s n < N.
Proof. intros H. apply Nat.mod_upper_bound. lia. Qed.
Lemma same_cls N s q m n : 0 < N -> ((q + cls N s m) mod N =? (q + cls N s n) mod N) = (cls N s m =? cls N s n).
Proof.
  intros HN. apply eq_true_iff_eq. rewrite !Nat.eqb_eq. split; [|intros ->; reflexivity]. intros E. apply shift_eq in E; auto.
  now rewrite !Nat.mod_small in E by (now apply cls_lt).
Qed.

Definition ud (N g i : nat) : nat := N - (i + 1) * g.
Definition upick (u : nat -> bool) (s0 s1 i r : nat) : bool :=
  let n := nth r (filter u (seq 0 s1)) 0 in (n <? s0) && (n + (i + 1) * s0 <? s1) && u (n + (i + 1) * s0).
Definition ub (u : nat -> bool) (s0 i : nat) : nat := cr_place u ((i + 1) * s0).

Lemma filter_map {A B} (f : B -> bool) (h : A -> B) l : filter f (map h l) = map h (filter (fun a => f (h a)) l).
Proof. induction l as [|a l IH]; [reflexivity|]. cbn. destruct (f (h a)); cbn; now rewrite IH. Qed.
Lemma filter_filter {A} (f h : A -> bool) l : filter f (filter h l) = filter (fun a => h a && f a) l.
Proof. induction l as [|a l IH]; [reflexivity|]. cbn. destruct (h a); cbn; [destruct (f a)|]; now rewrite IH. Qed.
Lemma reduced_chain {V} (op : V -> V -> V) (blk : nat -> block) q mem n r :
  n < num_lines (blk q) -> reducefrom (lines (blk q) n) = [r] -> r < n ->
  reduced op blk q mem n = op (mem n) (reduced op blk q mem r).
Proof.
  intros Hn E Hr. unfold reduced. replace (num_lines (blk q)) with (n + (1 + (num_lines (blk q) - n - 1))) by lia.
  rewrite seq_app, seq_app, !fold_left_app. cbn [seq fold_left plus].
  rewrite (fold_reduce_other op blk q _ _ n) by (rewrite in_seq; lia).
  rewrite (fold_reduce_other op blk q _ _ r) by (rewrite in_seq; lia).
  unfold reduce_line at 1 3. rewrite E. cbn [fold_left]. rewrite upd_same, upd_other by lia.
  now rewrite (fold_reduce_other op blk q _ _ n) by (rewrite in_seq; lia).
Qed.

(* a stage with g nodes behind it and w then *)
Section Spread.
  Context (N s g p w s0 s1 : nat) (Hs : 0 < s) (Hg : 0 < g) (Hgw : g * p < w) (HwN : w <= N) (Hwg : w <= g * (p + 1)).
  Context (E0 : s0 = s * g) (E1 : s1 = s * w).
  Lemma s0_pos : 0 < s0.
  Proof. rewrite E0. now apply Nat.mul_pos_pos. Qed.
  Lemma s1_low : s0 * p < s1.
  Proof. rewrite E0, E1, <- Nat.mul_assoc. now apply Nat.mul_lt_mono_pos_l. Qed.
  Lemma s1_high : s1 <= s0 * (p + 1).
  Proof. rewrite E0, E1, <- Nat.mul_assoc. now apply Nat.mul_le_mono_l. Qed.
  Lemma N_pos : 0 < N.
  Proof. lia. Qed.

  (* line n of the new ones is line j, from distance (i + 1) g *)
  Lemma line_split n : s0 <= n < s1 -> exists i j, i < p /\ j < s0 /\ n = (i + 1) * s0 + j /\ n / s0 = i + 1 /\ (n - s0) / s0 = i /\ (n - s0) mod s0 = j /\
    (i + 1) * g < N /\ n / s = (i + 1) * g + j / s /\ n mod s = j mod s /\ j / s < g /\ n / s < w.
  Proof.
    intros Hn. pose proof s0_pos as P0. pose proof s1_high as P1.
    pose proof (Nat.div_mod (n - s0) s0 ltac:(lia)) as D. pose proof (Nat.mod_upper_bound (n - s0) s0 ltac:(lia)) as M.
    remember ((n - s0) / s0) as i eqn:Ei. remember ((n - s0) mod s0) as j eqn:Ej. exists i, j.
    assert (En : n = (i + 1) * s0 + j) by lia.
    assert (En' : n = s * ((i + 1) * g) + j) by (rewrite En, E0; lia).
    assert (Hip : i < p).
    { destruct (Nat.lt_ge_cases i p) as [|G]; auto. assert (p * s0 <= i * s0) by (apply Nat.mul_le_mono_r; auto). lia. }
    assert (Hjg : j / s < g) by (apply Nat.div_lt_upper_bound; lia).
    assert (Ed : n / s = (i + 1) * g + j / s).
    { rewrite En', (Nat.mul_comm s), Nat.add_comm, Nat.div_add by lia. apply Nat.add_comm. }
    assert (Em : n mod s = j mod s).
    { rewrite En', (Nat.mul_comm s), Nat.add_comm, Nat.mod_add by lia. reflexivity. }
    assert (Hi : (i + 1) * g <= g * p) by (rewrite Nat.mul_comm; apply Nat.mul_le_mono_l; lia).
    assert (Hw : n / s < w) by (apply Nat.div_lt_upper_bound; lia).
    repeat split; auto; try lia.
    - symmetry. apply (Nat.div_unique n s0 (i + 1) j); auto. rewrite En. lia.
  Qed.
  Lemma cls_new i j n : n / s = (i + 1) * g + j / s -> n mod s = j mod s -> cls N s n = (cls N s j + (i + 1) * g) mod N.
  Proof.
    intros A B. unfold cls. rewrite A, B. rewrite Nat.add_mod_idemp_l by lia. f_equal. lia.
  Qed.

  Lemma new_div i j : (j + (i + 1) * s0) / s = (i + 1) * g + j / s /\ (j + (i + 1) * s0) mod s = j mod s.
  Proof.
    replace ((i + 1) * s0) with ((i + 1) * g * s) by (rewrite E0; lia). rewrite Nat.div_add, Nat.mod_add by lia. split; [apply Nat.add_comm|reflexivity].
  Qed.

  Context (prev : nat -> block) (Hprev : by_cls N s s0 prev).
  Local Notation x := (fun q => cr_spread N s0 s1 g p q (prev q)).
  Local Notation y := (fun q => cr_collect (x q)).
  Lemma spread_lines q : num_lines (x q) = s1 /\ num_lines (y q) = s1.
  Proof. split; reflexivity. Qed.
  Lemma spread_frac : by_cls N s s1 x.
  Proof.
    intros q n Hq Hn. cbn [cr_spread lines]. destruct (Nat.ltb_spec n s0) as [L|L]; cbn [frac]; [now apply Hprev|].
    destruct (line_split n (conj L Hn)) as (i & j & Hi & Hj & En & _ & -> & -> & _ & A & B & _).
    rewrite Hprev by auto. rewrite (cls_new i j n A B). rewrite <- (Nat.add_assoc _ N), Nat.add_mod_idemp_l by lia.
    rewrite Nat.add_mod_idemp_r by lia. replace (q + cls N s j + (N + (i + 1) * g)) with (q + (cls N s j + (i + 1) * g) + 1 * N) by lia.
    apply Nat.mod_add. lia.
  Qed.
  Lemma collect_frac : by_cls N s s1 y.
  Proof. exact spread_frac. Qed.
  (* how many nodes a line is sent to *)
  Lemma send_count n : n < s0 -> exists K, K <= p /\ (forall i, i < p -> (i < K <-> n + (i + 1) * s0 < s1)) /\
    forall q, sendto (lines (x q) n) = map (fun i => (Z.rem (Z.of_nat N + Z.of_nat q - (Z.of_nat i + 1) * Z.of_nat g) (Z.of_nat N), n + s0 * (i + 1))) (seq 0 K).
  Proof.
    intros Hn. pose proof s1_low as L1. 
    exists (if (s1 - s0 * p <=? n) && (n <? s1 - s0) then p - 1 else if s1 - s0 <=? n then 0 else p).
    assert (M : forall i, i < p -> (i + 1) * s0 <= s0 * p) by (intros i Hi; rewrite Nat.mul_comm; apply Nat.mul_le_mono_l; lia).
    destruct (Nat.leb_spec (s1 - s0 * p) n) as [A|A]; destruct (Nat.ltb_spec n (s1 - s0)) as [B|B]; cbn [andb].
    - split; [lia|]. split.
      + intros i Hi. split; intros H.
        * assert ((i + 2) * s0 <= p * s0) by (apply Nat.mul_le_mono_r; lia). lia.
        * destruct (Nat.eq_dec i (p - 1)) as [->|]; [|lia]. replace (p - 1 + 1) with p in H by lia. lia.
      + intros q. cbn [cr_spread lines]. replace (n <? s0) with true by (symmetry; now apply Nat.ltb_lt). cbn [sendto].
        now replace (s1 - s0 * p <=? n) with true by (symmetry; now apply Nat.leb_le); replace (n <? s1 - s0) with true by (symmetry; now apply Nat.ltb_lt).
    - replace (s1 - s0 <=? n) with true by (symmetry; now apply Nat.leb_le). split; [lia|]. split.
      + intros i Hi. split; [lia|]. intros H. assert (1 * s0 <= (i + 1) * s0) by (apply Nat.mul_le_mono_r; lia). lia.
      + intros q. cbn [cr_spread lines]. replace (n <? s0) with true by (symmetry; now apply Nat.ltb_lt). cbn [sendto].
        now replace (n <? s1 - s0) with false by (symmetry; now apply Nat.ltb_ge); rewrite andb_false_r; replace (s1 - s0 <=? n) with true by (symmetry; now apply Nat.leb_le).
    - replace (s1 - s0 <=? n) with false by (symmetry; now apply Nat.leb_gt). split; [lia|]. split.
      + intros i Hi. specialize (M i Hi). lia.
      + intros q. cbn [cr_spread lines]. replace (n <? s0) with true by (symmetry; now apply Nat.ltb_lt). cbn [sendto].
        now replace (s1 - s0 * p <=? n) with false by (symmetry; now apply Nat.leb_gt); cbn [andb]; replace (s1 - s0 <=? n) with false by (symmetry; now apply Nat.leb_gt).
    - replace (s1 - s0 <=? n) with true by (symmetry; now apply Nat.leb_le). split; [lia|]. split.
      + intros i Hi. split; [lia|]. intros H. assert (1 * s0 <= (i + 1) * s0) by (apply Nat.mul_le_mono_r; lia). lia.
      + intros q. cbn [cr_spread lines]. replace (n <? s0) with true by (symmetry; now apply Nat.ltb_lt). cbn [sendto].
        now replace (n <? s1 - s0) with false by (symmetry; now apply Nat.ltb_ge); rewrite andb_false_r; replace (s1 - s0 <=? n) with true by (symmetry; now apply Nat.leb_le).
  Qed.
  Lemma send_none q n : s0 <= n -> sendto (lines (x q) n) = [].
  Proof. intros H. cbn [cr_spread lines]. now replace (n <? s0) with false by (symmetry; now apply Nat.ltb_ge). Qed.
  Lemma recv_none q n : n < s0 -> recvfrom (lines (x q) n) = [].
  Proof. intros H. cbn [cr_spread lines]. now replace (n <? s0) with true by (symmetry; now apply Nat.ltb_lt). Qed.
  Lemma recv_one q n i j : s0 <= n -> (n - s0) / s0 = i -> (n - s0) mod s0 = j ->
    recvfrom (lines (x q) n) = [(Z.of_nat ((N + q + (i + 1) * g) mod N), j)].
  Proof. intros H <- <-. cbn [cr_spread lines]. now replace (n <? s0) with false by (symmetry; now apply Nat.ltb_ge). Qed.
  Lemma spread_quiet q n : reducefrom (lines (x q) n) = [] /\ copyreducefrom (lines (x q) n) = [].
  Proof. cbn [cr_spread lines]. destruct (n <? s0); auto. Qed.

  Lemma collect_from q n : q < N -> n < s1 ->
    reducefrom (lines (y q) n) = if n <? s0 then [] else match src N s s0 n with Some j => [j] | None => [] end.
  Proof.
    intros Hq Hn. pose proof s0_pos as P0. cbn [cr_collect lines reducefrom]. unfold from_of. destruct (Nat.ltb_spec n s0) as [L|L].
    - rewrite (recv_none q n L). reflexivity.
    - destruct (line_split n (conj L Hn)) as (i & j & Hi & Hj & En & Ed & A & B & HiN & _).
      rewrite (recv_one q n i j L A B). cbn [fst]. 
      match goal with |- match find ?f _ with _ => _ end = _ => set (F := f) end.
      assert (E : find F (rev (seq 0 n)) = src N s s0 n); [|now rewrite E].
      unfold src. rewrite Ed. replace n with ((i + 1) * s0 + j) at 1 by lia. rewrite seq_app, rev_app_distr, find_skip.
      + apply find_cong. intros m I. apply in_rev, in_seq in I. unfold F. rewrite !spread_frac by (auto; lia). rewrite same_cls by apply N_pos.
        destruct (Nat.ltb_spec m s0) as [Lm|Lm]; [rewrite (recv_none q m Lm); apply andb_true_r|].
        assert (Hm : m < s1) by (clear - I En Hn; lia).
        destruct (line_split m (conj Lm Hm)) as (i' & j' & Hi' & Hj' & En' & Ed' & A' & B' & HiN' & _).
        rewrite (recv_one q m i' j' Lm A' B'). cbn [fst].
        assert (D : (Z.of_nat ((N + q + (i + 1) * g) mod N) =? Z.of_nat ((N + q + (i' + 1) * g) mod N))%Z = false).
        { apply Z.eqb_neq. intros X. apply Nat2Z.inj in X. apply shift_eq in X; [|lia]. rewrite !Nat.mod_small in X by auto.
          apply Nat.mul_cancel_r in X; [|lia]. assert (i' = i) by lia. subst i'. lia. }
        rewrite D. apply andb_true_r.
      + intros m I. apply in_rev, in_seq in I. unfold F.
        assert (Lm : s0 <= m) by lia.
        assert (Am : (m - s0) / s0 = i) by (symmetry; apply (Nat.div_unique (m - s0) s0 i (m - (i + 1) * s0)); lia).
        rewrite (recv_one q m i _ Lm Am eq_refl). cbn [fst]. rewrite Z.eqb_refl. apply andb_false_r.
  Qed.
  Lemma src_some n j : src N s s0 n = Some j -> j < n / s0 * s0 /\ cls N s j = cls N s n /\ forall m, j < m < n / s0 * s0 -> cls N s m <> cls N s n.
  Proof.
    unfold src. intros E. assert (F := find_rev_seq (fun j => cls N s j =? cls N s n) (n / s0 * s0)). rewrite E in F.
    destruct F as (A & B & C). split; auto. split; [now apply Nat.eqb_eq|]. intros m Hm. apply Nat.eqb_neq. auto.
  Qed.
  Lemma src_none n : src N s s0 n = None -> forall m, m < n / s0 * s0 -> cls N s m <> cls N s n.
  Proof.
    unfold src. intros E. assert (F := find_rev_seq (fun j => cls N s j =? cls N s n) (n / s0 * s0)). rewrite E in F.
    intros m Hm. apply Nat.eqb_neq. auto.
  Qed.

  (* the marks *)
  Lemma spread_marks q n : n < s1 -> marks (x q) n = if n <? s0 then [] else [(n - s0) mod s0].
  Proof.
    intros Hn. unfold marks. rewrite (proj1 (spread_quiet q n)). destruct (Nat.ltb_spec n s0) as [L|L].
    - now rewrite recv_none.
    - now rewrite (recv_one q n _ _ L eq_refl eq_refl).
  Qed.
  Lemma collect_marks q n : q < N -> n < s1 -> marks (y q) n = if n <? s0 then [] else match src N s s0 n with Some j => [j] | None => [] end.
  Proof.
    intros Hq Hn. unfold marks. rewrite collect_from by auto. cbn [cr_collect lines recvfrom map firstn]. rewrite app_nil_r.
    destruct (n <? s0); [reflexivity|]. now destruct (src N s s0 n).
  Qed.
  Lemma spread_like q : q < N -> like (x q) (x 0) /\ like (y q) (y 0).
  Proof.
    intros Hq. split; split; try reflexivity.
    - intros n Hn. now rewrite !spread_marks.
    - intros n Hn. rewrite !collect_marks; auto. lia.
  Qed.
  Lemma marks_lower q n m : q < N -> n < s1 -> In m (marks (x q) n) \/ In m (marks (y q) n) -> m < n.
  Proof.
    intros Hq Hn. pose proof s0_pos as P0. cbv beta. rewrite spread_marks, collect_marks by auto. destruct (Nat.ltb_spec n s0) as [L|L]; [intros [[]|[]]|].
    intros [[<-|[]]|H].
    - pose proof (Nat.mod_upper_bound (n - s0) s0 ltac:(lia)). lia.
    - destruct (src N s s0 n) as [j|] eqn:E; [|destruct H]. destruct H as [<-|[]]. apply src_some in E.
      pose proof (Nat.mul_div_le n s0 ltac:(lia)). lia.
  Qed.

  (* ---------- the lines that are left ---------- *)
  Context (u : nat -> bool) (U0 : u 0 = true).
  Context (U1 : forall n, s0 <= n < s1 -> u n = true -> u ((n - s0) mod s0) = true).
  Context (U2 : forall n j, s0 <= n < s1 -> u n = true -> src N s s0 n = Some j -> u j = true).
  Local Notation place := (cr_place u).
  Local Notation kx := (fun q => cr_keep u false (x q)).
  Local Notation ky := (fun q => cr_keep u false (y q)).
  Local Notation NL := (place s1).
  Local Notation ln r := (nth r (filter u (seq 0 s1)) 0).
  Local Notation d := (ud N g).
  Local Notation pick := (upick u s0 s1).
  Local Notation b := (ub u s0).
  Local Notation a i := ((i + 1) * s0).
  Local Notation wd i := (Nat.min s0 (s1 - (i + 1) * s0)).
  Local Notation A i := (filter (fun n => u (n + (i + 1) * s0)) (seq 0 (Nat.min s0 (s1 - (i + 1) * s0)))).

  Lemma in_s1 i : i < p -> a i < s1 /\ a i + wd i <= s1.
  Proof. intros Hi. pose proof s1_low. assert ((i + 1) * s0 <= s0 * p) by (rewrite Nat.mul_comm; apply Nat.mul_le_mono_l; lia). lia. Qed.
  Lemma group i n : i < p -> (a i <= n < a i + wd i <-> s0 <= n < s1 /\ (n - s0) / s0 = i).
  Proof.
    intros Hi. pose proof s0_pos as P0. destruct (in_s1 i Hi) as [B C]. split.
    - intros Hn. split; [lia|]. symmetry. apply (Nat.div_unique (n - s0) s0 i (n - a i)); lia.
    - intros [Hn E]. destruct (line_split n Hn) as (i' & j & _ & Hj & En & _ & E' & _). assert (i' = i) by congruence. subst i'. lia.
  Qed.
  Lemma in_A i n : i < p -> In n (A i) -> n < s0 /\ n + a i < s1 /\ u (n + a i) = true /\ u n = true.
  Proof.
    intros Hi I. pose proof s0_pos as P0. destruct (in_s1 i Hi) as [B C]. apply filter_In in I. destruct I as [I U]. apply in_seq in I. repeat split; auto; try lia.
    replace n with ((n + a i - s0) mod s0); [apply U1; auto; lia|].
    replace (n + a i - s0) with (n + i * s0) by lia. rewrite Nat.mod_add by lia. apply Nat.mod_small. lia.
  Qed.
  Lemma out_A i : i < p -> filter (pick i) (seq 0 NL) = map place (A i).
  Proof.
    intros Hi. rewrite (filter_place u s1 (pick i) (fun n => (n <? s0) && (n + a i <? s1) && u (n + a i))).
    - f_equal. rewrite filter_filter. destruct (in_s1 i Hi) as [B C].
      replace (seq 0 s1) with (seq 0 (wd i) ++ seq (wd i) (s1 - wd i)) by (rewrite <- seq_app; f_equal; lia).
      rewrite filter_app. rewrite (filter_none _ (seq (wd i) _)).
      + rewrite app_nil_r. apply filter_ext_in. intros n I. assert (I' := I). apply in_seq in I.
        replace (n <? s0) with true by (symmetry; apply Nat.ltb_lt; lia). replace (n + a i <? s1) with true by (symmetry; apply Nat.ltb_lt; lia).
        destruct (u (n + a i)) eqn:E; [|now rewrite andb_false_r].
        destruct (in_A i n Hi) as (_ & _ & _ & ->); [now apply filter_In|reflexivity].
      + intros n I. apply in_seq in I. destruct (Nat.ltb_spec n s0); [|now rewrite andb_false_r].
        destruct (Nat.ltb_spec (n + a i) s1); [lia|]. now rewrite andb_false_r.
    - intros n Hn Hu. unfold upick. rewrite at_place by auto. reflexivity.
  Qed.
  Lemma range_A i : filter u (seq (a i) (wd i)) = map (fun n => n + a i) (A i).
  Proof. apply filter_shift. Qed.
  Lemma out_c i : i < p -> length (filter (pick i) (seq 0 NL)) = length (A i).
  Proof. intros Hi. rewrite out_A by auto. apply map_length. Qed.
  Lemma out_end i : i < p -> b i + length (filter (pick i) (seq 0 NL)) = place (a i + wd i).
  Proof. intros Hi. rewrite out_c by auto. unfold ub. rewrite place_range, range_A, map_length. reflexivity. Qed.
  Lemma hits_group i n : i < p -> u n = true -> ((b i <=? place n) && (place n <? b i + length (filter (pick i) (seq 0 NL))) = true <-> a i <= n < a i + wd i).
  Proof.
    intros Hi Hu. rewrite out_end by auto. unfold ub. rewrite andb_true_iff, Nat.leb_le, Nat.ltb_lt. split.
    - intros [B C]. apply place_below in C; auto. split; auto. destruct (Nat.lt_ge_cases n (a i)) as [L|L]; auto.
      apply (place_lt u n) in L; auto. lia.
    - intros [B C]. split; [now apply place_le|now apply place_lt].
  Qed.
  Lemma at_line r : r < NL -> exists n, n < s1 /\ u n = true /\ r = place n /\ ln r = n.
  Proof. intros H. destruct (nth_us u s1 r H) as (B & C & E). eauto. Qed.
  Lemma keep_line last bk n : num_lines bk = s1 -> n < s1 -> u n = true -> lines (cr_keep u last bk) (place n) =
    Line (frac (lines bk n))
         (map (fun e => (fst e, if (0 <=? fst e)%Z then place (snd e) else snd e)) (if last then sendto (lines bk n) else filter (fun e => u (snd e)) (sendto (lines bk n))))
         (map (fun e => (fst e, place (snd e))) (recvfrom (lines bk n))) (map place (reducefrom (lines bk n))) (copyreducefrom (lines bk n)).
  Proof. intros E Hn Hu. unfold cr_keep. cbn [lines]. rewrite E, at_place by auto. reflexivity. Qed.

  Lemma kl1 : forall i, i < p -> 0 < d i < N.
  Proof.
    intros i Hi. unfold ud. assert ((i + 1) * g <= p * g) by (apply Nat.mul_le_mono_r; lia). 
    assert (1 * 1 <= (i + 1) * g) by (apply Nat.mul_le_mono; lia). lia.
  Qed.
  Lemma kl2 : forall i k, i < p -> k < p -> d i = d k -> i = k.
  Proof.
    intros i k Hi Hk E. pose proof (kl1 i Hi). pose proof (kl1 k Hk). unfold ud in *. assert (X : (i + 1) * g = (k + 1) * g) by lia.
    apply Nat.mul_cancel_r in X; lia.
  Qed.
  Lemma kl3 : forall q, q < N -> num_lines (kx q) = NL.
  Proof. reflexivity. Qed.
  Lemma kl4 : forall q r, q < N -> r < NL ->
    map fst (sendto (lines (kx q) r)) = map (fun i => Z.of_nat ((q + d i) mod N)) (filter (fun i => pick i r) (seq 0 p)).
  Proof.
    intros q r Hq Hr. destruct (at_line r Hr) as (n & Hn & Hu & Er & El).
    transitivity (map fst (filter (fun e : Z * nat => u (snd e)) (sendto (lines (x q) n)))).
    { rewrite Er. rewrite (keep_line false) by auto. cbn [sendto]. rewrite map_map. reflexivity. }
    assert (Ep : forall i, pick i r = (n <? s0) && (n + a i <? s1) && u (n + a i)) by (intros i; unfold upick; now rewrite El).
    rewrite (filter_ext _ _ Ep). destruct (Nat.ltb_spec n s0) as [L|L].
    - destruct (send_count n L) as (K & HK & HKi & E). rewrite E. rewrite filter_map, map_map. cbn [fst snd].
      replace (seq 0 p) with (seq 0 K ++ seq K (p - K)) by (rewrite <- seq_app; f_equal; lia). rewrite filter_app, map_app.
      rewrite (filter_none _ (seq K _)).
      + rewrite app_nil_r. 
        replace (filter (fun i => true && (n + a i <? s1) && u (n + a i)) (seq 0 K)) with (filter (fun i => u (n + s0 * (i + 1))) (seq 0 K)).
        * apply map_ext_in. intros i I. apply filter_In in I. destruct I as [I _]. apply in_seq in I. pose proof (kl1 i ltac:(lia)) as Hd. unfold ud in *.
          rewrite Z.rem_mod_nonneg by lia. rewrite Nat2Z.inj_mod. f_equal. lia.
        * apply filter_ext_in. intros i I. apply in_seq in I. replace (s0 * (i + 1)) with (a i) by apply Nat.mul_comm.
          replace (n + a i <? s1) with true; [reflexivity|]. symmetry. apply Nat.ltb_lt. apply HKi; lia.
      + intros i I. apply in_seq in I. replace (n + a i <? s1) with false; [reflexivity|]. symmetry. apply Nat.ltb_ge.
        destruct (Nat.lt_ge_cases (n + a i) s1) as [X|X]; auto. apply HKi in X; lia.
    - rewrite (send_none q n L). rewrite (filter_none _ (seq 0 p)) by (intros; reflexivity). reflexivity.
  Qed.
  Lemma back_d q i : q < N -> i < p -> (q + N - d i) mod N = (N + q + (i + 1) * g) mod N.
  Proof.
    intros Hq Hi. pose proof (kl1 i Hi) as Hd. unfold ud in *. replace (q + N - (N - (i + 1) * g)) with (q + (i + 1) * g) by lia.
    replace (N + q + (i + 1) * g) with (q + (i + 1) * g + 1 * N) by lia. symmetry. apply Nat.mod_add. lia.
  Qed.
  Lemma kl5 : forall q r, q < N -> r < NL ->
    map fst (recvfrom (lines (kx q) r)) = map (fun i => Z.of_nat ((q + N - d i) mod N))
      (filter (fun i => (b i <=? r) && (r <? b i + length (filter (pick i) (seq 0 NL)))) (seq 0 p)).
  Proof.
    intros q r Hq Hr. destruct (at_line r Hr) as (n & Hn & Hu & Er & El).
    transitivity (map fst (recvfrom (lines (x q) n))).
    { rewrite Er. rewrite (keep_line false) by auto. cbn [recvfrom]. rewrite map_map. reflexivity. }
    rewrite Er. destruct (Nat.lt_ge_cases n s0) as [L|L].
    - rewrite (recv_none q n L). rewrite filter_none; [reflexivity|]. intros i I. apply in_seq in I. apply not_true_is_false.
      rewrite hits_group by (auto; lia). rewrite group by lia. lia.
    - destruct (line_split n (conj L Hn)) as (i & j & Hi & Hj & En & Ed & X & Y & HiN & _).
      rewrite (recv_one q n i j L X Y). rewrite (filter_seq _ p i 1); [|lia|].
      + cbn [seq map fst]. now rewrite back_d.
      + intros k Hk. rewrite hits_group by auto. rewrite group by auto. lia.
  Qed.
  Lemma kl6 : forall i, i < p -> b i + length (filter (pick i) (seq 0 NL)) <= NL.
  Proof. intros i Hi. rewrite out_end by auto. apply place_le. now apply in_s1. Qed.
  Lemma kl7 : forall i k r, i < p -> k < p ->
    (b i <=? r) && (r <? b i + length (filter (pick i) (seq 0 NL))) = true ->
    (b k <=? r) && (r <? b k + length (filter (pick k) (seq 0 NL))) = true -> i = k.
  Proof.
    intros i k r Hi Hk B C. assert (Hr : r < NL).
    { pose proof (kl6 i Hi). apply andb_true_iff in B. rewrite Nat.leb_le, Nat.ltb_lt in B. lia. }
    destruct (at_line r Hr) as (n & Hn & Hu & -> & _). rewrite hits_group, group in B, C by auto. destruct B as [_ <-], C as [_ <-]. reflexivity.
  Qed.
  Lemma kl0 : 0 < NL.
  Proof. pose proof s1_low. apply (place_lt u 0 s1 U0). lia. Qed.
  Lemma kl8 : forall q n, q < N -> reducefrom (lines (kx q) n) = [] /\ copyreducefrom (lines (kx q) n) = [].
  Proof.
    intros q n _. cbn [cr_keep lines reducefrom copyreducefrom].
    destruct (spread_quiet q (nth n (filter u (seq 0 (num_lines (cr_spread N s0 s1 g p q (prev q))))) 0)) as [-> ->]. auto.
  Qed.
  Lemma keep_cls (bk : nat -> block) last : (forall q, num_lines (bk q) = s1) -> by_cls N s s1 bk ->
    forall q n, q < N -> n < s1 -> u n = true -> frac (lines (cr_keep u last (bk q)) (place n)) = (q + cls N s n) mod N.
  Proof. intros E H q n Hq Hn Hu. rewrite (keep_line last) by auto. cbn [frac]. now apply H. Qed.
  Lemma kl9 : forall q i k, q < N -> i < p -> k < length (filter (pick i) (seq 0 NL)) ->
    frac (lines (kx q) (b i + k)) = frac (lines (kx ((q + N - d i) mod N)) (nth k (filter (pick i) (seq 0 NL)) 0)).
  Proof.
    intros q i k Hq Hi Hk. rewrite out_c in Hk by auto. rewrite out_A by auto.
    rewrite (nth_indep _ 0 (place 0)) by (now rewrite map_length). rewrite (map_nth place).
    assert (I : In (nth k (A i) 0) (A i)) by now apply nth_In. remember (nth k (A i) 0) as n eqn:En. 
    destruct (in_A i n Hi I) as (L & M & UA & Un). destruct (in_s1 i Hi) as [B C].
    assert (E : b i + k = place (n + a i)).
    { assert (Y := nth_range u s1 (a i) (wd i) k C). rewrite range_A, map_length in Y. specialize (Y Hk).
      rewrite (nth_indep (map (fun n => n + a i) (A i)) 0 (0 + a i)) in Y by (now rewrite map_length). rewrite (map_nth (fun n => n + a i)), <- En in Y.
      rewrite <- Y. symmetry. apply nth_us. fold (b i). pose proof (kl6 i Hi). rewrite out_c in H by auto. lia. }
    rewrite E. rewrite (keep_cls x false) by (auto; apply spread_frac). rewrite (keep_cls x false) by (auto using spread_frac; try lia; apply Nat.mod_upper_bound; lia).
    rewrite back_d by auto. rewrite Nat.add_mod_idemp_l by lia.
    pose proof s0_pos as P0.
    destruct (new_div i n) as [X Y].
    rewrite (cls_new i n (n + a i) X Y). rewrite Nat.add_mod_idemp_r by lia.
    replace (N + q + (i + 1) * g + cls N s n) with (q + (cls N s n + (i + 1) * g) + 1 * N) by lia. symmetry. apply Nat.mod_add. lia.
  Qed.
  Lemma keep_matched : well_matched N kx.
  Proof. exact (shift_matched N NL p kx d pick b kl1 kl2 kl3 kl4 kl5 kl0 kl6 kl7 kl8 kl9). Qed.
  Lemma collect_matched : well_matched N ky.
  Proof.
    apply still_matched; auto.
    - intros q n e _ _ I. cbn [cr_keep lines sendto cr_collect filter map] in I. destruct I.
    - intros q r r' Hq Hr I. destruct (at_line r Hr) as (n & Hn & Hu & -> & _).
      rewrite (keep_line false) in I by auto. cbn [reducefrom] in I. rewrite collect_from in I by auto.
      destruct (Nat.ltb_spec n s0) as [L|L]; [destruct I|]. destruct (src N s s0 n) as [j|] eqn:E; [|destruct I]. destruct I as [<-|[]].
      assert (Uj := U2 n j (conj L Hn) Hu E). apply src_some in E. destruct E as (Lj & Ec & _).
      pose proof s0_pos. pose proof (Nat.mul_div_le n s0 ltac:(lia)). assert (Hj : j < s1) by lia.
      split; [now apply place_lt|]. rewrite !(keep_cls y false) by (auto; apply collect_frac). now rewrite Ec.
  Qed.

  Context {V : Type} (op : V -> V -> V) (st : nat -> nat -> V).
  Lemma keep_old q n : q < N -> n < s0 -> u n = true -> stage op N kx st q (place n) = st q (place n).
  Proof.
    intros Hq Hn Hu. rewrite (shift_stage N kx op st kl8) by auto.
    apply (shift_kept N NL p kx d pick b kl1 kl2 kl3 kl4 kl5 kl0 kl6 kl7); auto.
    intros i Hi. apply not_true_is_false. rewrite hits_group, group by auto. lia.
  Qed.
  Lemma keep_new q n i j : q < N -> s0 <= n < s1 -> u n = true -> i < p -> j < s0 -> n = a i + j ->
    stage op N kx st q (place n) = st ((q + (i + 1) * g) mod N) (place j).
  Proof.
    intros Hq Hn Hu Hi Hj En. rewrite (shift_stage N kx op st kl8) by auto.
    assert (G : a i <= n < a i + wd i) by lia.
    assert (Hh := proj2 (hits_group i n Hi Hu) G). apply andb_true_iff in Hh. rewrite Nat.leb_le, Nat.ltb_lt in Hh.
    rewrite (shift_received N NL p kx d pick b kl1 kl2 kl3 kl4 kl5 kl0 kl6 kl7 op st q i) by auto.
    f_equal.
    - rewrite back_d by auto. replace (N + q + (i + 1) * g) with (q + (i + 1) * g + 1 * N) by lia. apply Nat.mod_add. lia.
    - rewrite out_A by auto. rewrite (nth_indep _ 0 (place 0)) by (rewrite <- out_A by auto; lia). rewrite (map_nth place). f_equal.
      assert (Y := nth_range u s1 (a i) (wd i) (place n - b i) (proj2 (in_s1 i Hi))). rewrite range_A, map_length, <- out_c in Y by auto.
      specialize (Y ltac:(lia)). fold (b i) in Y. replace (b i + (place n - b i)) with (place n) in Y by lia. rewrite at_place in Y by (auto; lia).
      rewrite (nth_indep (map (fun n => n + a i) (A i)) 0 (0 + a i)) in Y by (rewrite map_length, <- out_c by auto; lia). rewrite (map_nth (fun n => n + a i)) in Y. lia.
  Qed.
  Lemma collect_value q n : q < N -> n < s1 -> u n = true ->
    stage op N ky st q (place n) = if n <? s0 then st q (place n) else
      match src N s s0 n with None => st q (place n) | Some j => op (st q (place n)) (stage op N ky st q (place j)) end.
  Proof.
    intros Hq Hn Hu. assert (Q : forall q n e, q < N -> n < num_lines (ky q) -> In e (sendto (lines (ky q) n)) -> fst e = (-1)%Z).
    { intros q' n' e _ _ I. cbn [cr_keep lines sendto cr_collect filter map] in I. destruct I. }
    assert (F : reducefrom (lines (ky q) (place n)) = map place (if n <? s0 then [] else match src N s s0 n with Some j => [j] | None => [] end)).
    { rewrite (keep_line false) by auto. cbn [reducefrom]. now rewrite collect_from. }
    rewrite still_stage by auto. destruct (Nat.ltb_spec n s0) as [L|L]; [now apply reduced_nil|].
    destruct (src N s s0 n) as [j|] eqn:E; [|now apply reduced_nil]. rewrite still_stage by auto.
    assert (Uj := U2 n j (conj L Hn) Hu E). apply src_some in E. pose proof s0_pos. pose proof (Nat.mul_div_le n s0 ltac:(lia)).
    apply reduced_chain; auto.
    - change (place n < place s1). now apply place_lt.
    - apply place_lt; auto. lia.
  Qed.
End Spread.
