(* The schedule of the cyclic allreduce. *)
From Verif Require Import Base SchedModel SchedSpec SchedProofs MatchProofs CombineProofs CyclicSpec CyclicProofs CycRedModel ShiftProofs LooseSpec LooseChain LooseAlike
  CycRedDown CycRedScatter CycRedClosure CycRedPlace CycRedSpread CycRedUp CycRedAll.
Local Ltac Zify.zify_post_hook ::= idtac.

(* the last line of its class *)
Definition top (N s n : nat) : bool := negb (existsb (fun m => cls N s m =? cls N s n) (seq (n + 1) (s * N - (n + 1)))).
Lemma top_spec N s n : top N s n = true <-> forall m, n < m < s * N -> cls N s m <> cls N s n.
Proof.
  unfold top. rewrite negb_true_iff. split.
  - intros E m Hm C. enough (X : existsb (fun m => cls N s m =? cls N s n) (seq (n + 1) (s * N - (n + 1))) = true) by congruence.
    apply existsb_exists. exists m. split; [apply in_seq; lia|now apply Nat.eqb_eq].
  - intros H. destruct (existsb _ _) eqn:E; auto. apply existsb_exists in E. destruct E as (m & I & E). apply in_seq in I. apply Nat.eqb_eq in E.
    exfalso. apply (H m); auto. lia.
Qed.
Lemma top_exists N s c : 0 < s -> c < N -> exists n, n < s * N /\ cls N s n = c /\ top N s n = true.
Proof.
  intros Hs Hc. assert (F := find_rev_seq (fun m => cls N s m =? c) (s * N)). destruct (find _ _) as [n|].
  - destruct F as (A & B & C). apply Nat.eqb_eq in B. exists n. repeat split; auto. apply top_spec. intros m Hm. specialize (C m Hm).
    apply Nat.eqb_neq in C. congruence.
  - specialize (F (c * s) ltac:(rewrite (Nat.mul_comm s); apply Nat.mul_lt_mono_pos_r; auto)). apply Nat.eqb_neq in F. exfalso. apply F.
    rewrite <- (Nat.add_0_r (c * s)), cls_line, Nat.add_0_r by auto. now apply Nat.mod_small.
Qed.
Lemma top_owns N s R n q x : 0 < s <= N -> (forall L, L < N -> R L < s) -> n < s * N -> top N s n = true -> owns N s R q n x = true.
Proof.
  intros Hs HR Hn T. unfold owns. apply Nat.leb_le. assert (HN : 0 < N) by lia.
  assert (Hr : R ((q + cls N s n + N - x) mod N) < s) by (apply HR; apply Nat.mod_upper_bound; lia).
  revert Hr. generalize (R ((q + cls N s n + N - x) mod N)). intros r Hr.
  pose proof (cls_lt N s n HN) as Hc. set (v := (cls N s n + N - r) mod N).
  assert (Hv : v < N) by (apply Nat.mod_upper_bound; lia).
  assert (C : cls N s (v * s + r) = cls N s n) by (rewrite cls_line by auto; unfold v; apply cls_back; lia).
  assert (B : v * s + r < s * N) by (assert (v * s + s <= N * s) by (rewrite <- Nat.mul_succ_l; apply Nat.mul_le_mono_r; lia); lia).
  assert (L : v * s + r <= n).
  { destruct (Nat.le_gt_cases (v * s + r) n) as [|G]; auto. exfalso. rewrite top_spec in T. apply (T (v * s + r)); auto. }
  apply Nat.div_le_lower_bound; lia.
Qed.
Lemma cls_small N s n : n < s -> s <= N -> cls N s n = n.
Proof. intros A B. unfold cls. rewrite (Nat.div_small n s), (Nat.mod_small n s) by auto. apply Nat.mod_small. lia. Qed.

Lemma keep_all N (uq : nat -> nat -> bool) u : (forall b q, q < N -> alike (cr_keep (uq q) false (b q)) (cr_keep u false (b q))) -> forall l : list (nat -> block),
  Forall2 (fun b b' => forall q, q < N -> alike (b q) (b' q)) (map (fun b q => cr_keep (uq q) false (b q)) l) (kept_fam u l).
Proof. intros H. induction l as [|b l IH]; [constructor|]. cbn. constructor; auto. Qed.

Section Whole.
  Context (N : nat) (down up : list nat) (HN : 0 < N) (Ne : up <> []) (M : minimal N up).
  Local Notation D := (down_fam N N N down (cr_first N)).
  Local Notation s := (fold_left shrink down N).
  Local Notation mid := (last D (cr_first N)).
  Local Notation F := (up_fam N s 1 up mid).
  Local Notation finq q := (cr_last (num_lines (last F mid q)) (last F mid q)).
  Local Notation fin := (fun q => cr_last (num_lines (last F mid q)) (last F mid q)).
  Local Notation uq q := (cr_used (at_node q F) (cr_last (num_lines (last F mid q)) (last F mid q))).
  Local Notation U := (cr_used (at_node 0 F) (cr_last (num_lines (last F mid 0)) (last F mid 0))).
  Local Notation place := (cr_place U).

  Lemma whole_family q : cyclic_reduce N down up q =
    at_node q (cr_first N :: D ++ map (fun b q => cr_keep (uq q) false (b q)) F ++ [fun q => cr_keep (uq q) true (finq q)]).
  Proof.
    clear M HN. unfold cyclic_reduce. cbv zeta. destruct up as [|p r] eqn:E; [congruence|]. rewrite <- E in *.
    rewrite (down_at N down N N (cr_first N) q), last_at_node. rewrite (up_at N s up 1 mid q), last_at_node.
    unfold at_node at 5. rewrite map_cons, !map_app, map_map. cbn [map]. f_equal. f_equal. f_equal.
    unfold at_node at 2. rewrite map_map. reflexivity.
  Qed.

  Lemma s_ok : 0 < s <= N.
  Proof. now apply down_size. Qed.
  Lemma fit : fits N 1 up.
  Proof. now apply minimal_fits. Qed.
  Lemma mid_cls : by_cls N s (s * 1) mid.
  Proof.
    intros q n Hq Hn. rewrite Nat.mul_1_r in Hn. assert (S := s_ok). rewrite (cls_small N s n) by lia.
    apply (down_row N down N (cr_first N)); auto using first_row.
  Qed.
  Lemma last_cls : by_cls N s (s * N) (last F mid) /\ forall q, num_lines (last F mid q) = s * N.
  Proof. apply up_last; auto; [apply s_ok|apply fit|apply mid_cls]. Qed.
  Lemma fin_line q n : q < N -> n < s * N -> lines (finq q) n =
    Line ((q + cls N s n) mod N) (if top N s n then [((-1)%Z, (q + cls N s n) mod N)] else []) [] [] [].
  Proof.
    intros Hq Hn. destruct last_cls as [B E]. cbv beta. rewrite E. unfold cr_last. cbn [lines]. rewrite B by auto. f_equal.
    unfold top. rewrite if_negb.
    assert (H : forall l, (forall m, In m l -> m < s * N) -> existsb (fun m => frac (lines (last F mid q) m) =? frac (lines (last F mid q) n)) l = existsb (fun m => cls N s m =? cls N s n) l).
    { induction l as [|m l IH]; intros H; [reflexivity|]. cbn [existsb]. rewrite IH by (intros; apply H; now right). rewrite B by (auto; apply H; now left).
      rewrite B by auto. now rewrite same_cls. }
    rewrite H; [reflexivity|]. intros m I. apply in_seq in I. lia.
  Qed.
  Lemma fin_lines q : num_lines (finq q) = s * N.
  Proof. apply last_cls. Qed.
  Lemma start_set q n : q < N -> (n <? num_lines (finq q)) && (length (sendto (lines (finq q) n)) =? 1) = (n <? s * N) && top N s n.
  Proof.
    intros Hq. rewrite fin_lines. destruct (Nat.ltb_spec n (s * N)) as [L|L]; [|reflexivity]. cbn [andb]. rewrite fin_line by auto. cbn [sendto].
    now destruct (top N s n).
  Qed.
  Lemma same_used q n : q < N -> uq q n = U n.
  Proof.
    intros Hq. unfold cr_used. rewrite (fin_lines q), (fin_lines 0). apply closure_ext.
    - apply up_like; auto; [apply s_ok|apply fit|apply mid_cls].
    - intros m. rewrite <- (fin_lines q) at 1. rewrite <- (fin_lines 0). now rewrite !start_set.
  Qed.
  Lemma lower b n m : In b (at_node 0 F) -> n < num_lines b -> In m (marks b n) -> m < n.
  Proof. apply up_lower; auto; [apply s_ok|apply fit|apply mid_cls]. Qed.
  Lemma used_below n : U n = true -> n < s * N.
  Proof.
    unfold cr_used. rewrite fin_lines. apply closure_below.
    - exact lower.
    - intros m. rewrite andb_true_iff, Nat.ltb_lt. tauto.
  Qed.
  Lemma used_top n : n < s * N -> top N s n = true -> U n = true.
  Proof.
    intros Hn T. unfold cr_used. apply closure_ge. rewrite start_set by auto. rewrite T. cbn. rewrite andb_true_r. now apply Nat.ltb_lt.
  Qed.
  Lemma used_closed : closed U F.
  Proof.
    intros b n m I Hn Hu Hm. assert (B := used_below n Hu). revert Hu. unfold cr_used. rewrite fin_lines. intros Hu.
    eapply closure_marks; eauto. exact lower.
  Qed.
  Lemma used_old c : c < s -> U c = true.
  Proof.
    intros Hc. assert (S := s_ok). destruct (top_exists N s c) as (t & Ht & Ct & Tt); [lia|lia|].
    assert (Ut := used_top t Ht Tt). clear Tt. revert Ht Ct Ut. induction t as [t IH] using lt_wf_ind. intros Ht Ct Ut.
    destruct (Nat.lt_ge_cases t s) as [L|L].
    - rewrite cls_small in Ct by lia. now rewrite <- Ct.
    - destruct (closed_src N s (proj1 S) U up 1 mid t HN ltac:(lia) fit mid_cls used_closed ltac:(lia) Ut) as (s0 & Hs0 & Hj).
      rewrite Nat.mul_1_r in Hs0. unfold src in Hj. assert (FR := find_rev_seq (fun j => cls N s j =? cls N s t) (t / s0 * s0)).
      assert (Lo : s0 <= t / s0 * s0).
      { rewrite <- (Nat.mul_1_l s0) at 1. apply Nat.mul_le_mono_r. apply Nat.div_le_lower_bound; lia. }
      assert (Up : t / s0 * s0 <= t) by (rewrite Nat.mul_comm; apply Nat.mul_div_le; lia).
      destruct (find _ _) as [j|].
      + destruct FR as (A & B & _). apply Nat.eqb_eq in B. apply (IH j); [lia|lia|congruence|]. now apply Hj.
      + specialize (FR c ltac:(lia)). rewrite (cls_small N s c) in FR by lia. apply Nat.eqb_neq in FR. congruence.
  Qed.
  Lemma used_0 : U 0 = true.
  Proof. apply used_old. apply s_ok. Qed.

  Lemma delete_bounds q b n : q < N -> In b (at_node q F) -> n < num_lines b ->
    n < num_lines (last F mid q) /\ Forall (fun e => snd e < num_lines (last F mid q)) (sendto (lines b n)) /\ Forall (fun m => m < n) (marks b n).
  Proof.
    intros Hq I Hn. destruct last_cls as [_ E]. rewrite E. assert (H := fun e => up_bound N s (proj1 s_ok) up 1 mid q b n e ltac:(lia) fit I Hn).
    split; [apply (H (0%Z, 0))|]. split; apply Forall_forall.
    - intros e J. now apply H.
    - intros m J. apply (up_lower N s (proj1 s_ok) up 1 mid q b n m); auto; [apply fit|apply mid_cls].
  Qed.

  (* the lines that are left *)
  Lemma keep_alike l b q : q < N -> alike (cr_keep (uq q) l (b q)) (cr_keep U l (b q)).
  Proof.
    intros Hq. split; [|intros n]; apply (keep_ext (uq q) U l (b q)); auto; intros k; now apply same_used.
  Qed.
  Lemma fin_cls : by_cls N s (s * N) fin.
  Proof. intros q n Hq Hn. now rewrite fin_line. Qed.
  Lemma last_num q : num_lines (cr_keep U true (finq q)) = place (s * N).
  Proof. unfold cr_keep. cbn [num_lines]. now rewrite <- (fin_lines q). Qed.
  Lemma last_line q r : q < N -> r < place (s * N) -> exists n, n < s * N /\ U n = true /\ place n = r /\
    lines (cr_keep U true (finq q)) r = Line ((q + cls N s n) mod N) (if top N s n then [((-1)%Z, (q + cls N s n) mod N)] else []) [] [] [].
  Proof.
    intros Hq Hr. destruct (nth_us U (s * N) r Hr) as (A & B & C). exists (nth r (filter U (seq 0 (s * N))) 0). repeat split; auto.
    unfold cr_keep. cbn [lines]. change (num_lines (cr_last (num_lines (last F mid q)) (last F mid q))) with (num_lines (finq q)). rewrite fin_lines.
    rewrite fin_line by auto. cbn [frac sendto recvfrom reducefrom copyreducefrom map]. f_equal. now destruct (top N s _).
  Qed.
  Lemma last_sends q r e : q < N -> r < place (s * N) -> In e (sendto (lines (cr_keep U true (finq q)) r)) -> fst e = (-1)%Z.
  Proof.
    intros Hq Hr I. destruct (last_line q r Hq Hr) as (n & _ & _ & _ & E). rewrite E in I. cbn [sendto] in I.
    destruct (top N s n); [destruct I as [<-|[]]|destruct I]. reflexivity.
  Qed.
  Lemma last_well : well_matched N (fun q => cr_keep U true (finq q)).
  Proof.
    apply still_matched.
    - intros q n e Hq Hn I. rewrite last_num in Hn. eapply last_sends; eauto.
    - intros q n Hq. reflexivity.
    - intros q n Hq. reflexivity.
    - intros q n r Hq Hn I. destruct I.
  Qed.
  Lemma whole_matched m : well_matched N (fun q => nth m (cyclic_reduce N down up q) empty_block).
  Proof.
    apply (family_matched N _ _ _ whole_family); [apply first_matched|]. apply Forall_app. split; [apply down_matched; [lia|apply first_row]|].
    apply Forall_app. split.
    - assert (Q := up_matched N s (proj1 s_ok) U used_0 up 1 mid HN ltac:(lia) fit mid_cls used_closed).
      unfold kept_fam in Q. rewrite Forall_map in *. eapply Forall_impl; [|exact Q]. intros b. cbv beta. apply matched_alike.
      intros q Hq. destruct (keep_alike false b q Hq) as [A B]. split; [auto|]. intros n. now rewrite B.
    - constructor; [|constructor]. apply (matched_alike N (fun q => cr_keep U true (finq q))); [|apply last_well].
      intros q Hq. destruct (keep_alike true fin q Hq) as [A B]. split; [auto|]. intros n. now rewrite B.
  Qed.

  Lemma whole_blocks q : length (cyclic_reduce N down up q) = S (length D + length F + 1).
  Proof. clear M HN. rewrite whole_family. unfold at_node. rewrite map_length. cbn [length]. rewrite !app_length, map_length. cbn [length]. lia. Qed.
  Lemma whole_last t : last_block (cyclic_reduce N down up t) = cr_keep (uq t) true (finq t).
  Proof.
    clear M HN. unfold last_block. rewrite whole_family. unfold at_node at 1. rewrite map_cons, app_assoc, map_app, last_cons. cbn [map]. apply last_last.
  Qed.
  Lemma whole_frac t n : t < N -> n < num_lines (last_block (cyclic_reduce N down up t)) -> frac (lines (last_block (cyclic_reduce N down up t)) n) < N.
  Proof.
    intros Ht. rewrite whole_last. destruct (keep_alike true fin t Ht) as [A B]. rewrite B. cbv beta in A. rewrite A, last_num. intros Hn.
    destruct (last_line t n Ht Hn) as (k & _ & _ & _ & E). cbv beta in E. rewrite E. cbn [frac]. apply Nat.mod_upper_bound. lia.
  Qed.
End Whole.

Section Solve.
  Context {V : Type} (op : V -> V -> V) (Oa : forall a b c, op a (op b c) = op (op a b) c) (Oc : forall a b, op a b = op b a).
  Context (N : nat) (down up : list nat) (HN : 0 < N) (Ne : up <> []) (M : minimal N up).
  Local Notation D := (down_fam N N N down (cr_first N)).
  Local Notation s := (fold_left shrink down N).
  Local Notation mid := (last D (cr_first N)).
  Local Notation F := (up_fam N s 1 up mid).
  Local Notation finq q := (cr_last (num_lines (last F mid q)) (last F mid q)).
  Local Notation fin := (fun q => cr_last (num_lines (last F mid q)) (last F mid q)).
  Local Notation uq q := (cr_used (at_node q F) (cr_last (num_lines (last F mid q)) (last F mid q))).
  Local Notation U := (cr_used (at_node 0 F) (cr_last (num_lines (last F mid 0)) (last F mid 0))).
  Local Notation place := (cr_place U).
  Lemma whole_solve (x : nat -> nat -> V) S :
    (forall t, t < N -> placed (first_block (cyclic_reduce N down up t)) (x t) (S 0 t)) ->
    loosely op N (cyclic_reduce N down up) (length (cyclic_reduce N down up 0)) S ->
    forall t, t < N -> delivered (last_block (cyclic_reduce N down up t)) (fun f => f < N) (fun f => total op (fun k => x k f) N)
      (S (length (cyclic_reduce N down up 0) - 1) t).
  Proof.
    intros P0 L t Ht. assert (Hs := s_ok N down HN).
    assert (C := loosely_chain op N _ _ _ (whole_family N down up Ne) (length (cyclic_reduce N down up 0)) S).
    specialize (C ltac:(rewrite whole_blocks, !app_length, map_length by auto; cbn [length]; lia) L).
    remember (S (length (cyclic_reduce N down up 0) - 1)) as SE eqn:ESE. clear ESE.
    apply chain_app in C. destruct C as (sm & C1 & C2).
    destruct (down_all op Oa Oc N x HN down N (cr_first N) (S 0) sm (fun L => L)) as (R & HR & G); auto; [apply first_row| |].
    { apply first_gathered; auto. intros q Hq. specialize (P0 q Hq). rewrite (whole_family N down up Ne) in P0. exact P0. }
    (* with one set of lines *)
    eapply (chain_alike op N _ (kept_fam U F ++ [fun q => cr_keep U true (finq q)]) mid mid) in C2.
    2: { intros q Hq. split; auto. }
    2: { apply Forall2_app.
         - apply (keep_all N (fun q => uq q) U). intros b q Hq. now apply (keep_alike N down up HN Ne M false).
         - constructor; [|constructor]. intros q Hq. now apply (keep_alike N down up HN Ne M true fin). }
    apply chain_app in C2. destruct C2 as (se & C3 & C4).
    assert (Small : forall n, n < s -> place n = n) by (intros n Hn; apply (place_all U s); [intros; now apply used_old|lia]).
    destruct (up_all op Oa Oc N x s R (proj1 Hs) (proj2 Hs) HR U (used_0 N down up HN Ne M) up 1 mid mid sm se) as [Fe Le]; auto.
    { now apply fit. } { now apply mid_cls. } { now apply used_closed. }
    { intros q n Hq Hn _. rewrite Nat.mul_1_r in Hn. rewrite Small by auto. apply mid_cls; auto; lia. }
    { intros q n Hq Hn _. rewrite Nat.mul_1_r in Hn. rewrite Small by auto. rewrite G by auto. rewrite (cls_small N s n) by lia.
      apply (partial_ext op Oa Oc). intros y Hy. unfold owns. rewrite (cls_small N s n) by lia. rewrite (Nat.div_small n s) by auto.
      apply eq_true_iff_eq. rewrite Nat.eqb_eq, Nat.leb_le.
      assert (Hr := HR ((q + n + N - y) mod N) ltac:(apply Nat.mod_upper_bound; lia)).
      revert Hr. generalize (R ((q + n + N - y) mod N)). intros r Hr. split.
      - intros ->. replace (n + N - n) with (1 * N) by lia. rewrite Nat.mod_mul by lia. lia.
      - intros Z. destruct (Nat.lt_ge_cases n r) as [X|X].
        + rewrite Nat.mod_small in Z by lia. lia.
        + replace (n + N - r) with (n - r + 1 * N) in Z by lia. rewrite Nat.mod_add, Nat.mod_small in Z by lia. lia. }
    destruct C4 as (st & s1 & A & B & C5). cbn [chain] in C5.
    assert (Lf : laid N s U (s * N) (fun q => cr_keep U true (finq q))).
    { apply laid_keep; [now apply fin_lines|now apply fin_cls]. }
    assert (Val : forall n, n < s * N -> U n = true -> Some (SE t (place n)) = partial op N x ((t + cls N s n) mod N) (owns N s R t n)).
    { intros n Hn Hu. rewrite C5, B by auto. assert (Pn : place n < place (s * N)) by now apply place_lt.
      assert (LS : forall q r e, q < N -> r < num_lines (cr_keep U true (finq q)) -> In e (sendto (lines (cr_keep U true (finq q)) r)) -> fst e = (-1)%Z).
      { intros q r e Hq Hr I. rewrite (last_num N down up HN Ne M) in Hr. eapply (last_sends N down up HN Ne M); eauto. }
      rewrite still_stage by auto. rewrite reduced_nil by reflexivity. rewrite A by (auto; exact (laid_same N s U (s * N) _ _ t n Le Lf Ht Hn Hu)). now apply Fe.
    }
    assert (Out : forall n, n < s * N -> top N s n = true -> SE t (place n) = total op (fun k => x k ((t + cls N s n) mod N)) N).
    { intros n Hn T. assert (Y : Some (SE t (place n)) = Some (total op (fun k => x k ((t + cls N s n) mod N)) N)); [|now injection Y].
      rewrite Val by (auto; now apply used_top). rewrite <- combine_total by auto. unfold partial. f_equal. f_equal. apply filter_all.
      intros k _. now apply top_owns. }
    rewrite (whole_last N down up Ne t). destruct (keep_alike N down up HN Ne M true fin t Ht) as [EA EB]. cbv beta in EA, EB.
    split.
    - intros n f Hn O. rewrite EA in Hn. unfold output_line in O. rewrite EB in O. rewrite (last_num N down up HN Ne M t) in Hn.
      destruct (last_line N down up HN Ne M t n Ht Hn) as (k & Hk & Uk & Pk & E). cbv beta in E. rewrite E in O. cbn [sendto frac] in O.
      destruct (top N s k) eqn:T; [|discriminate]. cbn in O. injection O as <-. split; [apply Nat.mod_upper_bound; lia|]. rewrite <- Pk. now apply Out.
    - intros f Hf. destruct (top_exists N s ((f + N - t) mod N)) as (n & Hn & Cn & Tn); [apply Hs|apply Nat.mod_upper_bound; lia|].
      assert (Un : U n = true) by now apply used_top.
      assert (Pn : place n < place (s * N)) by now apply place_lt.
      exists (place n). rewrite EA, (last_num N down up HN Ne M t). split; auto. unfold output_line. rewrite EB.
      destruct (last_line N down up HN Ne M t (place n) Ht Pn) as (k & Hk & Uk & Pk & E). cbv beta in E. rewrite E. cbn [sendto frac].
      apply place_inj in Pk; auto. subst k. rewrite Tn. cbn. f_equal. rewrite Cn.
      rewrite Nat.add_comm. apply cls_back; lia.
  Qed.
End Solve.
