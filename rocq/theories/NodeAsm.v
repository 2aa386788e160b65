(* A copy-in prefix followed by the code of reduce_copies: the prefix is given
   by its items 0 .. P0, the rest are the items of NodeItems.v.  What remains to
   be shown for a concrete prefix is collected in the hypotheses pre_... *)
From Verif Require Import Base BarrierModel NodeModel SyncProofs SyncItems TreeProofs TreeKnow NodeCode NodeCopyin NodeLayout NodeItems.
From Coq Require Import Permutation.
Local Open Scope nat_scope.
Local Ltac Zify.zify_post_hook ::= idtac.

Section Assemble.
  Context (n h : nat) (ts sz : Z) (f0 : nat) (fac : nat -> nat) (F : nat) (fast subset : bool).
  Context (P0 : nat) (wsP : nat -> nat -> list nat) (actsP : nat -> nat -> list act) (lenP : nat -> nat).
  Hypothesis ts_pos : (0 < ts)%Z.
  Hypothesis sz_pos : (0 < sz)%Z.
  Hypothesis sz_ts : exists q, (sz = q * ts)%Z.
  Hypothesis f0_pos : 0 < f0.
  Hypothesis fac_pos : forall s, 0 < fac s.
  Hypothesis h_pos : 0 < h.
  Hypothesis F_pos : 0 < F.
  Notation Hs := (H fac).
  Notation Ds := (D f0 fac).
  Notation Cs := (C ts sz f0 fac).
  Notation v := (Ds (F - 1)).
  Notation addr := (iaddr fast sz).
  Hypothesis h_v : h <= v.
  Hypothesis whole : v = h \/ (sz < 128)%Z.
  Hypothesis shape : (h = n /\ subset = false) \/ (h <= n /\ v = h /\ subset = true).
  Hypothesis fast_sz : fast = true -> (sz <= 56)%Z.

  Hypothesis P_len : forall c i, c < n -> i <= P0 -> length (wsP c i) = lenP i.
  Hypothesis P_n : forall c i x, c < n -> i <= P0 -> In x (wsP c i) -> x < n.

  Notation blist_ := (blist ts sz f0 fac F).
  Notation nB := (length blist_).
  Notation busyall := (all_busy h ts sz f0 fac F subset).

  Definition aws (c i : nat) : list nat :=
    if i <=? P0 then wsP c i
    else if i <? P0 + F then wlev h ts sz f0 fac (i - P0 - 1) c
    else if i =? P0 + F then wfin h ts sz f0 fac F subset c
    else if i =? P0 + F + 1 then wend h ts sz f0 fac F subset
    else [].
  Definition aacts (c i : nat) : list act :=
    if i <=? P0 then actsP c i
    else if i <? P0 + F then (if c <? h then level_acts ts sz f0 fac addr (i - P0 - 1) c else [])
    else [].
  Definition alen (i : nat) : nat :=
    if i <=? P0 then lenP i
    else if i <? P0 + F then clg (fac (S (i - P0 - 1)))
    else if i =? P0 + F then (if busyall then clg h else clg nB)
    else if i =? P0 + F + 1 then (if busyall then 0 else 1)
    else 0.

  Lemma core_case c : c < n -> c < h \/ (v = h /\ subset = true).
  Proof. intros Hc. destruct shape as [(-> & _)|(_ & E & S)]; auto. Qed.
  Lemma core_case' c : c < n -> c < h \/ v = h.
  Proof. intros Hc. destruct (core_case c Hc) as [|(E & _)]; auto. Qed.
  Lemma h_n : h <= n.
  Proof. destruct shape as [(-> & _)|(E & _)]; auto. Qed.

  Lemma wfin_len c : length (wfin h ts sz f0 fac F subset c) = if busyall then clg h else clg nB.
  Proof.
    unfold wfin. destruct busyall; [|destruct (_ && _)].
    - unfold diss, rounds. now rewrite map_length, seq_length.
    - unfold rounds. now rewrite map_length, seq_length.
    - apply repeat_length.
  Qed.

  Lemma aws_len c i : c < n -> length (aws c i) = alen i.
  Proof.
    intros Hc. unfold aws, alen. destruct (Nat.leb_spec i P0); [apply P_len; auto|].
    destruct (Nat.ltb_spec i (P0 + F)).
    { apply (wlev_len h ts sz f0 fac F f0_pos fac_pos h_pos F_pos h_v whole). apply core_case'. auto. }
    destruct (i =? P0 + F); [apply wfin_len|]. destruct (i =? P0 + F + 1); [|reflexivity].
    unfold wend. destruct busyall; reflexivity.
  Qed.

  Lemma wlev_n s c x : c < n -> In x (wlev h ts sz f0 fac s c) -> x < n.
  Proof.
    intros Hc. unfold wlev. destruct (Nat.ltb_spec c h) as [Hh|Hh]; cbn [andb].
    - destruct (busy ts sz f0 fac s c).
      + rewrite in_app_iff. intros [I|I]; [|apply repeat_spec in I; lia].
        unfold rounds in I. apply in_map_iff in I. destruct I as (e & <- & _).
        pose proof (idx_nbr h sz f0 fac F f0_pos fac_pos h_pos F_pos h_v whole s c Hh) as P.
        pose proof (nbr_le h sz f0 fac F f0_pos fac_pos h_pos F_pos h_v whole s c) as L.
        set (nb := nbr h f0 fac s c) in *.
        set (t := (_ + 2 ^ e) mod nb).
        assert (Ht : t < nb) by (apply Nat.mod_upper_bound; intros Z0; rewrite Z0 in P; exact (Nat.nlt_0_r _ P)).
        apply Nat.lt_le_trans with h; [|apply h_n].
        apply (nbr_spec h sz f0 fac F f0_pos fac_pos h_pos F_pos h_v whole s c t); [|exact Ht].
        apply Nat.lt_le_trans with nb; auto.
      + intros I. apply repeat_spec in I. lia.
    - intros I. apply repeat_spec in I. lia.
  Qed.

  Lemma blist_n x : In x blist_ -> x < h.
  Proof. intros I. apply (blist_in h ts sz f0 fac F ts_pos sz_pos sz_ts f0_pos fac_pos h_pos F_pos h_v whole) in I. tauto. Qed.

  Lemma wfin_n c x : c < n -> In x (wfin h ts sz f0 fac F subset c) -> x < n.
  Proof.
    pose proof h_n as Hn.
    intros Hc. unfold wfin. destruct busyall; [|destruct (_ && _)].
    - unfold diss, rounds. intros I. apply in_map_iff in I. destruct I as (e & <- & _).
      apply Nat.lt_le_trans with h; [apply Nat.mod_upper_bound; lia|auto].
    - unfold rounds. intros I. apply in_map_iff in I. destruct I as (e & <- & _).
      apply Nat.lt_le_trans with h; auto. apply blist_n. apply nth_In. apply Nat.mod_upper_bound.
      pose proof (nB_pos h ts sz f0 fac F ts_pos sz_pos sz_ts f0_pos fac_pos h_pos F_pos h_v whole). lia.
    - intros I. apply repeat_spec in I. lia.
  Qed.

  Lemma aws_n c i x : c < n -> In x (aws c i) -> x < n.
  Proof.
    intros Hc. unfold aws. destruct (Nat.leb_spec i P0); [apply P_n; auto|].
    destruct (Nat.ltb_spec i (P0 + F)); [apply wlev_n; auto|].
    destruct (i =? P0 + F); [apply wfin_n; auto|]. destruct (i =? P0 + F + 1); [|intros []].
    unfold wend. destruct busyall; [intros []|]. intros [<-|[]]. lia.
  Qed.

  Lemma aacts_level c s : c < n -> S s < F ->
    aacts c (P0 + S s) = if c <? h then level_acts ts sz f0 fac addr s c else [].
  Proof.
    intros _ Hs. unfold aacts. rewrite (proj2 (Nat.leb_gt _ _)), (proj2 (Nat.ltb_lt _ _)) by lia.
    replace (P0 + S s - P0 - 1) with s by lia. reflexivity.
  Qed.

  Lemma aacts_final c i : c < n -> P0 + F <= i -> aacts c i = [].
  Proof.
    intros _ Hi. unfold aacts. rewrite (proj2 (Nat.leb_gt _ _)), (proj2 (Nat.ltb_ge _ _)) by lia. reflexivity.
  Qed.

  Lemma aown s b y x : s < F -> b * Ds s < h -> y < Ds s -> region ts sz f0 fac s y x -> b * Ds s + y < h.
  Proof.
    intros Hs Hb Hy R. apply (own_real h ts sz f0 fac F ts_pos sz_pos sz_ts f0_pos fac_pos h_pos F_pos h_v whole); auto.
    unfold region in R. lia.
  Qed.

  Lemma nth_rounds k w e r : e < k -> nth e (rounds k w ++ r) 0 = w e.
  Proof.
    intros He. unfold rounds. rewrite app_nth1 by (rewrite map_length, seq_length; auto).
    rewrite (nth_indep _ 0 (w 0)) by (rewrite map_length, seq_length; auto).
    rewrite map_nth, seq_nth by auto. reflexivity.
  Qed.

  Lemma aws_level s b y : S s < F -> y < Ds s -> b * Ds (S s) + y < h -> (fst (Cs s y) <> 0)%Z ->
    exists nb, 0 < nb /\ nb <= fac (S s) /\ clg nb <= alen (P0 + S s) /\
      (forall k, k < fac (S s) -> (b * Ds (S s) + y + k * Ds s < h <-> k < nb)) /\
      (forall t e, t < nb -> e < clg nb ->
        nth e (aws (b * Ds (S s) + y + t * Ds s) (P0 + S s)) 0 = b * Ds (S s) + y + ((t + 2 ^ e) mod nb) * Ds s).
  Proof.
    intros Hs Hy Hh NZ.
    pose proof (DP f0 fac f0_pos fac_pos s) as Dp. pose proof (DP f0 fac f0_pos fac_pos (S s)) as Dp'.
    assert (ED : Ds (S s) = fac (S s) * Ds s) by (unfold D; cbn [H]; ring).
    assert (Blk : forall t, t < fac (S s) ->
      (b * Ds (S s) + y + t * Ds s) / Ds (S s) = b /\
      (b * Ds (S s) + y + t * Ds s) mod Ds (S s) = y + t * Ds s /\
      (y + t * Ds s) / Ds s = t /\ (y + t * Ds s) mod Ds s = y).
    { intros t Ht.
      assert (L : y + t * Ds s < Ds (S s)).
      { rewrite ED. apply Nat.lt_le_trans with (S t * Ds s); [cbn [mult]; lia|]. apply Nat.mul_le_mono_r. lia. }
      replace (b * Ds (S s) + y + t * Ds s) with (y + t * Ds s + b * Ds (S s)) by lia.
      rewrite Nat.div_add, Nat.mod_add by lia. rewrite Nat.div_small, Nat.mod_small by auto.
      rewrite Nat.div_add, Nat.mod_add by lia. rewrite Nat.div_small, Nat.mod_small by auto. auto. }
    set (r0 := b * Ds (S s) + y) in *.
    destruct (Blk 0 (fac_pos (S s))) as (B1 & B2 & B3 & B4).
    set (nb := nbr h f0 fac s r0).
    assert (Sp : forall k, k < fac (S s) -> (r0 + k * Ds s < h <-> k < nb)).
    { intros k Hk. pose proof (nbr_spec h sz f0 fac F f0_pos fac_pos h_pos F_pos h_v whole s r0 k Hk) as Q.
      fold nb in Q. replace (r0 + 0 * Ds s) with r0 in B1, B2 by lia.
      rewrite B1, B2, B4 in Q. exact Q. }
    pose proof (nbr_le h sz f0 fac F f0_pos fac_pos h_pos F_pos h_v whole s r0) as Le. fold nb in Le.
    assert (P : 0 < nb). { apply (Sp 0); [apply fac_pos|]. lia. }
    exists nb. split; [exact P|]. split; [exact Le|]. split.
    { unfold alen. rewrite (proj2 (Nat.leb_gt _ _)), (proj2 (Nat.ltb_lt _ _)) by lia.
      replace (P0 + S s - P0 - 1) with s by lia. now apply clg_mono. }
    split; [exact Sp|]. intros t e Ht He.
    destruct (Blk t ltac:(lia)) as (C1 & C2 & C3 & C4).
    assert (Hr : r0 + t * Ds s < h) by (apply Sp; lia).
    unfold aws. rewrite (proj2 (Nat.leb_gt _ _)), (proj2 (Nat.ltb_lt _ _)) by lia.
    replace (P0 + S s - P0 - 1) with s by lia.
    unfold wlev. rewrite (proj2 (Nat.ltb_lt _ _) Hr). unfold busy. rewrite C2, C4.
    rewrite (proj2 (Z.eqb_neq _ _) NZ). cbn [andb negb].
    assert (En : nbr h f0 fac s (r0 + t * Ds s) = nb).
    { unfold nb, nbr. rewrite C1, C2, C4. replace (r0 + 0 * Ds s) with r0 in B1, B2 by lia.
      rewrite B1, B2, B4. reflexivity. }
    rewrite En. rewrite nth_rounds by auto. rewrite C1, C3. reflexivity.
  Qed.

  Notation prog := (iprog aws aacts (P0 + F + 2)).

  Lemma busyall_n : busyall = true -> h = n /\ nB = h.
  Proof.
    unfold all_busy. rewrite andb_true_iff, Nat.eqb_eq, negb_true_iff. intros (E & S).
    split; auto. destruct shape as [(E' & _)|(_ & _ & S')]; auto. congruence.
  Qed.

  Lemma afin c o : c < n -> o < h -> (fst (Cs (F - 1) o) <> 0)%Z ->
    (forall d m, knows prog o (cum alen (P0 + F)) d m -> knows prog c (cum alen (P0 + F + 2)) d m) /\
    (o <> c -> knows prog c (cum alen (P0 + F + 2)) o (cum alen (P0 + F))).
  Proof.
    intros Hc Ho NZ. pose proof h_n as Hn.
    assert (M1 : forall k, cum alen (P0 + F + 1 + k) >= cum alen (P0 + F + 1)).
    { intros k. apply (cum_mono alen aws aacts). lia. }
    destruct busyall eqn:AB.
    - destruct (busyall_n AB) as (E & EB).
      assert (Dm := disseminate n alen aws aacts aws_len aws_n (P0 + F + 2) (fun t => t) n (P0 + F)).
      specialize (Dm ltac:(lia) ltac:(lia) ltac:(auto)).
      assert (W1 : clg n <= alen (P0 + F)).
      { unfold alen. rewrite (proj2 (Nat.leb_gt _ _)), (proj2 (Nat.ltb_ge _ _)), Nat.eqb_refl, AB, E by lia. auto. }
      specialize (Dm W1). cbv beta in Dm.
      assert (W2 : forall t e, t < n -> e < clg n -> nth e (aws t (P0 + F)) 0 = (t + 2 ^ e) mod n).
      { intros t e Ht He. unfold aws. rewrite (proj2 (Nat.leb_gt _ _)), (proj2 (Nat.ltb_ge _ _)), Nat.eqb_refl by lia.
        unfold wfin. rewrite AB, E. unfold diss. rewrite <- (app_nil_r (rounds _ _)). now rewrite nth_rounds by auto. }
      specialize (Dm W2 c o Hc ltac:(lia)). destruct Dm as (D1 & D2).
      replace (S (P0 + F)) with (P0 + F + 1) in D1, D2 by lia.
      specialize (M1 1). replace (P0 + F + 1 + 1) with (P0 + F + 2) in M1 by lia.
      split; [intros d m K|intros N]; eapply k_mono; eauto.
    - assert (Bo : In o blist_).
      { apply (blist_in h ts sz f0 fac F ts_pos sz_pos sz_ts f0_pos fac_pos h_pos F_pos h_v whole). auto. }
      pose proof (blist_zero h ts sz f0 fac F ts_pos sz_pos sz_ts f0_pos fac_pos h_pos F_pos h_v whole) as B0.
      pose proof (nB_pos h ts sz f0 fac F ts_pos sz_pos sz_ts f0_pos fac_pos h_pos F_pos h_v whole) as Np.
      pose proof (blist_nodup h ts sz f0 fac F f0_pos fac_pos h_pos F_pos h_v whole) as ND.
      assert (Dm := disseminate n alen aws aacts aws_len aws_n (P0 + F + 2) (fun t => nth t blist_ 0) nB (P0 + F)).
      specialize (Dm ltac:(lia) Np).
      assert (W0 : forall t, t < nB -> nth t blist_ 0 < n).
      { intros t Ht. apply Nat.lt_le_trans with h; auto. apply blist_n, nth_In. auto. }
      specialize (Dm W0).
      assert (W1 : clg nB <= alen (P0 + F)).
      { unfold alen. rewrite (proj2 (Nat.leb_gt _ _)), (proj2 (Nat.ltb_ge _ _)), Nat.eqb_refl, AB by lia. auto. }
      specialize (Dm W1). cbv beta in Dm.
      assert (W2 : forall t e, t < nB -> e < clg nB ->
        nth e (aws (nth t blist_ 0) (P0 + F)) 0 = nth ((t + 2 ^ e) mod nB) blist_ 0).
      { intros t e Ht He. unfold aws. rewrite (proj2 (Nat.leb_gt _ _)), (proj2 (Nat.ltb_ge _ _)), Nat.eqb_refl by lia.
        unfold wfin. rewrite AB.
        assert (I : In (nth t blist_ 0) blist_) by (apply nth_In; auto).
        apply (blist_in h ts sz f0 fac F ts_pos sz_pos sz_ts f0_pos fac_pos h_pos F_pos h_v whole) in I.
        destruct I as (I1 & I2). rewrite (proj2 (Nat.ltb_lt _ _) I1), (proj2 (Z.eqb_neq _ _) I2). cbn [andb negb].
        rewrite <- (app_nil_r (rounds _ _)). rewrite nth_rounds by auto.
        rewrite (index_nth h sz f0 fac F f0_pos fac_pos h_pos F_pos h_v whole) by auto. reflexivity. }
      specialize (Dm W2).
      destruct (index_spec h sz f0 fac F f0_pos fac_pos h_pos F_pos h_v whole o blist_ Bo) as (O1 & O2).
      destruct (index_spec h sz f0 fac F f0_pos fac_pos h_pos F_pos h_v whole 0 blist_ B0) as (Z1 & Z2).
      specialize (Dm _ _ Z1 O1). rewrite O2, Z2 in Dm. destruct Dm as (D1 & D2).
      assert (Le1 : 0 < alen (P0 + F + 1)).
      { unfold alen. rewrite (proj2 (Nat.leb_gt _ _)), (proj2 (Nat.ltb_ge _ _)), (proj2 (Nat.eqb_neq _ _)), Nat.eqb_refl, AB by lia. lia. }
      assert (Iw := item_wait n alen aws aacts aws_len aws_n (P0 + F + 2) c (P0 + F + 1) 0 Hc ltac:(lia) Le1).
      assert (Ew : nth 0 (aws c (P0 + F + 1)) 0 = 0).
      { unfold aws. rewrite (proj2 (Nat.leb_gt _ _)), (proj2 (Nat.ltb_ge _ _)), (proj2 (Nat.eqb_neq _ _)), Nat.eqb_refl by lia.
        unfold wend. rewrite AB. reflexivity. }
      rewrite Ew in Iw. destruct Iw as (I1 & I2).
      replace (S (P0 + F + 1)) with (P0 + F + 2) in I1, I2 by lia.
      replace (S (P0 + F)) with (P0 + F + 1) in D1, D2 by lia.
      split; [intros d m K; auto|intros N].
      destruct (Nat.eq_dec o 0) as [->|NO].
      + eapply k_down; [exact I1|]. apply (cum_mono alen aws aacts). lia.
      + apply I2. apply D2. auto.
  Qed.

  (* ---- what the prefix has to satisfy ---- *)
  Hypothesis pre_cells : forall c i a, c < n -> i <= P0 -> touches actsP c i a ->
    exists inst x, a = addr inst x /\ (0 <= x < sz)%Z /\ (inst < Hs (F - 1) -> inst * f0 < h).
  Hypothesis pre_know : forall inst y x d i, inst * f0 + y < h -> y < f0 -> region ts sz f0 fac 0 y x ->
    d < n -> d <> inst * f0 + y -> i <= P0 -> touches actsP d i (addr inst x) ->
    knows prog (inst * f0 + y) (cum alen (S P0)) d (cum alen (S i)).
  Hypothesis pre_race : forall c d i j k1 d1 s1 k2 d2 s2, c < n -> d < n -> c <> d -> i <= P0 -> j <= P0 ->
    In (k1, d1, s1) (actsP c i) -> In (k2, d2, s2) (actsP d j) -> clash k1 d1 s1 k2 d2 s2 ->
    knows prog d (cum alen (S j)) c (cum alen (S i)) \/ knows prog c (cum alen (S i)) d (cum alen (S j)).
  Hypothesis pre_sep : forall c i, c < n -> 0 < i -> i <= P0 -> lenP i = 0 -> actsP c i = [].

  Lemma aacts_P c i : i <= P0 -> aacts c i = actsP c i.
  Proof. intros Hi. unfold aacts. now rewrite (proj2 (Nat.leb_le _ _) Hi). Qed.

  Lemma pre_cells' c i a : c < n -> i <= P0 -> touches aacts c i a ->
    exists inst x, a = addr inst x /\ (0 <= x < sz)%Z /\ (inst < Hs (F - 1) -> inst * f0 < h).
  Proof. intros Hc Hi T. apply (pre_cells c i a); auto. unfold touches in *. now rewrite aacts_P in T. Qed.
  Lemma pre_know' inst y x d i : inst * f0 + y < h -> y < f0 -> region ts sz f0 fac 0 y x ->
    d < n -> d <> inst * f0 + y -> i <= P0 -> touches aacts d i (addr inst x) ->
    knows prog (inst * f0 + y) (cum alen (S P0)) d (cum alen (S i)).
  Proof. intros ? ? ? ? ? Hi T. apply (pre_know inst y x d i); auto. unfold touches in *. now rewrite aacts_P in T. Qed.
  Lemma pre_race' c d i j k1 d1 s1 k2 d2 s2 : c < n -> d < n -> c <> d -> i <= P0 -> j <= P0 ->
    In (k1, d1, s1) (aacts c i) -> In (k2, d2, s2) (aacts d j) -> clash k1 d1 s1 k2 d2 s2 ->
    knows prog d (cum alen (S j)) c (cum alen (S i)) \/ knows prog c (cum alen (S i)) d (cum alen (S j)).
  Proof.
    intros Hc Hd Ne Hi Hj I J Cl. rewrite aacts_P in I, J by auto.
    exact (pre_race c d i j k1 d1 s1 k2 d2 s2 Hc Hd Ne Hi Hj I J Cl).
  Qed.

  Lemma addr_inj i x i' x' : (0 <= x < sz)%Z -> (0 <= x' < sz)%Z -> addr i x = addr i' x' -> i = i' /\ x = x'.
  Proof. apply iaddr_inj. exact fast_sz. Qed.

  Lemma sz_nn : (0 <= sz)%Z. Proof. lia. Qed.

  Lemma asm_race_free : race_free n prog.
  Proof.
    exact (tree_race_free n h F P0 alen aws aacts ts sz f0 fac addr ts_pos sz_nn sz_ts f0_pos fac_pos F_pos h_n h_v
      addr_inj aws_len aws_n pre_cells' pre_know' pre_race' aacts_level aacts_final aown aws_level).
  Qed.

  Lemma aacts_sep c i : c < n -> 0 < i -> alen i = 0 -> aacts c i = [].
  Proof.
    intros Hc Hi. unfold alen, aacts. destruct (Nat.leb_spec i P0); [apply pre_sep; auto|].
    destruct (Nat.ltb_spec i (P0 + F)); [|reflexivity]. intros E.
    destruct (c <? h); [|reflexivity]. unfold level_acts. destruct (Cs _ _) as (a & b).
    assert (fac (S (i - P0 - 1)) = 1) as ->.
    { pose proof (fac_pos (S (i - P0 - 1))) as Q. destruct (Nat.eq_dec (fac (S (i - P0 - 1))) 1); auto.
      assert (0 < clg (fac (S (i - P0 - 1)))) by (apply Nat.log2_up_pos; lia). lia. }
    reflexivity.
  Qed.

  (* ---- the program text ---- *)
  Lemma asm_code c : c < n ->
    flat_map (item wsP actsP c) (seq 0 (S P0)) ++
    micro_code (reduce_copies (Z.of_nat h) (factors_ f0 fac F) sz ts (Z.of_nat c) fast subset) = prog c.
  Proof.
    intros Hc. rewrite (copies_code h ts sz f0 fac F fast subset ts_pos sz_pos sz_ts f0_pos fac_pos h_pos F_pos h_v whole c (core_case c Hc)).
    unfold iprog. replace (P0 + F + 2) with (S P0 + ((F - 1) + 2)) by lia.
    rewrite (seq_app (S P0) _ 0), flat_map_app. f_equal.
    - apply flat_map_eq_in. intros i Hi. apply in_seq in Hi. unfold item. rewrite aacts_P by lia.
      unfold aws. rewrite (proj2 (Nat.leb_le i P0)) by lia. reflexivity.
    - rewrite seq_app, flat_map_app, !micro_app. cbn [plus]. f_equal.
      + assert (Ef : forall l : list nat, Forall (fun t => S t < F) l ->
          micro_code (flat_map (fun t => bar c (wlev h ts sz f0 fac t c) ++ lmoves h ts sz f0 fac F fast t c) l) =
          flat_map (item aws aacts c) (map (fun t => S P0 + t) l)).
        { induction 1 as [|t l Ht _ IH]; [reflexivity|]. cbn [flat_map map]. rewrite !micro_app, IH. f_equal.
          unfold item, aws. rewrite (proj2 (Nat.leb_gt _ _)), (proj2 (Nat.ltb_lt _ _)) by lia.
          replace (S P0 + t - P0 - 1) with t by lia.
          replace (S P0 + t) with (P0 + S t) by lia. rewrite aacts_level by auto.
          rewrite micro_bar. f_equal.
          destruct (lmoves_acts h ts sz f0 fac F fast ts_pos sz_pos sz_ts f0_pos fac_pos h_pos F_pos h_v whole t c Ht (core_case' c Hc)) as (L1 & L2).
          rewrite micro_moves by auto. now rewrite L2. }
        rewrite Ef.
        * f_equal. clear. generalize (F - 1) as k. intros k. change (S (P0)) with (S P0).
          assert (Q : forall k a b, map (fun t => a + t) (seq b k) = seq (a + b) k).
          { induction k0 as [|k0 IH]; intros a b; simpl; auto. rewrite IH. f_equal. f_equal. lia. }
          rewrite Q. f_equal. lia.
        * apply Forall_forall. intros t I. apply in_seq in I. lia.
      + replace (S (P0 + (F - 1))) with (P0 + F) by lia. cbn [seq flat_map]. rewrite app_nil_r.
        replace (S (P0 + F)) with (P0 + F + 1) by lia.
        unfold item. rewrite !aacts_final by lia. cbn [map]. rewrite !app_nil_r, !micro_bar.
        unfold aws. rewrite !(proj2 (Nat.leb_gt _ _)), !(proj2 (Nat.ltb_ge _ _)), Nat.eqb_refl, (proj2 (Nat.eqb_neq _ _)), Nat.eqb_refl by lia.
        reflexivity.
  Qed.

  (* ---- the values ---- *)
  Context {V : Type} (op : V -> V -> V) (e : V) (send : nat -> Z -> V).
  Hypothesis op_assoc : forall a b c, op a (op b c) = op (op a b) c.
  Hypothesis op_e_l : forall a, op e a = a.
  Hypothesis op_e_r : forall a, op a e = a.
  Context (u : nat -> Z -> V) (m0 : Z -> V).
  Hypothesis ghosts : forall i x, h <= i * f0 -> u i x = e.
  Hypothesis real_whole : h mod f0 = 0.
  Hypothesis init : forall i x, i < Hs (F - 1) -> (0 <= x < sz)%Z ->
    fold_left (fun m i => item_phase n actsP op send i m) (seq 0 (S P0)) m0 (addr i x) = u i x.
  Hypothesis few_waits : (Z.of_nat (cum alen (P0 + F + 2)) < 2 ^ 31)%Z.

  Lemma asm_ok c : c < n -> okb n c false (prog c).
  Proof. intros Hc. now apply (ok_iprog n aws aacts aws_n). Qed.
  Lemma asm_K c : c < n -> nW (prog c) = cum alen (P0 + F + 2).
  Proof. intros Hc. now apply (nW_iprog n alen aws aacts aws_len aws_n). Qed.

  Lemma init' i x : i < Hs (F - 1) -> (0 <= x < sz)%Z ->
    fold_left (fun m i => item_phase n aacts op send i m) (seq 0 (S P0)) m0 (addr i x) = u i x.
  Proof.
    intros Hi Hx. rewrite <- init by auto.
    apply (f_equal (fun m => m (addr i x))). apply fold_left_eq. intros m j I. apply in_seq in I.
    unfold item_phase. apply fold_left_eq. intros m' c _. now rewrite aacts_P by lia.
  Qed.

  Lemma asm_value c0 t s c x : run n prog op send c0 m0 t s -> c < n -> rest s c = [] -> (0 <= x < sz)%Z ->
    mem s (addr 0 x) = bsum op e u 0 (Hs (F - 1)) x.
  Proof.
    intros R Hc Re Hx.
    rewrite (final_value n prog _ asm_ok asm_K (near_small n prog _ few_waits) op send c0 m0 t s c (addr 0 x) asm_race_free R Hc Re).
    - exact (tree_value n h F P0 alen aws aacts ts sz f0 fac addr ts_pos sz_nn sz_ts f0_pos fac_pos F_pos h_n h_v
        addr_inj aws_len aws_n pre_cells' pre_know' pre_race' aacts_level aacts_final aown aws_level afin
        op e send op_assoc op_e_l op_e_r u ghosts real_whole aacts_sep m0 x h_pos Hx init').
    - intros d j k dd s1 Hd Nd I E.
      exact (tree_final n h F P0 alen aws aacts ts sz f0 fac addr ts_pos sz_nn sz_ts f0_pos fac_pos F_pos h_n h_v
        addr_inj aws_len aws_n pre_cells' pre_know' pre_race' aacts_level aacts_final aown aws_level afin
        c x d j k dd s1 Hc Hx h_pos Hd Nd I E).
  Qed.

  Lemma asm_lock x : (0 <= x < sz)%Z ->
    lock n prog (cum alen (P0 + F + 2)) op send m0 (addr 0 x) = bsum op e u 0 (Hs (F - 1)) x.
  Proof.
    intros Hx.
    exact (tree_value n h F P0 alen aws aacts ts sz f0 fac addr ts_pos sz_nn sz_ts f0_pos fac_pos F_pos h_n h_v
        addr_inj aws_len aws_n pre_cells' pre_know' pre_race' aacts_level aacts_final aown aws_level afin
        op e send op_assoc op_e_l op_e_r u ghosts real_whole aacts_sep m0 x h_pos Hx init').
  Qed.
  Lemma asm_final c x d j k s1 : c < n -> (0 <= x < sz)%Z -> d < n -> d <> c ->
    In (k, addr 0 x, s1) (segm (prog d) j) -> knows prog c (cum alen (P0 + F + 2)) d j.
  Proof.
    intros Hc Hx Hd Nd I.
    exact (tree_final n h F P0 alen aws aacts ts sz f0 fac addr ts_pos sz_nn sz_ts f0_pos fac_pos F_pos h_n h_v
        addr_inj aws_len aws_n pre_cells' pre_know' pre_race' aacts_level aacts_final aown aws_level afin
        c x d j k (addr 0 x) s1 Hc Hx h_pos Hd Nd I eq_refl).
  Qed.
  Lemma asm_full c d i inst x : c < n -> d < n -> d <> c -> inst < Hs (F - 1) -> (0 <= x < sz)%Z ->
    i <= P0 -> touches actsP d i (addr inst x) -> knows prog c (cum alen (P0 + F + 2)) d (cum alen (S i)).
  Proof.
    intros Hc Hd Ne Hi Hx L T.
    assert (T' : touches aacts d i (addr inst x)) by (unfold touches in *; now rewrite aacts_P).
    exact (tree_full n h F P0 alen aws aacts ts sz f0 fac addr ts_pos sz_nn sz_ts f0_pos fac_pos F_pos h_n h_v
        addr_inj aws_len aws_n pre_cells' pre_know' pre_race' aacts_level aacts_final aown aws_level afin
        c d i inst x Hc Hd Ne h_pos Hi Hx (Nat.lt_le_trans i (S P0) (P0 + F) (proj2 (Nat.lt_succ_r i P0) L)
          (eq_ind (P0 + 1) (fun q => q <= P0 + F) (proj1 (Nat.add_le_mono_l 1 F P0) F_pos) (S P0) (Nat.add_1_r P0))) T').
  Qed.
  Lemma asm_ghost c k inst x s1 : c < n -> inst < Hs (F - 1) -> (0 <= x < sz)%Z ->
    In (MAct k (addr inst x) s1) (prog c) -> inst * f0 < h.
  Proof.
    intros Hc Hi Hx I. unfold iprog in I. apply in_flat_map in I. destruct I as (i & _ & I).
    unfold item in I. apply in_app_or in I. destruct I as [I|I].
    - unfold pairs in I. apply in_flat_map in I. destruct I as (w & _ & [I|[I|[]]]); discriminate.
    - apply in_map_iff in I. destruct I as ([[k' d'] s'] & E & I). injection E as -> -> ->.
      exact (tree_ghost n h F P0 alen aws aacts ts sz f0 fac addr ts_pos sz_nn sz_ts f0_pos fac_pos F_pos h_n h_v
        addr_inj aws_len aws_n pre_cells' pre_know' pre_race' aacts_level aacts_final aown aws_level afin
        c i k inst x s1 Hc Hi Hx I).
  Qed.
End Assemble.
