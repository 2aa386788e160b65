From Verif Require Import Base BarrierModel.

Section Shift.
  Context (dir : direction) (n : nat).
  Hypothesis Hn : 0 < n.

  Definition sh := partner dir n.

  Lemma sh_lt i d : sh i d < n.
  Proof. unfold sh, partner. destruct dir; apply Nat.mod_upper_bound; lia. Qed.

  Lemma sh_0 i : i < n -> sh i 0 = i.
  Proof.
    intros. unfold sh, partner. destruct dir.
    - rewrite Nat.add_0_r. now apply Nat.mod_small.
    - rewrite Nat.mod_0_l, Nat.sub_0_r by lia.
      replace (i + n) with (i + 1 * n) by lia. rewrite Nat.mod_add by lia.
      now apply Nat.mod_small.
  Qed.

  Lemma sub_mod_Z d : Z.of_nat (n - d mod n) = (Z.of_nat n - Z.of_nat d mod Z.of_nat n)%Z.
  Proof.
    rewrite Nat2Z.inj_sub by (pose proof (Nat.mod_upper_bound d n); lia).
    now rewrite Nat2Z.inj_mod.
  Qed.

  Lemma sh_Z i d : Z.of_nat (sh i d) =
    ((Z.of_nat i + match dir with Up => Z.of_nat d | Down => - Z.of_nat d end) mod Z.of_nat n)%Z.
  Proof.
    unfold sh, partner. destruct dir.
    - now rewrite Nat2Z.inj_mod, Nat2Z.inj_add.
    - rewrite Nat2Z.inj_mod, Nat2Z.inj_add, sub_mod_Z.
      replace (Z.of_nat i + (Z.of_nat n - Z.of_nat d mod Z.of_nat n))%Z
        with ((Z.of_nat i - Z.of_nat d mod Z.of_nat n) + 1 * Z.of_nat n)%Z by ring.
      rewrite Z_mod_plus_full. rewrite Zminus_mod_idemp_r. reflexivity.
  Qed.

  Lemma sh_add i a b : sh (sh i a) b = sh i (a + b).
  Proof.
    apply Nat2Z.inj. rewrite !sh_Z. rewrite Zplus_mod_idemp_l, Nat2Z.inj_add.
    f_equal. destruct dir; ring.
  Qed.

  Lemma sh_all i j : i < n -> j < n -> exists d, d < n /\ sh i d = j.
  Proof.
    intros Hi Hj.
    exists (match dir with Up => (j + n - i) mod n | Down => (i + n - j) mod n end).
    split. { destruct dir; apply Nat.mod_upper_bound; lia. }
    apply Nat2Z.inj. rewrite sh_Z.
    destruct dir; rewrite Nat2Z.inj_mod, Nat2Z.inj_sub, Nat2Z.inj_add by lia.
    - rewrite Zplus_mod_idemp_r.
      replace (Z.of_nat i + (Z.of_nat j + Z.of_nat n - Z.of_nat i))%Z
        with (Z.of_nat j + 1 * Z.of_nat n)%Z by ring.
      rewrite Z_mod_plus_full. apply Z.mod_small. lia.
    - rewrite Z.add_opp_r, Zminus_mod_idemp_r.
      replace (Z.of_nat i - (Z.of_nat i + Z.of_nat n - Z.of_nat j))%Z
        with (Z.of_nat j + (-1) * Z.of_nat n)%Z by ring.
      rewrite Z_mod_plus_full. apply Z.mod_small. lia.
  Qed.
End Shift.

Lemma reached_iff a b : (- 2^31 <= a - b < 2^31)%Z ->
  not_reached (wrap a) (wrap b) = (a <? b)%Z.
Proof.
  intros H. unfold not_reached, wrap.
  rewrite Zminus_mod_idemp_l, Zminus_mod_idemp_r.
  destruct (Z.ltb_spec a b).
  - apply Z.ltb_lt. replace ((a - b) mod 2^32)%Z with (a - b + 2^32)%Z; [lia|].
    rewrite <- (Z_mod_plus_full _ 1). symmetry. rewrite Z.mul_1_l. apply Z.mod_small. lia.
  - apply Z.ltb_ge. rewrite Z.mod_small; lia.
Qed.

Lemma wrap_succ a : wrap (wrap a + 1) = wrap (a + 1).
Proof. unfold wrap. now rewrite Zplus_mod_idemp_l. Qed.

Section Proofs.
  Context (dir : direction) (n : nat).
  Hypothesis Hn : 0 < n.
  (* [L] is the number of rounds. *)
  Context (L : nat).
  Hypothesis HL1 : n <= 2 ^ L.
  Hypothesis HL2 : forall k, k < L -> 2 ^ k < n.
  Hypothesis HL3 : L <= 100.
  Context (c0 : Z).

  Notation sh := (sh dir n).

  Definition kOf (c : core) : nat := Nat.log2 (step c).

  (* Number of stores a core has made so far. *)
  Definition writes (c : core) : nat :=
    left_ c * L + match pc c with
                  | Outside => 0
                  | AtWrite => kOf c
                  | AtPoll => kOf c + 1
                  end.

  Definition good (c : core) : Prop :=
    match pc c with
    | Outside => entered c = left_ c /\ count c = wrap (c0 + Z.of_nat (left_ c * L))
    | _ => entered c = S (left_ c) /\ step c = 2 ^ (kOf c) /\ kOf c < L /\
           count c = wrap (c0 + Z.of_nat (left_ c * L + kOf c))
    end.

  (* What a core knows about the others. *)
  Definition knows (s : bstate) (i : nat) : Prop :=
    let c := cores s i in
    (forall j, j < n -> left_ c <= entered (cores s j)) /\
    match pc c with
    | Outside => True
    | _ => forall d, d < 2 ^ kOf c -> S (left_ c) <= entered (cores s (sh i d))
    end.

  Definition BInv (s : bstate) : Prop :=
    (forall i, i < n -> good (cores s i)) /\
    (forall i, i < n -> slots s i = wrap (c0 - 1 + Z.of_nat (writes (cores s i)))) /\
    (forall i, i < n -> knows s i).

  Lemma binv_init : BInv (binit c0).
  Proof.
    unfold BInv, binit, good, knows, writes; simpl. repeat split; intros; auto; try lia.
    all: f_equal; lia.
  Qed.

  Lemma kof_pow k c : step c = 2 ^ k -> kOf c = k.
  Proof. intros H. unfold kOf. rewrite H. apply Nat.log2_pow2. lia. Qed.

  (* The poll of core [i] succeeds exactly if its partner has made enough stores. *)
  Lemma poll_iff s i : BInv s -> i < n -> pc (cores s i) = AtPoll ->
    not_reached (slots s (partner dir n i (step (cores s i)))) (count (cores s i)) =
    (writes (cores s (sh i (2 ^ kOf (cores s i)))) <? writes (cores s i)).
  Proof.
    intros (HG & HS & HK) Hi Hpc.
    set (c := cores s i) in *. pose proof (HG i Hi) as Gi. fold c in Gi.
    unfold good in Gi. rewrite Hpc in Gi. destruct Gi as (Ge & Gs & Gk & Gc).
    set (j := sh i (2 ^ kOf c)). assert (Hj : j < n) by (apply sh_lt; auto).
    rewrite Gs at 1. change (partner dir n i (2 ^ kOf c)) with j.
    rewrite HS, Gc by auto.
    pose proof (HG j Hj) as Gj. pose proof (HK i Hi) as Ki. pose proof (HK j Hj) as Kj.
    assert (L1 : left_ c <= entered (cores s j)) by (apply Ki; auto).
    assert (L2 : left_ (cores s j) <= entered c) by (apply Kj; auto).
    assert (L3 : entered (cores s j) <= S (left_ (cores s j))).
    { unfold good in Gj. destruct (pc (cores s j)); lia. }
    assert (W1 : left_ (cores s j) * L <= writes (cores s j) <= S (left_ (cores s j)) * L).
    { unfold writes. unfold good in Gj. destruct (pc (cores s j)); lia. }
    assert (W2 : writes c = left_ c * L + kOf c + 1).
    { unfold writes. rewrite Hpc. lia. }
    assert (B1 : (left_ c) * L <= S (left_ (cores s j)) * L) by (apply Nat.mul_le_mono_r; lia).
    assert (B2 : S (left_ (cores s j)) * L <= S (S (left_ c)) * L)
      by (apply Nat.mul_le_mono_r; lia).
    assert (B3 : S (S (left_ c)) * L = left_ c * L + L + L) by lia.
    assert (B4 : S (left_ (cores s j)) * L = left_ (cores s j) * L + L) by lia.
    set (wj := writes (cores s j)) in *. set (wi := writes c) in *.
    set (x := left_ c * L) in *. set (y := left_ (cores s j) * L) in *.
    change (2^31)%Z with 2147483648%Z in *.
    rewrite reached_iff.
    - destruct (Nat.ltb_spec wj wi); [apply Z.ltb_lt|apply Z.ltb_ge]; lia.
    - change (2^31)%Z with 2147483648%Z. lia.
  Qed.

  (* Entering the next round, or leaving. *)
  Lemma loop_head_cases c : step c = 2 ^ kOf c -> kOf c <= L ->
    (kOf c < L /\ loop_head n c = Core AtWrite (step c) (count c) (entered c) (left_ c)) \/
    (kOf c = L /\ loop_head n c = Core Outside (step c) (count c) (entered c) (S (left_ c))).
  Proof.
    intros Hs Hk. unfold loop_head. destruct (Nat.ltb_spec (step c) n) as [H|H].
    - left. split; auto. destruct (Nat.eq_dec (kOf c) L); [|lia].
      rewrite Hs, e in H. lia.
    - right. split; auto. destruct (Nat.eq_dec (kOf c) L); auto.
      pose proof (HL2 (kOf c) ltac:(lia)). lia.
  Qed.

  Lemma entered_mono s i j : entered (cores s j) <= entered (cores (act dir n s i) j).
  Proof.
    unfold act. destruct (pc (cores s i)); simpl; unfold loop_head.
    - unfold upd. destruct (Nat.eq_dec j i) as [->|]; auto.
      destruct (_ <? _); simpl; lia.
    - unfold upd. destruct (Nat.eq_dec j i) as [->|]; auto.
    - destruct (not_reached _ _); auto. simpl. unfold upd.
      destruct (Nat.eq_dec j i) as [->|]; auto. destruct (_ <? _); simpl; lia.
  Qed.

  (* Knowledge of the cores that do not move is kept. *)
  Lemma knows_mono s s' i : cores s' i = cores s i ->
    (forall j, entered (cores s j) <= entered (cores s' j)) -> knows s i -> knows s' i.
  Proof.
    intros E M (K1 & K2). unfold knows. rewrite E. split.
    - intros j Hj. specialize (K1 j Hj). specialize (M j). lia.
    - destruct (pc (cores s i)); auto; intros d Hd; specialize (K2 d Hd);
        specialize (M (sh i d)); lia.
  Qed.

  Lemma binv_act s i : BInv s -> i < n -> BInv (act dir n s i).
  Proof.
    intros HB Hi. pose proof HB as (HG & HS & HK).
    pose proof (entered_mono s i) as M.
    pose proof (HG i Hi) as Gi. pose proof (HK i Hi) as Ki.
    destruct (pc (cores s i)) eqn:Hpc.
    - (* enter *)
      unfold good in Gi. rewrite Hpc in Gi. destruct Gi as (Ge & Gc).
      set (c1 := Core Outside 1 (count (cores s i)) (S (entered (cores s i))) (left_ (cores s i))).
      assert (E : act dir n s i = BState (upd Nat.eq_dec (cores s) i (loop_head n c1)) (slots s))
        by (unfold act; rewrite Hpc; reflexivity).
      assert (Hk1 : kOf c1 = 0) by reflexivity.
      destruct (loop_head_cases c1 ltac:(rewrite Hk1; reflexivity) ltac:(rewrite Hk1; lia))
        as [[Hlt Hlh]|[Heq Hlh]].
      + rewrite E in *. rewrite Hlh in *. clear E Hlh.
        split; [|split]; simpl; intros a Ha.
        * unfold upd. destruct (Nat.eq_dec a i) as [->|]; auto.
          unfold good; simpl. unfold kOf; simpl. change (Nat.log2 1) with 0. repeat split; auto; try lia.
          rewrite Gc, Nat.add_0_r. reflexivity.
        * rewrite HS by auto. unfold upd. destruct (Nat.eq_dec a i) as [->|]; auto.
          f_equal. f_equal. f_equal. unfold writes. rewrite Hpc. simpl. unfold kOf. simpl. change (Nat.log2 1) with 0. lia.
        * destruct (Nat.eq_dec a i) as [->|Hne].
          -- split; simpl; rewrite upd_same; simpl.
             ++ intros j Hj. destruct Ki as (K1 & _). specialize (K1 j Hj).
                specialize (M j). simpl in M. lia.
             ++ intros d Hd. unfold kOf in Hd. simpl in Hd. change (Nat.log2 1) with 0 in Hd. simpl in Hd.
                assert (d = 0) by lia. subst d. rewrite sh_0 by auto. rewrite upd_same. simpl. lia.
          -- apply knows_mono with s; auto. simpl. now rewrite upd_other.
      + rewrite E in *. rewrite Hlh in *. clear E Hlh.
        assert (HL0 : L = 0) by lia. assert (n = 1) by (rewrite HL0 in HL1; simpl in HL1; lia).
        split; [|split]; simpl; intros a Ha.
        * unfold upd. destruct (Nat.eq_dec a i) as [->|]; auto.
          unfold good; simpl. split; [lia|]. rewrite Gc. f_equal. lia.
        * rewrite HS by auto. unfold upd. destruct (Nat.eq_dec a i) as [->|]; auto.
          f_equal. f_equal. f_equal. unfold writes. rewrite Hpc. simpl. lia.
        * assert (a = i) by lia. subst a.
          split; simpl; rewrite upd_same; simpl; auto.
          intros j Hj. assert (j = i) by lia. subst j. rewrite upd_same. simpl. lia.
    - (* write *)
      unfold good in Gi. rewrite Hpc in Gi. destruct Gi as (Ge & Gs & Gk & Gc).
      set (c1 := Core AtPoll (step (cores s i)) (count (cores s i)) (entered (cores s i)) (left_ (cores s i))).
      assert (E : act dir n s i = BState (upd Nat.eq_dec (cores s) i c1)
                   (upd Nat.eq_dec (slots s) i (count (cores s i))))
        by (unfold act; rewrite Hpc; reflexivity).
      rewrite E in *. clear E.
      split; [|split]; simpl; intros a Ha.
      + unfold upd. destruct (Nat.eq_dec a i) as [->|]; auto.
        unfold good, c1, kOf; simpl. repeat split; auto.
      + unfold upd. destruct (Nat.eq_dec a i) as [->|]; auto.
        rewrite Gc. unfold writes, c1, kOf; simpl. f_equal. lia.
      + destruct (Nat.eq_dec a i) as [->|Hne].
        * destruct Ki as (K1 & K2). rewrite Hpc in K2.
          split; simpl; rewrite upd_same; simpl.
          -- intros j Hj. specialize (K1 j Hj). specialize (M j). simpl in M. lia.
          -- intros d Hd. specialize (K2 d Hd). specialize (M (sh i d)). simpl in M. lia.
        * apply knows_mono with s; auto. simpl. now rewrite upd_other.
    - (* poll *)
      pose proof (poll_iff s i HB Hi Hpc) as Hp.
      unfold good in Gi. rewrite Hpc in Gi. destruct Gi as (Ge & Gs & Gk & Gc).
      unfold act in *. rewrite Hpc in *. rewrite Hp in *.
      destruct (Nat.ltb_spec (writes (cores s (sh i (2 ^ kOf (cores s i))))) (writes (cores s i)))
        as [Hlt|Hge]; [exact HB|].
      set (c1 := Core AtPoll (step (cores s i) * 2) (wrap (count (cores s i) + 1))
                   (entered (cores s i)) (left_ (cores s i))) in *.
      set (k := kOf (cores s i)) in *.
      assert (Hs1 : step c1 = 2 ^ S k) by (simpl; rewrite Gs; simpl; lia).
      assert (Hk1 : kOf c1 = S k) by (apply kof_pow; auto).
      assert (Hc1 : count c1 = wrap (c0 + Z.of_nat (left_ (cores s i) * L + S k))).
      { simpl. rewrite Gc, wrap_succ. f_equal. lia. }
      assert (Know : forall d, d < 2 ^ S k -> S (left_ (cores s i)) <= entered (cores s (sh i d))).
      { destruct Ki as (K1 & K2). rewrite Hpc in K2. intros d Hd.
        destruct (lt_dec d (2 ^ k)) as [|Hge2]; [apply K2; auto|].
        set (j := sh i (2 ^ k)) in *. assert (Hj : j < n) by (apply sh_lt; auto).
        replace (sh i d) with (sh j (d - 2 ^ k)).
        2:{ unfold j. rewrite sh_add by auto. f_equal. lia. }
        pose proof (HK j Hj) as (J1 & J2). pose proof (HG j Hj) as Gj.
        assert (Hd2 : d - 2 ^ k < 2 ^ k) by (simpl in Hd; lia).
        assert (Hw : left_ (cores s i) * L + k + 1 <= writes (cores s j)).
        { unfold writes at 1 in Hge. rewrite Hpc in Hge. fold k in Hge. lia. }
        destruct (le_lt_dec (S (left_ (cores s i))) (left_ (cores s j))) as [Hle|Hlt].
        { specialize (J1 (sh j (d - 2 ^ k)) (sh_lt _ _ Hn _ _)). lia. }
        assert (Hlj : left_ (cores s j) = left_ (cores s i)).
        { destruct (Nat.eq_dec (left_ (cores s j)) (left_ (cores s i))); auto. exfalso.
          assert (S (left_ (cores s j)) * L <= left_ (cores s i) * L)
            by (apply Nat.mul_le_mono_r; lia).
          assert (writes (cores s j) <= S (left_ (cores s j)) * L).
          { unfold writes. unfold good in Gj. destruct (pc (cores s j)); lia. }
          lia. }
        unfold writes in Hw. rewrite Hlj in Hw. unfold good in Gj.
        destruct (pc (cores s j)) eqn:Pj.
        - lia.
        - rewrite <- Hlj. apply J2. apply Nat.lt_le_trans with (2 ^ k); auto.
          apply Nat.pow_le_mono_r; lia.
        - rewrite <- Hlj. apply J2. apply Nat.lt_le_trans with (2 ^ k); auto.
          apply Nat.pow_le_mono_r; lia. }
      destruct (loop_head_cases c1 ltac:(rewrite Hk1; exact Hs1) ltac:(rewrite Hk1; lia))
        as [[Hlt Hlh]|[Heq Hlh]].
      + rewrite Hlh in *. clear Hlh. simpl in M.
        split; [|split]; simpl; intros a Ha.
        * unfold upd. destruct (Nat.eq_dec a i) as [->|]; auto.
          unfold good; simpl.
          change (kOf (Core AtWrite (step (cores s i) * 2) (wrap (count (cores s i) + 1)) (entered (cores s i)) (left_ (cores s i)))) with (kOf c1).
          rewrite Hk1. repeat split; auto. lia.
        * rewrite HS by auto. unfold upd. destruct (Nat.eq_dec a i) as [->|]; auto.
          f_equal. f_equal. f_equal. unfold writes. rewrite Hpc. simpl.
          change (kOf (Core AtWrite (step (cores s i) * 2) (wrap (count (cores s i) + 1)) (entered (cores s i)) (left_ (cores s i)))) with (kOf c1).
          rewrite Hk1. fold k. lia.
        * destruct (Nat.eq_dec a i) as [->|Hne].
          -- destruct Ki as (K1 & K2).
             split; simpl; rewrite upd_same; simpl.
             ++ intros j Hj. specialize (K1 j Hj). specialize (M j). lia.
             ++ change (kOf (Core AtWrite (step (cores s i) * 2) (wrap (count (cores s i) + 1)) (entered (cores s i)) (left_ (cores s i)))) with (kOf c1).
                rewrite Hk1. intros d Hd. specialize (Know d Hd). specialize (M (sh i d)). lia.
          -- apply knows_mono with s; auto. simpl. now rewrite upd_other.
      + rewrite Hlh in *. clear Hlh. simpl in M.
        split; [|split]; simpl; intros a Ha.
        * unfold upd. destruct (Nat.eq_dec a i) as [->|]; auto.
          unfold good; simpl. split; [lia|]. simpl in Hc1. rewrite Hc1. f_equal. lia.
        * rewrite HS by auto. unfold upd. destruct (Nat.eq_dec a i) as [->|]; auto.
          f_equal. f_equal. f_equal. unfold writes. rewrite Hpc. simpl. fold k. lia.
        * destruct (Nat.eq_dec a i) as [->|Hne].
          -- split; simpl; rewrite upd_same; simpl; auto.
             intros j Hj. destruct (sh_all dir n Hn i j Hi Hj) as (d & Hd & <-).
             specialize (Know d). specialize (M (sh i d)).
             assert (d < 2 ^ S k) by (rewrite <- Hk1, Heq; lia). specialize (Know H). lia.
          -- apply knows_mono with s; auto. simpl. now rewrite upd_other.
  Qed.

  Lemma reachable_inv s : reachable dir n c0 s -> BInv s.
  Proof. induction 1; [apply binv_init|now apply binv_act]. Qed.

  Lemma barrier_safe s i j : reachable dir n c0 s -> i < n -> j < n ->
    left_ (cores s i) <= entered (cores s j).
  Proof. intros H Hi Hj. apply (reachable_inv s H); auto. Qed.

  (* Liveness. *)
  Definition prog_ (c : core) : nat :=
    left_ c * (2 * L + 1) + match pc c with
                  | Outside => 0
                  | AtWrite => 1 + 2 * kOf c
                  | AtPoll => 2 + 2 * kOf c
                  end.

  Definition sumn (f : nat -> nat) : nat := fold_right (fun i a => f i + a) 0 (seq 0 n).
  Definition mu (b : nat) (s : bstate) : nat :=
    sumn (fun i => b * (2 * L + 1) - prog_ (cores s i)).

  Definition bounded (b : nat) (s : bstate) : Prop :=
    forall i, i < n -> left_ (cores s i) <= b /\ (left_ (cores s i) = b -> pc (cores s i) = Outside).

  Lemma fold_lt (f g : nat -> nat) i l : In i l -> NoDup l -> f i < g i ->
    (forall j, j <> i -> f j = g j) ->
    fold_right (fun i a => f i + a) 0 l < fold_right (fun i a => g i + a) 0 l.
  Proof.
    induction l as [|x l IH]; simpl; [tauto|]. intros Hin ND Hi Hj.
    inversion ND as [|? ? Hx ND']; subst. destruct Hin as [->|Hin].
    - assert (E : fold_right (fun i a => f i + a) 0 l = fold_right (fun i a => g i + a) 0 l).
      { clear IH ND ND'. induction l as [|y l IH]; simpl; auto.
        simpl in Hx. rewrite (Hj y), IH; auto. }
      rewrite E. lia.
    - specialize (IH Hin ND' Hi Hj). rewrite (Hj x); [lia|]. intros ->. auto.
  Qed.

  Lemma mu_lt b s i c sl : i < n -> prog_ (cores s i) < prog_ c ->
    prog_ (cores s i) < b * (2 * L + 1) ->
    mu b (BState (upd Nat.eq_dec (cores s) i c) sl) < mu b s.
  Proof.
    intros Hi Hp Hb. unfold mu, sumn. apply fold_lt with i.
    - apply in_seq. lia.
    - apply seq_NoDup.
    - simpl. rewrite upd_same. lia.
    - intros j Hj. simpl. now rewrite upd_other.
  Qed.

  (* A productive action decreases the measure, others do not change the state. *)
  Lemma act_measure b s i : BInv s -> bounded b s -> i < n -> ~ finished b s i ->
    act dir n s i = s \/ (mu b (act dir n s i) < mu b s /\ bounded b (act dir n s i)).
  Proof.
    intros HB Hbd Hi Hnf. pose proof HB as (HG & HS & HK).
    pose proof (HG i Hi) as Gi. destruct (Hbd i Hi) as [B1 B2].
    assert (Hlb : left_ (cores s i) < b).
    { destruct (Nat.eq_dec (left_ (cores s i)) b) as [E|]; [|lia].
      exfalso. apply Hnf. split; auto. }
    assert (Hmul : S (left_ (cores s i)) * (2 * L + 1) <= b * (2 * L + 1))
      by (apply Nat.mul_le_mono_r; lia).
    assert (Hbnd : forall c sl, left_ c <= b -> (left_ c = b -> pc c = Outside) ->
       bounded b (BState (upd Nat.eq_dec (cores s) i c) sl)).
    { intros c sl C1 C2 j Hj. simpl. unfold upd. destruct (Nat.eq_dec j i); auto. }
    destruct (pc (cores s i)) eqn:Hpc.
    - right. unfold good in Gi. rewrite Hpc in Gi.
      set (c1 := Core Outside 1 (count (cores s i)) (S (entered (cores s i))) (left_ (cores s i))).
      assert (E : act dir n s i = BState (upd Nat.eq_dec (cores s) i (loop_head n c1)) (slots s))
        by (unfold act; rewrite Hpc; reflexivity).
      rewrite E.
      assert (Hk1 : kOf c1 = 0) by reflexivity.
      destruct (loop_head_cases c1 ltac:(rewrite Hk1; reflexivity) ltac:(rewrite Hk1; lia))
        as [[Hlt Hlh]|[Heq Hlh]]; rewrite Hlh; split.
      + apply mu_lt; auto; unfold prog_; rewrite Hpc; simpl; lia.
      + apply Hbnd; simpl; [lia|intros; lia].
      + apply mu_lt; auto; unfold prog_; rewrite Hpc; simpl; lia.
      + apply Hbnd; simpl; [lia|auto].
    - right. unfold good in Gi. rewrite Hpc in Gi.
      unfold act. rewrite Hpc. split.
      + apply mu_lt; auto; unfold prog_; rewrite Hpc; simpl; unfold kOf in *; simpl; lia.
      + apply Hbnd; simpl; [lia|intros; lia].
    - pose proof (poll_iff s i HB Hi Hpc) as Hp.
      unfold good in Gi. rewrite Hpc in Gi. destruct Gi as (Ge & Gs & Gk & Gc).
      unfold act. rewrite Hpc. destruct (not_reached _ _) eqn:Enr; [now left|right].
      set (c1 := Core AtPoll (step (cores s i) * 2) (wrap (count (cores s i) + 1))
                   (entered (cores s i)) (left_ (cores s i))) in *.
      set (k := kOf (cores s i)) in *.
      assert (Hs1 : step c1 = 2 ^ S k) by (simpl; rewrite Gs; simpl; lia).
      assert (Hk1 : kOf c1 = S k) by (apply kof_pow; auto).
      destruct (loop_head_cases c1 ltac:(rewrite Hk1; exact Hs1) ltac:(rewrite Hk1; lia))
        as [[Hlt Hlh]|[Heq Hlh]]; rewrite Hlh; split.
      + apply mu_lt; auto; unfold prog_; rewrite Hpc; cbn [pc left_].
        * change (kOf (Core AtWrite _ _ _ _)) with (kOf c1). rewrite Hk1. fold k. simpl. lia.
        * fold k. simpl in Hmul. lia.
      + apply Hbnd; simpl; [lia|intros; lia].
      + apply mu_lt; auto; unfold prog_; rewrite Hpc; cbn [pc left_].
        * fold k. simpl. lia.
        * fold k. simpl in Hmul. lia.
      + apply Hbnd; simpl; [lia|auto].
  Qed.

  Lemma argmin (f : nat -> nat) (l : list nat) : l <> [] ->
    exists x, In x l /\ forall y, In y l -> f x <= f y.
  Proof.
    induction l as [|a l IH]; [congruence|]. intros _.
    destruct l as [|b l].
    - exists a. split; simpl; auto. intros y [->|[]]; auto.
    - destruct IH as (x & Hx & Hm); [discriminate|].
      destruct (le_lt_dec (f a) (f x)).
      + exists a. split; [left; auto|]. intros y [->|Hy]; auto. specialize (Hm y Hy). lia.
      + exists x. split; [right; auto|]. intros y [->|Hy]; [lia|]. auto.
  Qed.

  Lemma finishedb_iff b s i : finishedb b s i = true <-> finished b s i.
  Proof.
    unfold finishedb, finished. destruct (pc (cores s i)).
    - rewrite Nat.eqb_eq. tauto.
    - split; [discriminate|]. intros []; discriminate.
    - split; [discriminate|]. intros []; discriminate.
  Qed.

  (* If not all cores are finished, some core can do something useful. *)
  Lemma some_enabled b s : BInv s -> bounded b s ->
    (exists i, i < n /\ ~ finished b s i) ->
    exists i, i < n /\ ~ finished b s i /\ act dir n s i <> s.
  Proof.
    intros HB Hbd (i0 & Hi0 & Hf0). pose proof HB as (HG & HS & HK).
    set (l := filter (fun i => negb (finishedb b s i)) (seq 0 n)).
    assert (Hl : forall i, In i l <-> i < n /\ ~ finished b s i).
    { intros i. unfold l. rewrite filter_In, in_seq, negb_true_iff.
      rewrite <- finishedb_iff. destruct (finishedb b s i); intuition (try lia; try congruence). }
    destruct (argmin (fun i => writes (cores s i)) l) as (i & Hi & Hmin).
    { intros E. assert (In i0 l) by (apply Hl; auto). rewrite E in H. auto. }
    apply Hl in Hi. destruct Hi as [Hi Hnf]. exists i. split; auto. split; auto.
    assert (Hne : act dir n s i = s -> mu b (act dir n s i) = mu b s) by (intros ->; auto).
    intros Heq.
    destruct (pc (cores s i)) eqn:Hpc.
    - assert (E := f_equal (fun s => entered (cores s i)) Heq). unfold act in E. rewrite Hpc in E.
      simpl in E. rewrite upd_same in E. unfold loop_head in E.
      destruct (_ <? _) in E; simpl in E; lia.
    - assert (E := f_equal (fun s => pc (cores s i)) Heq). unfold act in E. rewrite Hpc in E.
      simpl in E. rewrite upd_same in E. simpl in E. congruence.
    - pose proof (poll_iff s i HB Hi Hpc) as Hp.
      pose proof (HG i Hi) as Gi. unfold good in Gi. rewrite Hpc in Gi.
      destruct Gi as (Ge & Gs & Gk & Gc).
      set (j := sh i (2 ^ kOf (cores s i))) in *.
      assert (Hj : j < n) by (apply sh_lt; auto).
      assert (Hw : writes (cores s i) <= writes (cores s j)).
      { destruct (finishedb b s j) eqn:Ef.
        - apply finishedb_iff in Ef. destruct Ef as [Ep El].
          destruct (Hbd i Hi) as [B1 B2].
          assert (left_ (cores s i) < b).
          { destruct (Nat.eq_dec (left_ (cores s i)) b) as [E|]; [|lia].
            exfalso. apply Hnf. split; auto. }
          assert (S (left_ (cores s i)) * L <= b * L) by (apply Nat.mul_le_mono_r; lia).
          unfold writes. rewrite Hpc, Ep, El. simpl in H0. lia.
        - apply Hmin. apply Hl. split; auto. rewrite <- finishedb_iff. congruence. }
      assert (E := f_equal (fun s => step (cores s i)) Heq). unfold act in E. rewrite Hpc in E.
      rewrite Hp in E. destruct (Nat.ltb_spec (writes (cores s j)) (writes (cores s i))); [lia|].
      cbn [cores] in E. rewrite upd_same in E. unfold loop_head in E.
      assert (0 < step (cores s i)) by (rewrite Gs; apply Nat.neq_0_lt_0, Nat.pow_nonzero; lia).
      destruct (_ <? _) in E; simpl in E; lia.
  Qed.

  Section Fair.
    Context (b : nat) (sched : nat -> nat).
    Hypothesis Hsched : forall t, sched t < n.
    Hypothesis Hfair : forall i, i < n -> forall t, exists t', t <= t' /\ sched t' = i.

    Notation st := (exec_sched dir n b sched c0).

    Lemma bounded_init : bounded b (binit c0).
    Proof. intros i Hi. simpl. split; auto; lia. Qed.

    Lemma exec_inv t : BInv (st t) /\ bounded b (st t).
    Proof.
      induction t as [|t [IH1 IH2]]; [split; [apply binv_init|apply bounded_init]|].
      simpl. unfold act_upto. destruct (finishedb b (st t) (sched t)) eqn:Ef; [auto|].
      assert (Hnf : ~ finished b (st t) (sched t)) by (rewrite <- finishedb_iff; congruence).
      split; [now apply binv_act|].
      destruct (act_measure b (st t) (sched t) IH1 IH2 (Hsched t) Hnf) as [->|[_ ?]]; auto.
    Qed.

    Lemma exec_mono t : st (S t) = st t \/ mu b (st (S t)) < mu b (st t).
    Proof.
      destruct (exec_inv t) as [I1 I2]. simpl. unfold act_upto.
      destruct (finishedb b (st t) (sched t)) eqn:Ef; [now left|].
      assert (Hnf : ~ finished b (st t) (sched t)) by (rewrite <- finishedb_iff; congruence).
      destruct (act_measure b (st t) (sched t) I1 I2 (Hsched t) Hnf) as [->|[? _]]; auto.
    Qed.

    (* Between two times either nothing happened or the measure went down. *)
    Lemma exec_between t d : st (t + d) = st t \/ mu b (st (t + d)) < mu b (st t).
    Proof.
      induction d as [|d IH]; [left; f_equal; lia|].
      rewrite Nat.add_succ_r. destruct (exec_mono (t + d)) as [E|E], IH as [E'|E'].
      - left. congruence.
      - right. rewrite E. auto.
      - right. rewrite E' in E. auto.
      - right. lia.
    Qed.

    Lemma all_finished_dec s : (forall i, i < n -> finished b s i) \/
      (exists i, i < n /\ ~ finished b s i).
    Proof.
      destruct (forallb (finishedb b s) (seq 0 n)) eqn:E.
      - left. intros i Hi. apply finishedb_iff. rewrite forallb_forall in E. apply E.
        apply in_seq. lia.
      - right. assert (G : forall l, forallb (finishedb b s) l = false ->
          exists i, In i l /\ finishedb b s i = false).
        { induction l as [|a l IH]; simpl; [discriminate|].
          destruct (finishedb b s a) eqn:Ea; [|intros _; exists a; auto].
          intros H. destruct (IH H) as (i & ? & ?). exists i. auto. }
        destruct (G _ E) as (i & Hin & Hf). exists i. apply in_seq in Hin. split; [lia|].
        rewrite <- finishedb_iff. congruence.
    Qed.

    Lemma fair_finishes_from m : forall t, mu b (st t) = m ->
      exists t', t <= t' /\ forall i, i < n -> finished b (st t') i.
    Proof.
      induction m as [m IH] using lt_wf_ind. intros t Hm.
      destruct (all_finished_dec (st t)) as [Hall|Hex]; [exists t; auto|].
      destruct (exec_inv t) as [I1 I2].
      destruct (some_enabled b (st t) I1 I2 Hex) as (i & Hi & Hnf & Hen).
      destruct (Hfair i Hi t) as (t1 & Ht1 & Hs1).
      destruct (exec_between t (t1 - t)) as [E|E];
        replace (t + (t1 - t)) with t1 in E by lia.
      - assert (mu b (st (S t1)) < mu b (st t)).
        { simpl. rewrite E, Hs1. unfold act_upto.
          destruct (finishedb b (st t) i) eqn:Ef; [apply finishedb_iff in Ef; contradiction|].
          destruct (act_measure b (st t) i I1 I2 Hi Hnf) as [?|[? _]]; [contradiction|auto]. }
        destruct (IH (mu b (st (S t1))) ltac:(lia) (S t1) eq_refl) as (t' & ? & ?).
        exists t'. split; auto; lia.
      - destruct (IH (mu b (st t1)) ltac:(lia) t1 eq_refl) as (t' & ? & ?).
        exists t'. split; auto; lia.
    Qed.

    Lemma fair_finishes : exists t, forall i, i < n -> finished b (st t) i.
    Proof. destruct (fair_finishes_from _ 0 eq_refl) as (t & _ & H). eauto. Qed.
  End Fair.
End Proofs.

(* Number of rounds for a given number of cores. *)
Lemma rounds n : 0 < n -> (Z.of_nat n < 2^31)%Z ->
  n <= 2 ^ Nat.log2_up n /\ (forall k, k < Nat.log2_up n -> 2 ^ k < n) /\ Nat.log2_up n <= 100.
Proof.
  intros Hn Hlt.
  assert (H2 : forall k, k < Nat.log2_up n -> 2 ^ k < n).
  { intros k Hk. destruct (le_lt_dec n (2 ^ k)) as [H|]; auto.
    apply Nat.log2_up_le_mono in H. rewrite Nat.log2_up_pow2 in H by lia. lia. }
  split; [|split; auto].
  - destruct (Nat.eq_dec n 1) as [->|]; [simpl; lia|].
    apply Nat.log2_up_spec. lia.
  - destruct (le_lt_dec (Nat.log2_up n) 100) as [|H]; auto.
    apply H2 in H. apply inj_lt in H. rewrite Nat2Z.inj_pow in H. exfalso.
    change (Z.of_nat 2 ^ Z.of_nat 100)%Z with (2^100)%Z in H.
    assert (2^31 < 2^100)%Z by (apply Z.pow_lt_mono_r; lia). lia.
Qed.

Lemma barrier_safety dir n c0 s i j : (Z.of_nat n < 2^31)%Z -> reachable dir n c0 s ->
  i < n -> j < n -> left_ (cores s i) <= entered (cores s j).
Proof.
  intros Hn Hr Hi Hj. destruct (rounds n ltac:(lia) Hn) as (H1 & H2 & H3).
  exact (barrier_safe dir n ltac:(lia) (Nat.log2_up n) H1 H2 H3 c0 s i j Hr Hi Hj).
Qed.

Lemma barrier_liveness dir n c0 b sched : (Z.of_nat n < 2^31)%Z ->
  (forall t, sched t < n) ->
  (forall i, i < n -> forall t, exists t', t <= t' /\ sched t' = i) ->
  exists t, forall i, i < n -> finished b (exec_sched dir n b sched c0 t) i.
Proof.
  intros Hn Hs Hf. assert (0 < n) by (specialize (Hs 0); lia).
  destruct (rounds n ltac:(lia) Hn) as (H1 & H2 & H3).
  eapply (fair_finishes dir n H (Nat.log2_up n)); eauto.
Qed.
