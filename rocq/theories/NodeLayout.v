(* The arrays memory_old / memory_new of reduce_copies in terms of the blocks
   and pieces of TreeProofs. *)
From Verif Require Import Base BarrierModel NodeModel SyncProofs SyncItems TreeProofs TreeKnow NodeCode NodeCopyin.
From Coq Require Import Permutation.
Local Open Scope nat_scope.
Local Ltac Zify.zify_post_hook ::= idtac.

Lemma div_add_small a b r : r < b -> (a * b + r) / b = a.
Proof. intros Hr. rewrite Nat.div_add_l by lia. rewrite Nat.div_small by auto. lia. Qed.
Lemma mod_add_small a b r : r < b -> (a * b + r) mod b = r.
Proof. intros Hr. rewrite Nat.add_comm, Nat.mod_add by lia. now apply Nat.mod_small. Qed.
Lemma div_mod_eq a b : 0 < b -> a = a / b * b + a mod b.
Proof. intros Hb. rewrite (Nat.div_mod a b) at 1 by lia. lia. Qed.

Lemma blk_in a d k f : a < d -> k < f -> a + k * d < d * f.
Proof. intros. assert ((k + 1) * d <= f * d) by (apply Nat.mul_le_mono_r; lia). lia. Qed.

Section Layout.
  Context (h : nat) (ts sz : Z) (f0 : nat) (fac : nat -> nat) (F : nat).
  Hypothesis ts_pos : (0 < ts)%Z.
  Hypothesis sz_pos : (0 < sz)%Z.
  Hypothesis sz_ts : exists q, (sz = q * ts)%Z.
  Hypothesis f0_pos : 0 < f0.
  Hypothesis fac_pos : forall s, 0 < fac s.
  Hypothesis h_pos : 0 < h.
  Hypothesis F_pos : 0 < F.

  Notation Hs := (H fac).
  Notation Ds := (D f0 fac).
  Notation Cs := (C ts sz f0 fac).
  Notation v := (Ds (F - 1)).

  Hypothesis h_v : h <= v.
  Hypothesis whole : v = h \/ (sz < 128)%Z.

  Lemma DP s : 0 < Ds s.
  Proof using f0_pos fac_pos. now apply D_pos. Qed.
  Lemma DS s : Ds (S s) = Ds s * fac (S s).
  Proof. apply D_S. Qed.
  Lemma sz_nn : (0 <= sz)%Z.
  Proof. lia. Qed.

  Fixpoint perm (s q : nat) : nat :=
    match s with
    | O => q
    | S s' => (q mod fac s) * Ds s' + perm s' (q / fac s)
    end.
  Fixpoint inv (s y : nat) : nat :=
    match s with
    | O => y
    | S s' => inv s' (y mod Ds s') * fac s + y / Ds s'
    end.

  Lemma perm_lt s : forall q, q < Ds s -> perm s q < Ds s.
  Proof using f0_pos fac_pos.
    clear - f0_pos fac_pos.
    induction s as [|s IH]; intros q Hq; [auto|]. cbn [perm]. rewrite DS in *.
    pose proof (fac_pos (S s)) as P. pose proof (DP s) as PD.
    assert (A : q / fac (S s) < Ds s) by (apply Nat.div_lt_upper_bound; lia).
    pose proof (IH _ A) as B. pose proof (Nat.mod_upper_bound q (fac (S s)) ltac:(lia)) as E.
    revert B E. generalize (perm s (q / fac (S s))) (q mod fac (S s)). clear. intros; nia.
  Qed.

  Lemma inv_lt s : forall y, y < Ds s -> inv s y < Ds s.
  Proof using f0_pos fac_pos.
    clear - f0_pos fac_pos.
    induction s as [|s IH]; intros y Hy; [auto|]. cbn [inv].
    pose proof (div_lt_D f0 fac f0_pos fac_pos s y Hy) as A. rewrite DS in *.
    pose proof (DP s) as PD.
    pose proof (IH _ (Nat.mod_upper_bound y (Ds s) ltac:(lia))) as B.
    revert B A. generalize (inv s (y mod Ds s)) (y / Ds s). clear. intros; nia.
  Qed.

  Lemma perm_inv s : forall y, y < Ds s -> perm s (inv s y) = y.
  Proof using f0_pos fac_pos.
    clear - f0_pos fac_pos.
    induction s as [|s IH]; intros y Hy; [reflexivity|]. cbn [perm inv].
    pose proof (div_lt_D f0 fac f0_pos fac_pos s y Hy) as A. pose proof (DP s) as PD.
    rewrite div_add_small, mod_add_small by auto. rewrite IH by (apply Nat.mod_upper_bound; lia).
    symmetry. now apply div_mod_eq.
  Qed.

  Lemma inv_perm s : forall q, q < Ds s -> inv s (perm s q) = q.
  Proof using f0_pos fac_pos.
    clear - f0_pos fac_pos.
    induction s as [|s IH]; intros q Hq; [reflexivity|]. cbn [perm inv].
    rewrite DS in Hq. pose proof (fac_pos (S s)) as P. pose proof (DP s) as PD.
    assert (A : q / fac (S s) < Ds s) by (apply Nat.div_lt_upper_bound; lia).
    pose proof (perm_lt s _ A) as B.
    rewrite mod_add_small, div_add_small by auto. rewrite IH by auto. symmetry. now apply div_mod_eq.
  Qed.

  (* memory_new of step s *)
  Fixpoint mem_ (s : nat) : nat -> layout :=
    match s with
    | O => memory_step (Z.of_nat h) sz ts f0 1 (memory_start (Z.of_nat h) sz)
    | S s' => memory_step (Z.of_nat h) sz ts (fac s) (Ds s') (mem_ s')
    end.

  Definition rank_of (r : nat) : Z := if r <? h then Z.of_nat r else (-1)%Z.

  Definition lay_ok (s : nat) (m : nat -> layout) : Prop := forall b q, q < Ds s ->
    let y := perm s q in
    l_rank (m (b * Ds s + q)) = rank_of (b * Ds s + y) /\
    (b * Ds s < h -> l_size (m (b * Ds s + q)) = fst (Cs s y) /\
       (fst (Cs s y) <> 0%Z -> l_offset (m (b * Ds s + q)) = (Z.of_nat (b * Ds s) * sz + snd (Cs s y))%Z)) /\
    (h <= b * Ds s -> l_size (m (b * Ds s + q)) = 0%Z).

  (* a block of level s + 1 that is not ghost has no ghost sub-block, or all
     vectors are short *)
  Lemma sub_real s b k : S s < F -> b * Ds (S s) < h -> k < fac (S s) ->
    (b * fac (S s) + k) * Ds s < h \/ (sz < 128)%Z.
  Proof.
    intros HF Hb Hk. destruct whole as [E|E]; [left|right; auto].
    destruct (H_nest fac (S s) (F - 1) ltac:(lia)) as (q & Eq).
    assert (Ev : v = q * Ds (S s)) by (unfold D; rewrite Eq; ring).
    rewrite <- E, Ev in *.
    pose proof (DP (S s)) as P. pose proof (DP s) as P'.
    assert (b < q) by (apply Nat.mul_lt_mono_pos_r in Hb; auto).
    apply Nat.lt_le_trans with ((b + 1) * Ds (S s)).
    - rewrite DS. revert Hk P'. generalize (fac (S s)) (Ds s). clear. intros; nia.
    - apply Nat.mul_le_mono_r. lia.
  Qed.

  Lemma C_le s y : y < Ds s -> (0 <= fst (Cs s y) /\ 0 <= snd (Cs s y) /\ snd (Cs s y) + fst (Cs s y) <= sz)%Z.
  Proof.
    intros Hy. exact (proj1 (C_in ts sz f0 fac ts_pos sz_nn sz_ts f0_pos fac_pos s y Hy)).
  Qed.

  Lemma quot_64 z f : (0 <= z < 128)%Z -> 2 <= f -> (64 <=? Z.quot z (Z.of_nat f))%Z = false.
  Proof.
    intros Hz Hf. apply Z.leb_gt. rewrite Z.quot_div_nonneg by lia.
    apply Z.div_lt_upper_bound; lia.
  Qed.

  Lemma csplit_0 f k : 0 < f -> k < f -> fst (csplit ts 0 f k) = 0%Z.
  Proof.
    intros Hf Hk. unfold csplit. rewrite Z.quot_0_l by lia. cbn [Z.leb Z.compare]. destruct (k =? 0); reflexivity.
  Qed.

  (* one step *)
  Lemma mem_step s m : S s < F -> lay_ok s m ->
    lay_ok (S s) (memory_step (Z.of_nat h) sz ts (fac (S s)) (Ds s) m).
  Proof.
    intros HF Ok b q Hq y. pose proof (fac_pos (S s)) as P. pose proof (DP s) as PD. pose proof (DS s) as ED.
    set (f := fac (S s)) in *.
    set (j := q / f). set (k := q mod f).
    assert (Hk : k < f) by (apply Nat.mod_upper_bound; lia).
    assert (Hj : j < Ds s) by (apply Nat.div_lt_upper_bound; lia).
    assert (Eq : q = j * f + k) by (now apply div_mod_eq).
    assert (Ey : y = k * Ds s + perm s j) by reflexivity.
    assert (Hpj : perm s j < Ds s) by (now apply perm_lt).
    assert (Edf : Ds s * f = Ds (S s)) by lia.
    unfold memory_step. fold f. rewrite Edf.
    assert (E1 : (b * Ds (S s) + q) / Ds (S s) = b) by (now apply div_add_small).
    assert (E2 : (b * Ds (S s) + q) mod Ds (S s) = q) by (now apply mod_add_small).
    assert (E3 : (b * Ds (S s) + q) mod f = k).
    { rewrite ED, Nat.mul_assoc, Nat.add_comm, Nat.mod_add by lia. reflexivity. }
    rewrite E1, E2, E3. fold j.
    assert (E4 : b * Ds s * f + j = (b * f) * Ds s + j) by ring.
    assert (E5 : b * Ds s * f + j + k * Ds s = (b * f + k) * Ds s + j) by ring.
    rewrite E5, E4.
    destruct (Ok (b * f) j Hj) as (R1 & R2 & R3). destruct (Ok (b * f + k) j Hj) as (S1 & S2 & S3).
    cbv zeta in R1, R2, R3, S1, S2, S3.
    assert (Eb : b * f * Ds s = b * Ds (S s)) by (rewrite ED; ring).
    assert (Er : (b * f + k) * Ds s + perm s j = b * Ds (S s) + y) by (rewrite ED, Ey; ring).
    set (first := m (b * f * Ds s + j)) in *. set (sr := m ((b * f + k) * Ds s + j)) in *.
    clearbody first sr.
    rewrite Er in S1. rewrite Eb in R2, R3.
    assert (Ecs : Cs (S s) y = let p := Cs s (perm s j) in
       let c := csplit ts (fst p) f k in (fst c, snd p + snd c)%Z).
    { cbn [C]. rewrite Ey, mod_add_small, div_add_small by auto. reflexivity. }
    pose proof (C_le s (perm s j) Hpj) as (C1 & C2 & C3).
    assert (C4 : exists z, fst (Cs s (perm s j)) = (z * ts)%Z)
      by exact (proj2 (C_in ts sz f0 fac ts_pos sz_nn sz_ts f0_pos fac_pos s _ Hpj)).
    cbv zeta in Ecs. set (p := Cs s (perm s j)) in *. clearbody p.
    split; [|split].
    - destruct (if (CACHE_LINE_SIZE <=? _)%Z then _ else _) as (sl & al).
      destruct (_ <=? l_offset first)%Z; exact S1.
    - intros Hb. specialize (R2 Hb). destruct R2 as (R2 & R2').
      destruct (Z.eq_dec (fst p) 0) as [Z0|NZ].
      + (* an empty piece *)
        assert (EC0 : fst (Cs (S s) y) = 0%Z) by (rewrite Ecs, Z0; cbn [fst]; apply csplit_0; auto).
        rewrite EC0. split; [|intros; congruence].
        rewrite R2, Z0. rewrite Z.quot_0_l by lia. 
        change (CACHE_LINE_SIZE <=? 0)%Z with false.
        destruct (k =? 0); destruct (_ <=? l_offset first)%Z; reflexivity.
      + rewrite (R2' NZ).
        assert (Hnot : (sz * Z.of_nat h <=? Z.of_nat (b * Ds (S s)) * sz + snd p)%Z = false).
        { apply Z.leb_gt. assert (Hlt : (snd p < sz)%Z) by lia. clear - Hb Hlt sz_pos. nia. }
        rewrite Hnot. rewrite R2. change CACHE_LINE_SIZE with 64%Z.
        assert (Same : (64 <=? Z.quot (fst p) (Z.of_nat f))%Z = true -> l_size sr = fst p).
        { intros Q. destruct (sub_real s b k HF Hb Hk) as [Re|Sm].
          - fold f in Re. exact (proj1 (S2 Re)).
          - assert (f = 1).
            { destruct (le_lt_dec 2 f) as [L|L]; [|lia]. rewrite quot_64 in Q by lia. discriminate. }
            assert (k = 0) by lia.
            rewrite H0, Nat.add_0_r, Eb in S2. exact (proj1 (S2 Hb)). }
        rewrite Ecs. cbv zeta. unfold csplit.
        destruct (64 <=? Z.quot (fst p) (Z.of_nat f))%Z eqn:Q.
        * rewrite (Same eq_refl).
          destruct (Z.of_nat k <? Z.rem (Z.quot (fst p) ts) (Z.of_nat f))%Z; cbn [l_size l_offset fst snd];
            (split; [reflexivity|intros; ring]).
        * cbn [l_size l_offset fst snd]. split; [reflexivity|intros; ring].
    - intros Hb. specialize (R3 Hb).
      rewrite R3. rewrite Z.quot_0_l by lia. change (CACHE_LINE_SIZE <=? 0)%Z with false.
      destruct (k =? 0); destruct (_ <=? l_offset first)%Z; reflexivity.
  Qed.

  Lemma mem_first : lay_ok 0 (mem_ 0).
  Proof.
    intros b q Hq y. assert (E0 : Ds 0 = f0) by (unfold D; cbn [H]; lia). rewrite E0 in *.
    cbn [mem_ perm] in *. unfold y. clear y. cbn [perm]. unfold memory_step. rewrite Nat.mul_1_l.
    rewrite div_add_small, mod_add_small by auto. rewrite (Nat.div_small q f0) by auto.
    rewrite Nat.add_0_r, !Nat.mul_1_r.
    unfold memory_start. cbn [l_size l_offset l_rank].
    assert (Rk : (if (((b * f0 + q) =? 0)%nat || (Z.of_nat (b * f0 + q) <? Z.of_nat h)%Z)%bool
                  then Z.of_nat (b * f0 + q) else (-1)%Z) = rank_of (b * f0 + q)).
    { unfold rank_of. generalize (b * f0 + q). intros r.
      destruct (Nat.eqb_spec r 0), (Z.ltb_spec (Z.of_nat r) (Z.of_nat h)), (Nat.ltb_spec r h); simpl; auto; lia. }
    change (CACHE_LINE_SIZE) with 64%Z.
    split; [|split].
    - destruct (if (64 <=? _)%Z then _ else _) as (sl & al).
      destruct (sz * Z.of_nat h <=? Z.of_nat (b * f0) * sz)%Z; cbn [l_rank]; exact Rk.
    - intros Hb.
      assert (Hn : (sz * Z.of_nat h <=? Z.of_nat (b * f0) * sz)%Z = false) by (apply Z.leb_gt; nia).
      rewrite Hn. cbn [C]. unfold csplit.
      destruct (64 <=? Z.quot sz (Z.of_nat f0))%Z;
        [destruct (Z.of_nat q <? Z.rem _ _)%Z|]; cbn [l_size l_offset fst snd]; (split; [reflexivity|intros; ring]).
    - intros Hb.
      assert (Hn : (sz * Z.of_nat h <=? Z.of_nat (b * f0) * sz)%Z = true) by (apply Z.leb_le; nia).
      rewrite Hn. destruct (if (64 <=? _)%Z then _ else _) as (sl & al). reflexivity.
  Qed.

  Lemma mem_ok s : s < F -> lay_ok s (mem_ s).
  Proof.
    induction s as [|s IH]; intros Hs; [exact mem_first|]. cbn [mem_]. apply mem_step; auto. apply IH. lia.
  Qed.

  (* a non-empty piece belongs to a core *)
  Lemma own_real s b y : s < F -> b * Ds s < h -> y < Ds s -> (fst (Cs s y) <> 0)%Z -> b * Ds s + y < h.
  Proof.
    intros Hs Hb Hy NZ. destruct whole as [E|E].
    - destruct (H_nest fac s (F - 1) ltac:(lia)) as (q & Eq).
      assert (Ev : v = q * Ds s) by (unfold D; rewrite Eq; ring). rewrite <- E, Ev in *.
      pose proof (DP s) as P. assert (b < q) by (apply Nat.mul_lt_mono_pos_r in Hb; auto).
      apply Nat.lt_le_trans with ((b + 1) * Ds s); [lia|]. apply Nat.mul_le_mono_r. lia.
    - assert (y = 0) by (exact (C_short ts sz f0 fac ts_pos sz_nn sz_ts f0_pos fac_pos s E y Hy NZ)). lia.
  Qed.

  Definition pos (s r : nat) : nat := r / Ds s * Ds s + inv s (r mod Ds s).

  Lemma last_index (P : nat -> bool) N i : i < N -> P i = true -> (forall j, j < N -> P j = true -> j = i) ->
    forall d, fold_left (fun j k => if P k then k else j) (seq 0 N) d = i.
  Proof.
    intros Hi Pi U d. revert U. induction N as [|N IH]; intros U; [lia|].
    rewrite seq_S, fold_left_app. cbn [fold_left plus].
    destruct (Nat.eq_dec i N) as [->|Ne]; [now rewrite Pi|].
    destruct (P N) eqn:PN; [exfalso; apply Ne; symmetry; apply U; auto|].
    apply IH; [lia|]. intros; apply U; auto.
  Qed.

  Lemma no_index (P : nat -> bool) N : (forall j, j < N -> P j = false) ->
    forall d, fold_left (fun j k => if P k then k else j) (seq 0 N) d = d.
  Proof.
    intros U d. induction N as [|N IH]; [reflexivity|]. rewrite seq_S, fold_left_app. cbn [fold_left plus].
    rewrite U by lia. apply IH. intros; apply U; lia.
  Qed.

  Lemma mem_rank s idx : s < F -> l_rank (mem_ s idx) = rank_of (idx / Ds s * Ds s + perm s (idx mod Ds s)).
  Proof.
    intros Hs. pose proof (DP s) as P.
    assert (Hq : idx mod Ds s < Ds s) by (apply Nat.mod_upper_bound; lia).
    destruct (mem_ok s Hs (idx / Ds s) (idx mod Ds s) Hq) as (A & _). cbv zeta in A.
    now rewrite <- (div_mod_eq idx (Ds s)) in A by auto.
  Qed.

  Lemma pos_lt s r : s < F -> r < v -> pos s r < v.
  Proof.
    intros Hs Hr. destruct (H_nest fac s (F - 1) ltac:(lia)) as (q & Eq).
    assert (Ev : v = q * Ds s) by (unfold D; rewrite Eq; ring). rewrite Ev in Hr |- *.
    pose proof (DP s) as P. unfold pos.
    assert (r / Ds s < q) by (apply Nat.div_lt_upper_bound; lia).
    pose proof (inv_lt s (r mod Ds s) ltac:(apply Nat.mod_upper_bound; lia)).
    apply Nat.lt_le_trans with ((r / Ds s + 1) * Ds s); [lia|]. apply Nat.mul_le_mono_r. lia.
  Qed.

  Lemma pos_unique s r idx : r < h -> s < F -> l_rank (mem_ s idx) = Z.of_nat r -> idx = pos s r.
  Proof.
    intros Hr Hs E. rewrite mem_rank in E by auto. unfold rank_of in E.
    destruct (_ <? h) eqn:L; [|lia]. apply Nat2Z.inj in E. pose proof (DP s) as P.
    assert (Hq : idx mod Ds s < Ds s) by (apply Nat.mod_upper_bound; lia).
    pose proof (perm_lt s _ Hq) as Hp. unfold pos. rewrite <- E.
    rewrite div_add_small, mod_add_small by auto. rewrite inv_perm by auto. now apply div_mod_eq.
  Qed.

  Lemma rank_pos s r : s < F -> r < h -> l_rank (mem_ s (pos s r)) = Z.of_nat r.
  Proof.
    intros Hs Hr. pose proof (DP s) as P.
    assert (Hy : r mod Ds s < Ds s) by (apply Nat.mod_upper_bound; lia).
    pose proof (inv_lt s _ Hy) as Hi.
    rewrite mem_rank by auto. unfold pos. rewrite div_add_small, mod_add_small, perm_inv by auto.
    rewrite <- div_mod_eq by auto. unfold rank_of. now rewrite (proj2 (Nat.ltb_lt _ _)) by auto.
  Qed.

  Lemma own_index_eq s r : s < F -> r < h -> own_index v (mem_ s) (Z.of_nat r) = pos s r.
  Proof.
    intros Hs Hr. unfold own_index.
    apply (last_index (fun k => (Z.of_nat r =? l_rank (mem_ s k))%Z)).
    - apply pos_lt; auto. lia.
    - rewrite rank_pos by auto. apply Z.eqb_refl.
    - intros j _ E. apply Z.eqb_eq in E. apply pos_unique; auto.
  Qed.

  Lemma own_index_none s r : s < F -> h <= r -> own_index v (mem_ s) (Z.of_nat r) = 0.
  Proof.
    intros Hs Hr. unfold own_index.
    apply (no_index (fun k => (Z.of_nat r =? l_rank (mem_ s k))%Z)).
    intros j _. apply Z.eqb_neq. rewrite mem_rank by auto. unfold rank_of.
    destruct (Nat.ltb_spec (j / Ds s * Ds s + perm s (j mod Ds s)) h); lia.
  Qed.

  Lemma pos_lay s r : s < F -> r < h ->
    l_size (mem_ s (pos s r)) = fst (Cs s (r mod Ds s)) /\
    (fst (Cs s (r mod Ds s)) <> 0%Z ->
     l_offset (mem_ s (pos s r)) = (Z.of_nat (r / Ds s * Ds s) * sz + snd (Cs s (r mod Ds s)))%Z).
  Proof.
    intros Hs Hr. pose proof (DP s) as P.
    assert (Hy : r mod Ds s < Ds s) by (apply Nat.mod_upper_bound; lia).
    pose proof (inv_lt s _ Hy) as Hi.
    destruct (mem_ok s Hs (r / Ds s) _ Hi) as (_ & B & _). cbv zeta in B. rewrite perm_inv in B by auto.
    apply B. pose proof (Nat.mul_div_le r (Ds s) ltac:(lia)). lia.
  Qed.

  (* ---- the group of a core at step s + 1 ---- *)
  Notation base s r := (r / Ds (S s) * Ds (S s) + (r mod Ds (S s)) mod Ds s).
  Notation idx s r := ((r mod Ds (S s)) / Ds s).

  Lemma idx_lt s r : idx s r < fac (S s).
  Proof. apply (div_lt_D f0 fac f0_pos fac_pos). apply Nat.mod_upper_bound. pose proof (DP (S s)). lia. Qed.

  Lemma base_idx s r : r = base s r + idx s r * Ds s.
  Proof.
    pose proof (DP (S s)). pose proof (DP s).
    rewrite (div_mod_eq r (Ds (S s))) at 1 by auto.
    rewrite (div_mod_eq (r mod Ds (S s)) (Ds s)) at 1 by auto. lia.
  Qed.

  Lemma member_rank s r k : S s < F -> k < fac (S s) ->
    l_rank (mem_ (S s) (pos (S s) r / fac (S s) * fac (S s) + k)) = rank_of (base s r + k * Ds s).
  Proof.
    intros Hs Hk. rewrite mem_rank by auto. f_equal.
    pose proof (DP (S s)) as P. pose proof (DP s) as P'. pose proof (fac_pos (S s)) as Pf.
    assert (Hy : r mod Ds (S s) < Ds (S s)) by (apply Nat.mod_upper_bound; lia).
    pose proof (idx_lt s r) as Hi.
    assert (Hm : (r mod Ds (S s)) mod Ds s < Ds s) by (apply Nat.mod_upper_bound; lia).
    pose proof (inv_lt s _ Hm) as Hv.
    set (a := inv s ((r mod Ds (S s)) mod Ds s)) in *.
    assert (Ep : pos (S s) r / fac (S s) * fac (S s) = r / Ds (S s) * Ds (S s) + a * fac (S s)).
    { unfold pos. cbn [inv]. fold a. rewrite DS.
      replace (r / (Ds s * fac (S s)) * (Ds s * fac (S s)) + (a * fac (S s) + (r mod (Ds s * fac (S s))) / Ds s))
        with ((r / (Ds s * fac (S s)) * Ds s + a) * fac (S s) + (r mod (Ds s * fac (S s))) / Ds s) by ring.
      rewrite div_add_small by (rewrite <- DS; auto). ring. }
    rewrite Ep. rewrite <- Nat.add_assoc.
    assert (Hq : a * fac (S s) + k < Ds (S s)).
    { rewrite DS. revert Hv Hk. generalize (fac (S s)) (Ds s). clear. intros; nia. }
    rewrite div_add_small, mod_add_small by auto.
    cbn [perm]. rewrite mod_add_small, div_add_small by auto.
    unfold a. rewrite perm_inv by auto. lia.
  Qed.

  Lemma mem_nonzero s j : s < F -> l_size (mem_ s j) <> 0%Z ->
    exists r, r < h /\ l_rank (mem_ s j) = Z.of_nat r /\ fst (Cs s (r mod Ds s)) <> 0%Z /\ j = pos s r.
  Proof.
    intros Hs NZ. pose proof (DP s) as P.
    assert (Hq : j mod Ds s < Ds s) by (apply Nat.mod_upper_bound; lia).
    pose proof (perm_lt s _ Hq) as Hp.
    destruct (mem_ok s Hs (j / Ds s) (j mod Ds s) Hq) as (A & B & Gh). cbv zeta in A, B, Gh.
    rewrite <- (div_mod_eq j (Ds s)) in A, B, Gh by auto.
    destruct (le_lt_dec h (j / Ds s * Ds s)) as [L|L]; [rewrite Gh in NZ by auto; congruence|].
    destruct (B L) as (B1 & _). rewrite B1 in NZ.
    pose proof (own_real s (j / Ds s) _ Hs L Hp NZ) as Re.
    exists (j / Ds s * Ds s + perm s (j mod Ds s)). split; [auto|].
    assert (E : l_rank (mem_ s j) = Z.of_nat (j / Ds s * Ds s + perm s (j mod Ds s))).
    { rewrite A. unfold rank_of. now rewrite (proj2 (Nat.ltb_lt _ _) Re). }
    split; [exact E|]. split; [rewrite mod_add_small by auto; exact NZ|]. apply pos_unique; auto.
  Qed.

  (* the number of real members *)
  Definition nbr (s r : nat) : nat := length (filter (fun k => base s r + k * Ds s <? h) (seq 0 (fac (S s)))).

  Lemma filter_prefix (P : nat -> bool) : (forall a b, a <= b -> P b = true -> P a = true) ->
    forall N, filter P (seq 0 N) = seq 0 (length (filter P (seq 0 N))).
  Proof.
    intros Mono. induction N as [|N IH]; [reflexivity|].
    rewrite seq_S, filter_app. cbn [filter plus]. destruct (P N) eqn:PN.
    - assert (E : filter P (seq 0 N) = seq 0 N).
      { clear IH. assert (Q : forall l, (forall x, In x l -> P x = true) -> filter P l = l).
        { induction l as [|x l IHl]; simpl; intros Q; auto. rewrite Q by auto. now rewrite IHl by auto. }
        apply Q. intros x Ix. apply in_seq in Ix. apply (Mono x N); [lia|auto]. }
      rewrite E. rewrite app_length, seq_length. cbn [length]. rewrite Nat.add_1_r. now rewrite seq_S.
    - rewrite app_nil_r. exact IH.
  Qed.

  Lemma nbr_spec s r k : k < fac (S s) -> base s r + k * Ds s < h <-> k < nbr s r.
  Proof.
    intros Hk. set (P := fun k => base s r + k * Ds s <? h).
    assert (E : filter P (seq 0 (fac (S s))) = seq 0 (nbr s r)).
    { apply (filter_prefix P). intros a b L. unfold P. rewrite !Nat.ltb_lt. intros Q.
      assert (a * Ds s <= b * Ds s) by (apply Nat.mul_le_mono_r; auto). lia. }
    assert (Q : In k (filter P (seq 0 (fac (S s)))) <-> In k (seq 0 (nbr s r))) by now rewrite E.
    rewrite filter_In, !in_seq in Q. unfold P in Q. rewrite Nat.ltb_lt in Q. lia.
  Qed.

  Lemma nbr_le s r : nbr s r <= fac (S s).
  Proof.
    unfold nbr. rewrite <- (seq_length (fac (S s)) 0) at 2.
    generalize (seq 0 (fac (S s))). induction l as [|x l IH]; simpl; [lia|]. destruct (_ <? h); simpl; lia.
  Qed.

  Lemma idx_nbr s r : r < h -> idx s r < nbr s r.
  Proof. intros Hr. apply nbr_spec; [apply idx_lt|]. rewrite <- base_idx. auto. Qed.

  (* filtering a rotation *)
  Lemma filter_rot {A} (g : nat -> A) (P : A -> bool) f nb k : k < nb -> nb <= f ->
    (forall i, i < f -> P (g i) = (i <? nb)) ->
    filter P (map (fun t => g ((t + k) mod f)) (seq 0 f)) = map (fun t => g ((t + k) mod nb)) (seq 0 nb).
  Proof.
    intros Hk Hn HP.
    assert (Ef : seq 0 f = seq 0 (nb - k) ++ seq (nb - k) (f - nb) ++ seq (nb - k + (f - nb)) k).
    { rewrite <- (seq_app (f - nb) k (nb - k)). rewrite <- (seq_app (nb - k) (f - nb + k) 0 : _ = _ ++ seq (nb - k) _). f_equal. lia. }
    rewrite Ef, !map_app, !filter_app.
    assert (E1 : filter P (map (fun t => g ((t + k) mod f)) (seq 0 (nb - k))) = map (fun t => g ((t + k) mod nb)) (seq 0 (nb - k))).
    { assert (Q : forall l, (forall t, In t l -> t + k < nb) ->
        filter P (map (fun t => g ((t + k) mod f)) l) = map (fun t => g ((t + k) mod nb)) l).
      { induction l as [|t l IH]; intros Ql; [reflexivity|]. cbn [map filter].
        assert (t + k < nb) by (apply Ql; simpl; auto).
        rewrite !Nat.mod_small by lia. rewrite HP by lia. rewrite (proj2 (Nat.ltb_lt _ _)) by auto.
        f_equal. apply IH. intros; apply Ql; simpl; auto. }
      apply Q. intros t It. apply in_seq in It. lia. }
    assert (E2 : filter P (map (fun t => g ((t + k) mod f)) (seq (nb - k) (f - nb))) = []).
    { apply filter_nil. intros a Ia. apply in_map_iff in Ia. destruct Ia as (t & <- & It). apply in_seq in It.
      rewrite Nat.mod_small by lia. rewrite HP by lia. apply Nat.ltb_ge. lia. }
    assert (E3 : filter P (map (fun t => g ((t + k) mod f)) (seq (nb - k + (f - nb)) k)) =
                 map (fun t => g ((t + k) mod nb)) (seq (nb - k) k)).
    { replace (nb - k + (f - nb)) with (f - k) by lia.
      assert (Q : forall c, c <= k -> filter P (map (fun t => g ((t + k) mod f)) (seq (f - k) c)) =
                 map (fun t => g ((t + k) mod nb)) (seq (nb - k) c)).
      { induction c as [|c IH]; intros Hc; [reflexivity|].
        rewrite !seq_S, !map_app, filter_app, IH by lia. f_equal. cbn [map filter].
        replace (f - k + c + k) with (c + 1 * f) by lia. replace (nb - k + c + k) with (c + 1 * nb) by lia.
        rewrite !Nat.mod_add, !Nat.mod_small by lia. rewrite HP by lia.
        now rewrite (proj2 (Nat.ltb_lt _ _)) by lia. }
      apply Q. lia. }
    rewrite E1, E2, E3. cbn [app]. rewrite <- map_app. rewrite <- (seq_app (nb - k) k 0 : _ = _ ++ seq (nb - k) _). f_equal. f_equal. lia.
  Qed.

  Definition busy (s r : nat) : bool := negb (fst (Cs s ((r mod Ds (S s)) mod Ds s)) =? 0)%Z.

  Lemma step_ranks_eq s r : S s < F -> r < h ->
    exists ranks, step_ranks (Z.of_nat h) v (fac (S s)) (mem_ (S s)) (Z.of_nat r) =
      (ranks, if busy s r then Z.of_nat (nbr s r) else 0%Z) /\
      at_ ranks 0 = Z.of_nat r /\
      (busy s r = true -> ranks = map (fun t => Z.of_nat (base s r + ((t + idx s r) mod nbr s r) * Ds s)) (seq 0 (nbr s r))).
  Proof.
    intros Hs Hr. unfold step_ranks. rewrite own_index_eq by auto.
    pose proof (idx_lt s r) as Hi. pose proof (fac_pos (S s)) as Pf. pose proof (DP s) as P. pose proof (DP (S s)) as P'.
    pose proof (idx_nbr s r Hr) as Hin. pose proof (nbr_le s r) as Hnb.
    set (f := fac (S s)) in *.
    set (j := pos (S s) r).
    assert (Ej : j - j / f * f = idx s r).
    { assert (Em : j mod f = idx s r).
      { unfold j, pos. cbn [inv]. fold f.
        rewrite (DS s). fold f.
        replace (r / (Ds s * f) * (Ds s * f) + (inv s ((r mod (Ds s * f)) mod Ds s) * f + (r mod (Ds s * f)) / Ds s))
          with ((r / (Ds s * f) * Ds s + inv s ((r mod (Ds s * f)) mod Ds s)) * f + (r mod (Ds s * f)) / Ds s) by ring.
        apply mod_add_small. unfold f. rewrite <- DS. exact Hi. }
      pose proof (div_mod_eq j f Pf). lia. }
    rewrite Ej.
    rewrite (map_ext_in _ (fun t => rank_of (base s r + ((t + idx s r) mod f) * Ds s))).
    2:{ intros t _. apply member_rank; auto. apply Nat.mod_upper_bound. lia. }
    set (ranks := map _ (seq 0 f)).
    assert (Eb : existsb (fun z => existsb (fun k => (z =? l_rank (mem_ (S s) k))%Z && negb (l_size (mem_ (S s) k) =? 0)%Z)
                   (seq 0 v)) ranks = busy s r).
    { apply eq_true_iff_eq. rewrite existsb_exists. unfold busy. rewrite negb_true_iff, Z.eqb_neq. split.
      - intros (z & Iz & E). apply existsb_exists in E. destruct E as (k & Ik & E). apply andb_true_iff in E.
        destruct E as (E1 & E2). apply Z.eqb_eq in E1. apply negb_true_iff, Z.eqb_neq in E2.
        destruct (mem_nonzero (S s) k Hs E2) as (r' & Hr' & Er' & NZ & _).
        rewrite Er' in E1. unfold ranks in Iz. apply in_map_iff in Iz. destruct Iz as (t & Et & _).
        rewrite E1 in Et. unfold rank_of in Et. destruct (_ <? h) eqn:L; [|lia]. apply Nat2Z.inj in Et.
        assert (Hyr : r' mod Ds (S s) < Ds (S s)) by (apply Nat.mod_upper_bound; lia).
        apply (C_nonzero_down ts sz f0 fac ts_pos sz_nn sz_ts f0_pos fac_pos s _ Hyr) in NZ.
        replace ((r mod Ds (S s)) mod Ds s) with ((r' mod Ds (S s)) mod Ds s); auto.
        rewrite <- Et.
        set (i := (t + idx s r) mod f). assert (Hif : i < f) by (apply Nat.mod_upper_bound; lia).
        assert (Hm : (r mod Ds (S s)) mod Ds s < Ds s) by (apply Nat.mod_upper_bound; lia).
        rewrite <- Nat.add_assoc. rewrite mod_add_small.
        + rewrite Nat.add_comm. apply mod_add_small. auto.
        + eapply Nat.lt_le_trans; [apply (blk_in _ _ i f Hm Hif)|]. unfold f. rewrite <- DS. apply le_n.
      - intros NZ. exists (Z.of_nat (base s r)).
        assert (Hb0 : base s r < h) by (pose proof (base_idx s r); lia).
        split.
        + unfold ranks. apply in_map_iff. exists ((f - idx s r) mod f).
          assert (E0 : ((f - idx s r) mod f + idx s r) mod f = 0).
          { rewrite Nat.add_mod_idemp_l by lia. replace (f - idx s r + idx s r) with f by lia. apply Nat.mod_same. lia. }
          rewrite E0. rewrite Nat.mul_0_l, Nat.add_0_r. unfold rank_of. rewrite (proj2 (Nat.ltb_lt _ _) Hb0).
          split; [reflexivity|]. apply in_seq. pose proof (Nat.mod_upper_bound (f - idx s r) f). lia.
        + apply existsb_exists. exists (pos (S s) (base s r)). split.
          * apply in_seq. pose proof (pos_lt (S s) (base s r) Hs ltac:(lia)). lia.
          * rewrite rank_pos by auto. rewrite Z.eqb_refl. cbn [andb]. apply negb_true_iff, Z.eqb_neq.
            rewrite (proj1 (pos_lay (S s) (base s r) Hs Hb0)).
            assert (Hm : (r mod Ds (S s)) mod Ds s < Ds s) by (apply Nat.mod_upper_bound; lia).
            rewrite mod_add_small by (pose proof (blk_in _ _ 0 f Hm Pf) as Q; rewrite Nat.mul_0_l, Nat.add_0_r in Q;
              unfold f in Q; rewrite <- DS in Q; exact Q).
            pose proof (C_le s _ Hm).
            pose proof (C_first ts sz f0 fac ts_pos sz_nn sz_ts f0_pos fac_pos s _ Hm ltac:(lia)). lia. }
    rewrite Eb. rewrite (proj2 (Z.leb_gt _ _)) by lia.
    assert (A0 : at_ ranks 0 = Z.of_nat r).
    { unfold at_, ranks. simpl (Z.to_nat 0). rewrite (nth_indep _ 0%Z (rank_of (base s r + ((0 + idx s r) mod f) * Ds s)))
        by (rewrite map_length, seq_length; lia).
      rewrite (map_nth (fun t => rank_of (base s r + ((t + idx s r) mod f) * Ds s))). rewrite seq_nth by lia.
      rewrite !Nat.add_0_l. rewrite (Nat.mod_small (idx s r) f) by exact Hi. rewrite <- base_idx. unfold rank_of.
      now rewrite (proj2 (Nat.ltb_lt _ _) Hr). }
    destruct (busy s r) eqn:B.
    - assert (Ef : filter (Z.leb 0) ranks = map (fun t => Z.of_nat (base s r + ((t + idx s r) mod nbr s r) * Ds s)) (seq 0 (nbr s r))).
      { unfold ranks. rewrite (filter_rot (fun i => rank_of (base s r + i * Ds s)) (Z.leb 0) f (nbr s r) (idx s r)); auto.
        - apply map_ext_in. intros t It. unfold rank_of.
          rewrite (proj2 (Nat.ltb_lt _ _)); [reflexivity|].
          pose proof (Nat.mod_upper_bound (t + idx s r) (nbr s r) ltac:(lia)) as Q. apply nbr_spec; auto. fold f. lia.
        - intros i Hi'. unfold rank_of. pose proof (nbr_spec s r i Hi') as Q.
          destruct (Nat.ltb_spec (base s r + i * Ds s) h) as [A|A], (Nat.ltb_spec i (nbr s r)) as [A'|A'].
          + apply Z.leb_le. apply Nat2Z.is_nonneg.
          + apply Q in A. exfalso. clear - A A'. lia.
          + apply Q in A'. exfalso. clear - A A'. lia.
          + reflexivity. }
      rewrite Ef. eexists. split; [f_equal; rewrite map_length, seq_length; reflexivity|].
      split; [|auto].
      change (Z.of_nat r) with (id (Z.of_nat r)). revert Hin. unfold at_. change (Z.to_nat 0) with 0.
      destruct (nbr s r) as [|m]; intros Hin; [inversion Hin|]. cbn [seq map nth]. rewrite Nat.add_0_l.
      rewrite (Nat.mod_small (idx s r)) by exact Hin. rewrite <- base_idx. reflexivity.
    - exists ranks. split; [reflexivity|]. split; [exact A0|discriminate].
  Qed.
End Layout.
